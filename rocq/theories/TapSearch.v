(** Model of the search for tap positions: optimizer/tap_position_optimizer.hpp 442-483, 702-764, 795-1385 and
    main_model_impl.hpp 318-348. The ranking of the transformers is in [TapRank.v]; here the order is given.
    Simplifications:
    - a transformer is its position in one list of taps, whatever its type; update_ finds a transformer by its id ([Update.v]) and
      changes only its tap, because all other values of the record are not available (1330-1335, 1407-1410);
    - calculate_ is an arbitrary function of everything that happened before, of the taps and of the method, that returns a result or throws;
    - the compensated voltage mean |u + z i| at the controlled node (720-729, 1119-1129) is read from the result by an arbitrary function. *)
From Verif Require Import Common Component.

(** common/enum.hpp: OptimizerStrategy, SearchMethod; the methods that matter here *)
Inductive strategy : Type := Any | GlobalMinimum | GlobalMaximum | LocalMinimum | LocalMaximum | FastAny.
Inductive search_method : Type := LinearSearch | BinarySearch.
Inductive calc_method : Type := Requested | LinearMethod.
Definition strategy_is_max (s : strategy) : bool := match s with GlobalMaximum | LocalMaximum => true | _ => false end.
Definition strategy_is_min (s : strategy) : bool := match s with GlobalMinimum | LocalMinimum => true | _ => false end.
Definition strategy_is_fast_any (s : strategy) : bool := match s with FastAny => true | _ => false end.
(** std::partial_ordering *)
Inductive ordering : Type := Less | Equivalent | Greater | Unordered.
Definition ordering_eqb (a b : ordering) : bool :=
  match a, b with Less, Less | Equivalent, Equivalent | Greater, Greater | Unordered, Unordered => true | _, _ => false end.
Definition is_gt (c : ordering) : bool := match c with Greater => true | _ => false end.
Definition is_lt (c : ordering) : bool := match c with Less => true | _ => false end.
Definition is_eq (c : ordering) : bool := match c with Equivalent => true | _ => false end.
Definition is_neq (c : ordering) : bool := negb (is_eq c).

(** main_model_impl.hpp 335-337, tap_position_optimizer.hpp 922-963: the search method given is always supported *)
Definition search_of (s : strategy) : search_method := match s with Any => LinearSearch | _ => BinarySearch end.

(** 442-454 *)
Definition one_step_tap_up (t : tap) : Z :=
  if (tap_pos t =? tap_max t)%Z then tap_max t
  else if (tap_min t <? tap_max t)%Z then (tap_pos t + 1)%Z else (tap_pos t - 1)%Z.
(** 455-467 *)
Definition one_step_tap_down (t : tap) : Z :=
  if (tap_pos t =? tap_min t)%Z then tap_min t
  else if (tap_min t <? tap_max t)%Z then (tap_pos t - 1)%Z else (tap_pos t + 1)%Z.
(** 468-483 *)
Definition one_step_control_voltage_up (t : tap) (control_at_tap_side : bool) : Z :=
  if control_at_tap_side then one_step_tap_up t else one_step_tap_down t.
Definition one_step_control_voltage_down (t : tap) (control_at_tap_side : bool) : Z :=
  if control_at_tap_side then one_step_tap_down t else one_step_tap_up t.
(** 510-514 *)
Definition tap_range (t : tap) : nat := Z.to_nat (Z.abs (tap_max t - tap_min t)).

(** 795-913: BinarySearch *)
Record bsearch : Type := mkBs {
  bs_lower : Z; bs_upper : Z; bs_current : Z; bs_last_down : bool; bs_last_check : bool;
  bs_reverse : bool; bs_inevitable : bool; bs_at_tap : bool }.
(** 868-877 *)
Definition bs_reset (pos tmin tmax : Z) (control_at_tap_side : bool) : bsearch :=
  mkBs (Z.min tmin tmax) (Z.max tmin tmax) pos false false (tmax <? tmin)%Z false control_at_tap_side.
(** 805 *)
Definition bs_end (b : bsearch) : bool := (bs_upper b <=? bs_lower b)%Z.
(** std::midpoint of two int8: rounds towards the first *)
Definition midpoint (a b : Z) : Z := if (a <=? b)%Z then (a + (b - a) / 2)%Z else (a - (a - b) / 2)%Z.
(** 892-903 *)
Definition bs_search (prefer_higher_ : bool) (b : bsearch) : Z :=
  if xorb (bs_at_tap b) prefer_higher_ then midpoint (bs_upper b) (bs_lower b) else midpoint (bs_lower b) (bs_upper b).
(** 879-890 *)
Definition bs_adjust (strategy_max : bool) (b : bsearch) : bsearch :=
  let b := if bs_last_down b
    then mkBs (bs_lower b) (bs_current b) (bs_current b) (bs_last_down b) (bs_last_check b) (bs_reverse b) (bs_inevitable b) (bs_at_tap b)
    else mkBs (bs_current b) (bs_upper b) (bs_current b) (bs_last_down b) (bs_last_check b) (bs_reverse b) (bs_inevitable b) (bs_at_tap b) in
  if (bs_lower b <? bs_upper b)%Z
  then mkBs (bs_lower b) (bs_upper b) (bs_search (xorb strategy_max (bs_reverse b)) b) (bs_last_down b) (bs_last_check b) (bs_reverse b) (bs_inevitable b) (bs_at_tap b)
  else b.
(** 811-826 *)
Definition bs_recalibrate (strategy_max : bool) (b : bsearch) : bsearch :=
  let invert_strategy := xorb (bs_at_tap b) strategy_max in
  if Bool.eqb (bs_reverse b) invert_strategy
  then mkBs (bs_current b) (bs_upper b) (bs_current b) false (bs_last_check b) (bs_reverse b) (bs_inevitable b) (bs_at_tap b)
  else mkBs (bs_lower b) (bs_current b) (bs_current b) true (bs_last_check b) (bs_reverse b) (bs_inevitable b) (bs_at_tap b).
(** 828-837 *)
Definition bs_propose_new_pos (strategy_max above_range : bool) (b : bsearch) : bsearch :=
  let is_down := xorb (Bool.eqb above_range (bs_reverse b)) (bs_at_tap b) in
  if bs_last_check b
  then mkBs (bs_lower b) (bs_upper b) (if is_down then bs_lower b else bs_upper b) (bs_last_down b) (bs_last_check b) (bs_reverse b) true (bs_at_tap b)
  else bs_adjust strategy_max
         (mkBs (bs_lower b) (bs_upper b) (bs_current b) is_down (bs_last_check b) (bs_reverse b) (bs_inevitable b) (bs_at_tap b)).
(** 839-861: the new object, the position and the value of tap_changed *)
Definition bs_repropose_tap (strategy_max previous_down : bool) (b : bsearch) : bsearch * Z * bool :=
  let prefer_higher := xorb (xorb strategy_max (bs_reverse b)) (bs_at_tap b) in
  let pos := bs_search prefer_higher b in
  let diff := (pos - bs_current b)%Z in
  if (diff =? 0)%Z then
    (mkBs (bs_lower b) (bs_upper b) (bs_current b) (bs_last_down b) (bs_last_check b) (bs_reverse b) true (bs_at_tap b),
     pos, negb (bs_inevitable b))
  else
    let check := (((diff =? 1) && previous_down) || ((diff =? -1) && negb previous_down))%Z in
    (mkBs (bs_lower b) (bs_upper b) pos (bs_last_down b) (bs_last_check b || check) (bs_reverse b) (bs_inevitable b) (bs_at_tap b),
     pos, true).
(** 807-809 as used by 1243-1255 *)
Definition bs_restart (pos : Z) (b : bsearch) : bsearch :=
  mkBs (bs_lower b) (bs_upper b) pos (bs_last_down b) false (bs_reverse b) false (bs_at_tap b).

(** 528-535: a regulated transformer; [rg_connected]: 693-700, fixed by the topology *)
Record regulated : Type := mkRegulated { rg_trafo : nat; rg_at_tap : bool; rg_connected : bool }.
Definition ranked : Type := list (list regulated).
Definition no_tap : tap := mkTap 0 0 0.
Definition tap_at (ts : list tap) (rg : regulated) : tap := nth (rg_trafo rg) ts no_tap.

(** 1226-1241: the records of [update_data] are applied one by one, transformer.hpp 102-107, 110-115; a transformer occurs with one type only *)
Definition apply_update (ts : list tap) (u : nat * Z) : list tap :=
  match nth_error ts (fst u) with Some t => upd (fst u) (fst (set_tap t (snd u))) ts | None => ts end.
Definition update_state (ts : list tap) (us : list (nat * Z)) : list tap := fold_left apply_update us ts.
(** 1362-1385, transformer.hpp 117-124 *)
Definition cache_states (order : ranked) (ts : list tap) : list (nat * Z) :=
  map (fun rg => (rg_trafo rg, set_if_int (tap_pos (tap_at ts rg)) (tap_pos (tap_at ts rg)))) (concat order).

Section Search.
(** double with its comparison <= *)
Context {D : Type} (leb : D -> D -> bool).
(** 712-713: the comparison <=> of doubles *)
Definition compare (x y : D) : ordering :=
  if leb x y then (if leb y x then Equivalent else Less) else if leb y x then Greater else Unordered.
(** 702-718: [lower] is u_set - 0.5 * u_band and [upper] is u_set + 0.5 * u_band *)
Definition compare_band (v lower upper : D) : ordering :=
  if ordering_eqb (compare v lower) (compare v upper) then compare v lower else Equivalent.

Context {World Result : Type}.
Variable calculate : World -> list tap -> calc_method -> World * res Result.
Variable voltage : Result -> regulated -> D.
Variable band : regulated -> D * D.
Variable strat : strategy.
Variable order : ranked.

(** 724-728 *)
Definition compare_state (r : Result) (rg : regulated) : ordering := compare_band (voltage r rg) (fst (band rg)) (snd (band rg)).

(** What the optimizer works on: the power flow solver, the taps of the model, the binary searches, and, only observed, the taps of all calculations. *)
Record opt_state : Type := mkOpt { os_world : World; os_taps : list tap; os_bs : list (list bsearch); os_tried : list (list tap) }.
Definition bs_at (bss : list (list bsearch)) (i j : nat) : bsearch := nth j (nth i bss []) (bs_reset 0 0 0 false).
Definition set_bs (bss : list (list bsearch)) (i j : nat) (b : bsearch) : list (list bsearch) := upd i (upd j b (nth i bss [])) bss.

(** 1131-1163 *)
Definition adjust_transformer_scan (r : Result) (ts : list tap) (rg : regulated) (updates : list (nat * Z)) : bool * list (nat * Z) :=
  if negb (rg_connected rg) then (false, updates)
  else
    let t := tap_at ts rg in
    let cmp := compare_state r rg in
    let new_tap_pos :=
      if is_gt cmp then one_step_control_voltage_down t (rg_at_tap rg)
      else if is_lt cmp then one_step_control_voltage_up t (rg_at_tap rg)
      else tap_pos t in
    if (new_tap_pos =? tap_pos t)%Z then (false, updates) else (true, updates ++ [(rg_trafo rg, new_tap_pos)]).

(** 1165-1224; the exception leaves the new binary search behind *)
Definition adjust_transformer_bs (r : Result) (ts : list tap) (rg : regulated) (b : bsearch) (updates : list (nat * Z))
  : bsearch * res (bool * list (nat * Z)) :=
  if negb (rg_connected rg) then (b, Ok (false, updates))
  else if bs_end b || bs_inevitable b then (b, Ok (false, updates))
  else
    let t := tap_at ts rg in
    let cmp := compare_state r rg in
    let b1 := if is_neq cmp then bs_propose_new_pos (strategy_is_max strat) (is_gt cmp) b else b in
    let new_tap_pos := bs_current b1 in
    if negb (new_tap_pos =? tap_pos t)%Z then (b1, Ok (true, updates ++ [(rg_trafo rg, new_tap_pos)]))
    else if strategy_is_fast_any strat && is_eq cmp then (b1, Ok (false, updates))
    else
      let previous_down := bs_last_down b1 in
      let '(b2, pos, tap_changed) := bs_repropose_tap (strategy_is_max strat) previous_down (bs_recalibrate (strategy_is_max strat) b1) in
      if (pos =? tap_pos t)%Z && is_neq cmp && negb (bs_end b2) then (bs_reset pos (tap_min t) (tap_max t) (bs_at_tap b2), Err MaxIterationReached)
      else (b2, Ok (tap_changed, updates ++ [(rg_trafo rg, pos)])).

(** 1107-1117 *)
Definition adjust_transformer (search : search_method) (r : Result) (ts : list tap) (i j : nat) (rg : regulated) (bss : list (list bsearch)) (updates : list (nat * Z))
  : list (list bsearch) * res (bool * list (nat * Z)) :=
  match search with
  | LinearSearch => (bss, Ok (adjust_transformer_scan r ts rg updates))
  | BinarySearch => let '(b, o) := adjust_transformer_bs r ts rg (bs_at bss i j) updates in (set_bs bss i j b, o)
  end.

(** 743-759: the inner loop over the transformers of rank [i], from the [j]th on *)
Fixpoint adjust_rank (search : search_method) (r : Result) (ts : list tap) (i j : nat) (rgs : list regulated) (bss : list (list bsearch)) (changed : bool) (updates : list (nat * Z))
  : list (list bsearch) * res (bool * list (nat * Z)) :=
  match rgs with
  | [] => (bss, Ok (changed, updates))
  | rg :: rgs' =>
      match adjust_transformer search r ts i j rg bss updates with
      | (bss', Ok (c, us)) => adjust_rank search r ts i (S j) rgs' bss' (c || changed) us
      | (bss', Err e) => (bss', Err e)
      end
  end.
(** the outer loop; Some rank: the rank that was adjusted *)
Fixpoint iterate_ranks (search : search_method) (r : Result) (ts : list tap) (i : nat) (ranks : ranked) (bss : list (list bsearch)) (updates : list (nat * Z))
  : list (list bsearch) * res (option nat * list (nat * Z)) :=
  match ranks with
  | [] => (bss, Ok (None, updates))
  | rgs :: ranks' =>
      match adjust_rank search r ts i 0 rgs bss false updates with
      | (bss', Ok (true, us)) => (bss', Ok (Some i, us))
      | (bss', Ok (false, us)) => iterate_ranks search r ts (S i) ranks' bss' us
      | (bss', Err e) => (bss', Err e)
      end
  end.
(** 749-755 *)
Definition count_iteration (i : nat) (counts : list nat) : list nat :=
  firstn i counts ++ S (nth i counts 0) :: map (fun _ => 0) (skipn (S i) counts).
(** 990-996, with the taps at the start; a rank is never empty, [TapRank.v] *)
Definition max_tap_ranges (ts : list tap) : list nat := map (fun rgs => list_max (map (fun rg => tap_range (tap_at ts rg)) rgs)) order.

Inductive outcome (A : Type) : Type := Finished (a : A) | Thrown (e : exn) | OutOfFuel.
Arguments Finished {A}. Arguments Thrown {A}. Arguments OutOfFuel {A}.

Definition run_calculation (m : calc_method) (s : opt_state) : opt_state * res Result :=
  let '(w, o) := calculate (os_world s) (os_taps s) m in (mkOpt w (os_taps s) (os_bs s) (os_tried s ++ [os_taps s]), o).

(** 1076-1104 *)
Fixpoint iterate_loop (fuel : nat) (m : calc_method) (search : search_method) (ranges : list nat) (counts : list nat) (r : Result) (s : opt_state)
  : opt_state * outcome Result :=
  match fuel with
  | 0 => (s, OutOfFuel)
  | S fuel' =>
      match iterate_ranks search r (os_taps s) 0 order (os_bs s) [] with
      | (bss, Err e) => (mkOpt (os_world s) (os_taps s) bss (os_tried s), Thrown e)
      | (bss, Ok (None, _)) => (mkOpt (os_world s) (os_taps s) bss (os_tried s), Finished r)
      | (bss, Ok (Some i, us)) =>
          let counts' := count_iteration i counts in
          if 2 * nth i ranges 0 <? nth i counts' 0 then (mkOpt (os_world s) (os_taps s) bss (os_tried s), Thrown MaxIterationReached)
          else
            match run_calculation m (mkOpt (os_world s) (update_state (os_taps s) us) bss (os_tried s)) with
            | (s', Ok r') => iterate_loop fuel' m search ranges counts' r' s'
            | (s', Err e) => (s', Thrown e)
            end
      end
  end.
(** 1065-1075; the fuel is enough, C28 *)
Definition enough (ranges : list nat) : nat := fold_right (fun r p => S (2 * r) * p) 1 ranges.
Definition iterate (m : calc_method) (search : search_method) (ranges : list nat) (s : opt_state) : opt_state * outcome Result :=
  match run_calculation m s with
  | (s', Ok r) => iterate_loop (enough ranges) m search ranges (map (fun _ => 0) order) r s'
  | (s', Err e) => (s', Thrown e)
  end.
(** 1048-1063 *)
Definition iterate_with_fallback (search : search_method) (ranges : list nat) (s : opt_state) : opt_state * outcome Result :=
  match iterate Requested search ranges s with
  | (s1, Thrown IterationDiverge) | (s1, Thrown SparseMatrixError) =>
      match iterate LinearMethod search ranges s1 with
      | (s2, Finished _) => iterate Requested search ranges s2
      | (s2, Thrown e) => (s2, Thrown e)
      | (s2, OutOfFuel) => (s2, OutOfFuel)
      end
  | o => o
  end.

(** 1337-1360 *)
Definition regulate_transformers (to_new_tap_pos : tap -> bool -> Z) (ts : list tap) : list tap :=
  update_state ts (map (fun rg => (rg_trafo rg, to_new_tap_pos (tap_at ts rg) (rg_at_tap rg))) (concat order)).
(** 1260-1275 *)
Definition max_voltage_pos (t : tap) (control_at_tap_side : bool) : Z := if control_at_tap_side then tap_max t else tap_min t.
Definition min_voltage_pos (t : tap) (control_at_tap_side : bool) : Z := if control_at_tap_side then tap_min t else tap_max t.
(** 1001-1015 *)
Definition bs_prep (ts : list tap) : list (list bsearch) :=
  match search_of strat with
  | LinearSearch => []
  | BinarySearch => map (map (fun rg => let t := tap_at ts rg in bs_reset (tap_pos t) (tap_min t) (tap_max t) (rg_at_tap rg))) order
  end.
(** 1243-1255; the binary searches have the shape of [order] *)
Definition update_binary_search (ts : list tap) (bss : list (list bsearch)) : list (list bsearch) :=
  map (fun p => map (fun q => bs_restart (tap_pos (tap_at ts (fst q))) (snd q)) (combine (fst p) (snd p))) (combine order bss).
(** 1257-1298 *)
Definition pilot_run (s : opt_state) : opt_state :=
  let ts :=
    if strategy_is_max strat then regulate_transformers max_voltage_pos (os_taps s)
    else if strategy_is_min strat then regulate_transformers min_voltage_pos (os_taps s)
    else os_taps s in
  mkOpt (os_world s) ts (match search_of strat with LinearSearch => os_bs s | BinarySearch => update_binary_search ts (os_bs s) end) (os_tried s).
(** 1300-1328 *)
Definition exploit_neighborhood (s : opt_state) : opt_state :=
  let ts :=
    if strategy_is_max strat then regulate_transformers one_step_control_voltage_up (os_taps s)
    else if strategy_is_min strat then regulate_transformers one_step_control_voltage_down (os_taps s)
    else os_taps s in
  mkOpt (os_world s) ts (os_bs s) (os_tried s).

(** 1031-1046: the result and the tap position reported for each regulated transformer *)
Definition produce_output (ts : list tap) (r : Result) : Result * list (nat * Z) :=
  (r, map (fun rg => (rg_trafo rg, tap_pos (tap_at ts rg))) (concat order)).
Definition produce (p : opt_state * outcome Result) : opt_state * outcome (Result * list (nat * Z)) :=
  match p with
  | (s, Finished r) => (s, Finished (produce_output (os_taps s) r))
  | (s, Thrown e) => (s, Thrown e)
  | (s, OutOfFuel) => (s, OutOfFuel)
  end.
(** 1017-1029 *)
Definition optimize_inner (ranges : list nat) (s : opt_state) : opt_state * outcome (Result * list (nat * Z)) :=
  match iterate_with_fallback (search_of strat) ranges (pilot_run s) with
  | (s1, Finished r) =>
      match strat with
      | Any | FastAny => produce (s1, Finished r)
      | _ => produce (iterate_with_fallback LinearSearch ranges (exploit_neighborhood s1))
      end
  | (s1, Thrown e) => (s1, Thrown e)
  | (s1, OutOfFuel) => (s1, OutOfFuel)
  end.
(** 965-977, 983-999: the taps stored in the model at the end, the taps of each calculation that was started, and the outcome *)
Definition optimize (w : World) (ts : list tap) : opt_state * outcome (Result * list (nat * Z)) :=
  let cache := cache_states order ts in
  let '(s, o) := optimize_inner (max_tap_ranges ts) (mkOpt w ts (bs_prep ts) []) in
  (mkOpt (os_world s) (update_state (os_taps s) cache) (os_bs s) (os_tried s), o).
End Search.
Arguments mkOpt {World}. Arguments Finished {A}. Arguments Thrown {A}. Arguments OutOfFuel {A}.
Arguments os_world {World}. Arguments os_taps {World}. Arguments os_bs {World}. Arguments os_tried {World}.
