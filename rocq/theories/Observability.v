(** Model of the observability check of the state estimation: math_solver/observability.hpp 30-694.
    Simplifications:
    - an entry of the admittance matrix above the diagonal is given by the branches between its two buses, in the order of the branches; an entry without branches (a fill-in) has no part in the
      check of a meshed grid, and a radial grid has none (topology.hpp 267-271);
    - a vector of zeros and ones is a function to bool, a vector indexed by entries a function of row and column;
    - a pointer to a status is the bus, or the bus and the place in its list of neighbours;
    - the list of edges, [track], has its last element first; the list of modifications has its first element first. *)
From Coq Require Import ZArith.
From Verif Require Import Common.

Section Observability.
Variables (n n_branch : nat).
(** topo.branch_bus_idx: the buses at the from and the to side, if connected *)
Variable branch_bus : nat -> bool -> option nat.
(** 80-83 has_flow_sensor: a power or current sensor at one of the sides; has_bus_injection; 128: a voltage sensor with angle *)
Variables (flow injection phasor : nat -> bool).
(** has_voltage_measurements, has_global_angle_current, topo.is_radial *)
Variables (has_voltage has_global_current is_radial : bool).

(** ** The entries above the diagonal *)
Definition is_end (k : nat) (side : bool) (b : nat) : bool := match branch_bus k side with Some a => a =? b | None => false end.
Definition between (b c k : nat) : bool := is_end k false b && is_end k true c || is_end k false c && is_end k true b.
Definition entry (b c : nat) : list nat := filter (between b c) (seq 0 n_branch).
Definition upper (b : nat) : list nat := filter (fun c => negb (length (entry b c) =? 0)) (seq (S b) (n - S b)).

(** ** 40-58 *)
Inductive status : Type := not_connected | no_measurement | node_measured | with_from_sensor | with_to_sensor | native_unused | native_consumed.
Definition status_eqb (a b : status) : bool :=
  match a, b with
  | not_connected, not_connected | no_measurement, no_measurement | node_measured, node_measured | with_from_sensor, with_from_sensor | with_to_sensor, with_to_sensor
  | native_unused, native_unused | native_consumed, native_consumed => true
  | _, _ => false
  end.
Record grid : Type := mkGrid { node : nat -> status; near : nat -> list (nat * status) }.

(** ** 69-138 scan_network_sensors *)
(** 117-124: a neighbour per branch, up to the first that is measured *)
Fixpoint scan_entry (c : nat) (ks : list nat) : list (nat * status) :=
  match ks with
  | [] => []
  | k :: r => if flow k then [(c, native_unused)] else (c, no_measurement) :: scan_entry c r
  end.
Definition scan_row (b : nat) : list (nat * status) := flat_map (fun c => scan_entry c (entry b c)) (upper b).
Definition scan_grid : grid := mkGrid (fun b => if injection b then node_measured else no_measurement) scan_row.
(** 98, 119: the injection on the diagonal, a measured branch above *)
Definition flow_sensors (b c : nat) : bool := if b =? c then injection b else existsb flow (entry b c).
(** 89-135 *)
Definition has_sensor (b : nat) : bool := injection b || existsb (flow_sensors b) (upper b) || phasor b.
Definition ill_conditioned : bool := existsb (fun b => negb (has_sensor b) && negb (b =? n - 1)) (seq 0 n).
(** 37, 97: the number of injections is an int8_t *)
Definition wrap8 (z : Z) : Z := ((z + 128) mod 256 - 128)%Z.
Definition count {A} (f : A -> bool) (l : list A) : nat := length (filter f l).
Definition total_injections : Z := fold_left (fun t b => if injection b then wrap8 (t + 1) else t) (seq 0 n) 0%Z.
(** 195: the sum over all entries, those below the diagonal are zero *)
Definition sum_flow (fs : nat -> nat -> bool) : nat := list_sum (map (fun b => count (fs b) (b :: upper b)) (seq 0 n)).
Definition sum_phasor (vs : nat -> bool) : nat := count vs (seq 0 n).

(** ** 189-215 necessary_condition *)
Inductive reason : Type := no_voltage | few_flow_sensors | few_sensors | global_current_without_angle | not_independent | meshed.
Definition necessary : option reason :=
  if (sum_phasor phasor =? 0) && (sum_flow flow_sensors + 1 <? n) then Some few_flow_sensors
  else if negb (sum_phasor phasor =? 0) && (sum_flow flow_sensors + sum_phasor phasor <? n) then Some few_sensors
  else if has_global_current && (sum_phasor phasor =? 0) then Some global_current_without_angle
  else None.

(** ** 147-187 assign_independent_sensors_radial *)
Definition set2 (fs : nat -> nat -> bool) (b c : nat) (x : bool) : nat -> nat -> bool := fun i j => if (i =? b) && (j =? c) then x else fs i j.
Definition set1 (vs : nat -> bool) (b : nat) (x : bool) : nat -> bool := fun i => if i =? b then x else vs i.
Definition assign_bus (s : (nat -> nat -> bool) * (nat -> bool)) (b : nat) : (nat -> nat -> bool) * (nat -> bool) :=
  let (fs, vs) := s in
  let up := hd n (upper b) in
  let (fs', vs') :=
    if negb (fs b up) then
      if fs b b then (set2 (set2 fs b up true) b b false, vs)
      else if fs up up then (set2 (set2 fs b up true) up up false, vs)
      else if vs b then (set2 fs b up true, set1 vs b false)
      (* 155, 177: the next bus, also when it is not the upstream bus *)
      else if vs (S b) then (set2 fs b up true, set1 vs (S b) false)
      else (fs, vs)
    else (fs, vs) in
  (set2 fs' b b false, vs').
Definition assign_all : (nat -> nat -> bool) * (nat -> bool) :=
  let (fs, vs) := fold_left assign_bus (seq 0 (n - 1)) (flow_sensors, phasor) in (set2 fs (n - 1) (n - 1) false, vs).
(** 217-242 *)
Definition radial_ok : bool :=
  let (fs, vs) := assign_all in negb ((sum_flow fs + 1 <? n) || (negb (sum_phasor phasor =? 0) && (sum_phasor vs <? 1))).

(** ** 244-257 complete_bidirectional_neighbourhood_info *)
Definition set_node (g : grid) (b : nat) (s : status) : grid := mkGrid (fun i => if i =? b then s else node g i) (near g).
Definition set_near (g : grid) (b : nat) (l : list (nat * status)) : grid := mkGrid (node g) (fun i => if i =? b then l else near g i).
Definition add_reverse (b : nat) (g : grid) (e : nat * status) : grid :=
  if existsb (fun r => fst r =? b) (near g (fst e)) then g else set_near g (fst e) (near g (fst e) ++ [(b, snd e)]).
Definition complete_bus (g : grid) (b : nat) : grid := fold_left (add_reverse b) (near g b) g.
Definition complete (g : grid) : grid := fold_left complete_bus (seq 0 n) g.

(** ** 259-292 prepare_starting_nodes *)
Definition unmeasured (g : grid) (b : nat) : bool := status_eqb (node g b) no_measurement.
Definition starting_nodes (g : grid) : list nat :=
  let l1 := filter (fun b => unmeasured g b && negb (existsb (fun e => status_eqb (snd e) native_unused) (near g b))) (seq 0 n) in
  let l2 := match l1 with [] => filter (unmeasured g) (seq 0 n) | _ => l1 end in
  match l2 with [] => [0] | _ => l2 end.

(** ** The search of a spanning tree: 294-582 *)
Inductive place : Type := at_node (b : nat) | at_entry (b i : nat).
Record search : Type := mkSearch { s_grid : grid; mods : list (place * status); visited : nat -> bool; s_count : nat; track : list (nat * nat); current : nat; downwind : bool }.
Definition status_at (g : grid) (p : place) : status := match p with at_node b => node g b | at_entry b i => snd (nth i (near g b) (0, not_connected)) end.
Fixpoint set_nth (l : list (nat * status)) (i : nat) (s : status) : list (nat * status) :=
  match l, i with
  | [], _ => []
  | (b, _) :: r, 0 => (b, s) :: r
  | x :: r, S i => x :: set_nth r i s
  end.
Definition put (g : grid) (p : place) (s : status) : grid := match p with at_node b => set_node g b s | at_entry b i => set_near g b (set_nth (near g b) i s) end.
(** 314-319 *)
Definition modify (x : search) (p : place) (s : status) : search :=
  if status_eqb (status_at (s_grid x) p) s then x
  else mkSearch (put (s_grid x) p s) (mods x ++ [(p, status_at (s_grid x) p)]) (visited x) (s_count x) (track x) (current x) (downwind x).
(** the first neighbour with a property *)
Fixpoint find_entry (f : nat * status -> bool) (l : list (nat * status)) (i : nat) : option (nat * (nat * status)) :=
  match l with [] => None | e :: r => if f e then Some (i, e) else find_entry f r (S i) end.
(** 324-327, 397-404 *)
Definition visit (x : search) (b : nat) : search :=
  if visited x b then x else mkSearch (s_grid x) (mods x) (set1 (visited x) b true) (S (s_count x)) (track x) (current x) (downwind x).
(** 339-344, 372-378, 409-414, 472-487: the entry of [b] for the bus [c] *)
Definition modify_entry (x : search) (b c : nat) (s : status) : search :=
  match find_entry (fun e => fst e =? c) (near (s_grid x) b) 0 with Some (i, _) => modify x (at_entry b i) s | None => x end.
Definition move (x : search) (b : nat) : search := mkSearch (s_grid x) (mods x) (visited x) (s_count x) (track x) b (downwind x).
Definition push (x : search) (b c : nat) : search := mkSearch (s_grid x) (mods x) (visited x) (s_count x) ((b, c) :: track x) (current x) (downwind x).
Definition set_downwind (x : search) : search := mkSearch (s_grid x) (mods x) (visited x) (s_count x) (track x) (current x) true.
(** 323-353 *)
Definition try_native (x0 : search) : search * bool :=
  let x := visit x0 (current x0) in
  let b := current x in
  match find_entry (fun e => status_eqb (snd e) native_unused && negb (visited x (fst e))) (near (s_grid x) b) 0 with
  | Some (i, (c, _)) => (move (set_downwind (modify_entry (modify (visit (push x b c) c) (at_entry b i) native_consumed) c b native_consumed)) c, true)
  | None => (x, false)
  end.
(** 393-426 *)
Definition process_edge (x : search) (i c : nat) (use_current : bool) : search :=
  let b := current x in
  let x1 := modify_entry (modify (visit (visit (push x b c) b) c) (at_entry b i) with_from_sensor) c b with_to_sensor in
  move (modify x1 (at_node (if use_current then b else c)) no_measurement) c.
(** 356-390: the same changes as those of process_edge *)
Definition try_downwind (x : search) (no_meas : bool) : search * bool :=
  if negb no_meas && downwind x then
    match find_entry (fun e => status_eqb (snd e) no_measurement && negb (visited x (fst e))) (near (s_grid x) (current x)) 0 with
    | Some (i, (c, _)) => (process_edge x i c true, true)
    | None => (x, false)
    end
  else (x, false).
(** 429-451 *)
Definition try_general (x : search) (no_meas : bool) : search * bool :=
  match find_entry (fun e => negb (visited x (fst e)) && (negb no_meas || negb (unmeasured (s_grid x) (fst e)))) (near (s_grid x) (current x)) 0 with
  | Some (i, (c, _)) => (process_edge x i c (negb no_meas && unmeasured (s_grid x) c), true)
  | None => (x, false)
  end.
(** 454-488 *)
Definition reassign (x : search) (from to : nat) : search :=
  match find_entry (fun e => fst e =? to) (near (s_grid x) from) 0 with
  | Some (_, (_, native_consumed)) => x
  | _ => modify_entry (modify_entry (modify (modify x (at_node to) node_measured) (at_node from) no_measurement) from to with_to_sensor) to from with_from_sensor
  end.
(** 491-517 *)
Definition try_backtrack (x : search) : search * bool :=
  match track x with
  | [] => (x, false)
  | (from, to) :: r =>
      let back := if from =? current x then to else from in
      let x1 := mkSearch (s_grid x) (mods x) (visited x) (s_count x) r (current x) (downwind x) in
      let x2 := if downwind x1 && status_eqb (node (s_grid x1) (current x1)) node_measured then reassign x1 (current x1) back else x1 in
      (move x2 back, true)
  end.
(** 567-573 *)
Definition search_step (x : search) : search * bool :=
  let no_meas := unmeasured (s_grid x) (current x) in
  let (x1, ok1) := try_native x in if ok1 then (x1, true) else
  let (x2, ok2) := try_downwind x1 no_meas in if ok2 then (x2, true) else
  let (x3, ok3) := try_general x2 no_meas in if ok3 then (x3, true) else try_backtrack x3.
(** 562-578: the fuel is the limit of the iterations *)
Fixpoint search_loop (fuel : nat) (x : search) : search :=
  match fuel with
  | 0 => x
  | S f => if s_count x <? n then let (y, ok) := search_step x in if ok then search_loop f y else y else x
  end.
(** 543-559; the limits of the integer types are not modelled *)
Definition max_iterations (g : grid) : nat := n * Nat.max 2 (list_sum (map (fun b => length (near g b)) (seq 0 n)) / n) * 3.
Definition search_start (g : grid) (b : nat) : search := mkSearch g [] (fun _ => false) 0 [] b false.
Definition search_from (g : grid) (b : nat) : search := search_loop (max_iterations g) (search_start g b).
(** 620-622: from the first modification to the last *)
Definition rollback (x : search) : grid := fold_left (fun g m => put g (fst m) (snd m)) (mods x) (s_grid x).
(** 610-626 *)
Fixpoint try_candidates (g : grid) (l : list nat) : bool :=
  match l with
  | [] => false
  | b :: r => let x := search_from g b in if s_count x =? n then true else try_candidates (rollback x) r
  end.
Definition meshed_ok : bool := let g := complete scan_grid in try_candidates g (starting_nodes g).

(** ** 646-694 observability_check *)
Inductive verdict : Type := refused (r : reason) | answer (observable ill : bool).
Definition observability_check : verdict :=
  if negb has_voltage then refused no_voltage
  else match necessary with
  | Some r => refused r
  | None =>
      if (1 <? sum_phasor phasor) && negb is_radial then answer false ill_conditioned
      else if (Z.of_nat n - 2 <? total_injections)%Z then answer true ill_conditioned
      else if is_radial then (if radial_ok then answer true ill_conditioned else refused not_independent)
      else if meshed_ok then answer true ill_conditioned else refused meshed
  end.
End Observability.
