(** C28: automatic tap changing terminates. C29: it leaves the model as it was and tries only positions in range. C30: a reported position is acceptable.
    C48: with one regulated transformer a position inside the band is found if there is one. *)
From Verif Require Import Common Component.
From Verif Require Import TapSearch TapSearchSpec TapSearchFacts.

Section Props.
Context {D : Type} (leb : D -> D -> bool).
Context {World Result : Type}.
Variable calculate : World -> list tap -> calc_method -> World * res Result.
Variable voltage : Result -> regulated -> D.
Variable band : regulated -> D * D.

(** The search ends, with a result or an error, after at most six times the product over the ranks of twice the widest tap range plus one power flow calculations,
    whatever the calculations return. *)
Theorem C28_terminates : forall strat order w ts,
  snd (optimize leb calculate voltage band strat order w ts) <> OutOfFuel /\
  length (os_tried (fst (optimize leb calculate voltage band strat order w ts))) <= 6 * rank_product ts order.
Proof.
  intros strat order w ts. rewrite <- rank_product_enough. apply optimize_ends.
Qed.

(** After the call, with a result or not, all taps are those from before the call. *)
Theorem C29_restored : forall strat order w ts, Forall usable ts -> known order ts ->
  os_taps (fst (optimize leb calculate voltage band strat order w ts)) = ts.
Proof.
  intros strat order w ts Ho Hk. unfold optimize.
  pose proof (inv_inner leb calculate voltage band strat order ts (max_tap_ranges order ts) (mkOpt w ts (bs_prep strat order ts) []) (conj (variant_refl order ts Ho) (Forall_nil _))) as [Hv _].
  destruct (optimize_inner leb calculate voltage band strat order (max_tap_ranges order ts) (mkOpt w ts (bs_prep strat order ts) [])) as [s o]. cbn [fst os_taps] in *.
  apply (restored calculate order ts (os_taps s) Ho Hk Hv).
Qed.
(** Each calculation was made with positions in the tap ranges, and with the given positions for transformers that are not regulated. *)
Theorem C29_in_range : forall strat order w ts tried, Forall usable ts ->
  In tried (os_tried (fst (optimize leb calculate voltage band strat order w ts))) ->
  length tried = length ts /\
  forall i t, nth_error ts i = Some t -> exists t', nth_error tried i = Some t' /\
    tap_min t' = tap_min t /\ tap_max t' = tap_max t /\
    (Z.min (tap_min t) (tap_max t) <= tap_pos t' <= Z.max (tap_min t) (tap_max t))%Z /\
    ((forall rgs rg, In rgs order -> In rg rgs -> rg_trafo rg <> i) -> tap_pos t' = tap_pos t).
Proof.
  intros strat order w ts tried Ho Hin. unfold optimize in Hin.
  pose proof (inv_inner leb calculate voltage band strat order ts (max_tap_ranges order ts) (mkOpt w ts (bs_prep strat order ts) []) (conj (variant_refl order ts Ho) (Forall_nil _))) as [_ Hv].
  destruct (optimize_inner leb calculate voltage band strat order (max_tap_ranges order ts) (mkOpt w ts (bs_prep strat order ts) [])) as [s o]. cbn [fst os_tried] in *.
  rewrite Forall_forall in Hv. destruct (Hv tried Hin) as [L H]. split; [exact L|]. intros i t E. destruct (H i t E) as (t' & E' & [S1 S2] & (U1 & U2 & U3) & R).
  exists t'. rewrite S1, S2. refine (conj E' (conj eq_refl (conj eq_refl (conj U3 _)))).
  intros Hn. destruct R as [(rg & Hr & Hi)|Ht]; [|rewrite Ht; reflexivity]. exfalso. apply in_concat in Hr. destruct Hr as (rgs & Hg & Hr). apply (Hn rgs rg Hg Hr Hi).
Qed.

(** A reported result was calculated, with the requested method, for the reported tap positions. *)
Theorem C30_reported : forall strat order w ts r positions,
  snd (optimize leb calculate voltage band strat order w ts) = Finished (r, positions) ->
  exists w1 w2 taps, calculate w1 taps Requested = (w2, Ok r) /\
    positions = map (fun rg => (rg_trafo rg, tap_pos (tap_at taps rg))) (concat order).
Proof.
  intros strat order w ts r positions. unfold optimize.
  destruct (optimize_inner leb calculate voltage band strat order (max_tap_ranges order ts) (mkOpt w ts (bs_prep strat order ts) [])) as [s o] eqn:E. cbn [snd]. intros ->.
  unfold optimize_inner in E.
  destruct (iterate_with_fallback leb calculate voltage band strat order (search_of strat) (max_tap_ranges order ts) (pilot_run strat order (mkOpt w ts (bs_prep strat order ts) []))) as [s1 [r1|e|]] eqn:E1; [|discriminate|discriminate].
  assert (P : forall p search, (exists ranges s0, iterate_with_fallback leb calculate voltage band strat order search ranges s0 = p) -> produce order p = (s, Finished (r, positions)) ->
    exists w1 w2 taps, calculate w1 taps Requested = (w2, Ok r) /\ positions = map (fun rg => (rg_trafo rg, tap_pos (tap_at taps rg))) (concat order)).
  { intros [s2 [r2|e2|]] search (ranges & s0 & E2) X; try discriminate. unfold produce, produce_output in X. injection X as <- <- <-.
    destruct (fallback_result leb calculate voltage band strat order search ranges s0 s2 r2 E2) as [(w1 & w2 & C) _]. exists w1, w2, (os_taps s2). auto. }
  destruct strat; first [apply (P _ _ (ex_intro _ _ (ex_intro _ _ E1)) E) | apply (P _ LinearSearch (ex_intro _ _ (ex_intro _ _ eq_refl)) E)].
Qed.

(** With any strategy but fast_any: at each connected controlled node the voltage is in its band, or the tap is at the end of its range that corrects the voltage best. *)
Theorem C30_acceptable : forall strat order w ts r positions, order_laws leb -> Forall usable ts -> known order ts -> strat <> FastAny ->
  snd (optimize leb calculate voltage band strat order w ts) = Finished (r, positions) ->
  exists taps, positions = map (fun rg => (rg_trafo rg, tap_pos (tap_at taps rg))) (concat order) /\
    (exists w1 w2, calculate w1 taps Requested = (w2, Ok r)) /\
    (forall rgs rg, In rgs order -> In rg rgs -> same_range (tap_at taps rg) (tap_at ts rg) /\ usable (tap_at taps rg)) /\
    forall rgs rg, In rgs order -> In rg rgs -> rg_connected rg = true ->
      is_number leb (voltage r rg) -> is_number leb (fst (band rg)) -> is_number leb (snd (band rg)) -> leb (fst (band rg)) (snd (band rg)) = true ->
      acceptable leb (voltage r rg) (band rg) (tap_at taps rg) (rg_at_tap rg).
Proof.
  intros strat order w ts r positions laws Ho Hk Hs. unfold optimize.
  pose proof (inv_pilot strat order ts (mkOpt w ts (bs_prep strat order ts) []) (conj (variant_refl order ts Ho) (Forall_nil _))) as H0.
  destruct (optimize_inner leb calculate voltage band strat order (max_tap_ranges order ts) (mkOpt w ts (bs_prep strat order ts) [])) as [s o] eqn:E. cbn [snd]. intros ->.
  unfold optimize_inner in E.
  pose proof (inv_fallback leb calculate voltage band strat order ts (search_of strat) (max_tap_ranges order ts) _ H0) as H1.
  destruct (iterate_with_fallback leb calculate voltage band strat order (search_of strat) (max_tap_ranges order ts) (pilot_run strat order (mkOpt w ts (bs_prep strat order ts) []))) as [s1 [r1|e|]] eqn:E1; [|discriminate|discriminate].
  cbn [fst] in H1.
  pose proof (inv_exploit strat order ts s1 H1) as H2.
  assert (P : forall s0, inv order ts s0 -> forall p, iterate_with_fallback leb calculate voltage band strat order LinearSearch (max_tap_ranges order ts) s0 = p -> produce order p = (s, Finished (r, positions)) ->
    exists taps, positions = map (fun rg => (rg_trafo rg, tap_pos (tap_at taps rg))) (concat order) /\
    (exists w1 w2, calculate w1 taps Requested = (w2, Ok r)) /\
    (forall rgs rg, In rgs order -> In rg rgs -> same_range (tap_at taps rg) (tap_at ts rg) /\ usable (tap_at taps rg)) /\
    forall rgs rg, In rgs order -> In rg rgs -> rg_connected rg = true ->
      is_number leb (voltage r rg) -> is_number leb (fst (band rg)) -> is_number leb (snd (band rg)) -> leb (fst (band rg)) (snd (band rg)) = true ->
      acceptable leb (voltage r rg) (band rg) (tap_at taps rg) (rg_at_tap rg)).
  { intros s0 I0 [s2 [r2|e2|]] E2 X; try discriminate. unfold produce, produce_output in X. injection X as <- <- <-.
    pose proof (inv_fallback leb calculate voltage band strat order ts LinearSearch (max_tap_ranges order ts) s0 I0) as [[L I2] _]. rewrite E2 in L, I2. cbn [fst] in L, I2.
    destruct (fallback_result leb calculate voltage band strat order LinearSearch _ s0 s2 r2 E2) as [(w1 & w2 & C) (bss & bss' & us & Q)].
    assert (Rg : forall rgs rg, In rgs order -> In rg rgs -> same_range (tap_at (os_taps s2) rg) (tap_at ts rg) /\ usable (tap_at (os_taps s2) rg)).
    { intros rgs rg Hg Hr. pose proof (Hk rgs rg Hg Hr) as Lt. destruct (nth_error ts (rg_trafo rg)) as [t|] eqn:Et; [|apply nth_error_None in Et; lia].
      destruct (I2 _ _ Et) as (t' & Et' & R & U & _). unfold tap_at. rewrite (nth_error_nth _ _ no_tap Et'), (nth_error_nth _ _ no_tap Et). split; [|exact U].
      destruct R as [R1 R2]. split; congruence. }
    exists (os_taps s2). refine (conj eq_refl (conj (ex_intro _ w1 (ex_intro _ w2 C)) (conj Rg _))).
    intros rgs rg Hg Hr Hc N1 N2 N3 Hb. apply (scan_acceptable leb calculate voltage band laws); auto.
    - apply (Rg rgs rg Hg Hr).
    - apply (pass_quiet leb voltage band strat r2 (os_taps s2) order 0 bss [] bss' us Q rg). apply in_concat. exists rgs. auto. }
  destruct strat; first [congruence | exact (P _ H0 _ E1 E) | exact (P _ H2 _ eq_refl E)].
Qed.
End Props.

(** One regulated transformer *)
Section One.
Context {D : Type} (leb : D -> D -> bool).
Context {World Result : Type}.
Variable calculate : World -> list tap -> calc_method -> World * res Result.
Variable voltage : Result -> regulated -> D.
Variable band : regulated -> D * D.
Variable rg : regulated.
Variable ts : list tap.
Variable V : Z -> D.
Hypothesis Hl : order_laws leb.
Hypothesis Hk : rg_trafo rg < length ts.
Hypothesis Hu : usable (tap_at ts rg).
Hypothesis Hc : rg_connected rg = true.
Hypothesis Hcalc : forall w taps, exists w' r, calculate w taps Requested = (w', Ok r) /\ voltage r rg = V (tap_pos (tap_at taps rg)).
Hypothesis Hrise : rises leb (tap_at ts rg) (rg_at_tap rg) V.
Hypothesis Hb1 : is_number leb (fst (band rg)).
Hypothesis Hb2 : is_number leb (snd (band rg)).
Variable good : Z.
Hypothesis Hgood : within (tap_at ts rg) good.
Hypothesis Hin : in_band leb (V good) (band rg).
Let t0 := tap_at ts rg.
Let h (p : Z) : Z := height t0 (rg_at_tap rg) p.

Lemma band_ok : leb (fst (band rg)) (snd (band rg)) = true.
Proof. destruct Hin as [A B]. apply (ol_trans leb Hl _ _ _ A B). Qed.
Lemma V_number p : within t0 p -> is_number leb (V p).
Proof. intros H. apply (Hrise p p H H). lia. Qed.
Lemma below_low p : within t0 p -> below leb (V p) (band rg) -> (h p < h good)%Z.
Proof.
  intros Hp [_ B]. destruct (Z_lt_le_dec (h p) (h good)) as [|Hle]; [assumption|]. exfalso.
  pose proof (Hrise good p Hgood Hp Hle) as A. destruct Hin as [C _]. pose proof (ol_trans leb Hl _ _ _ C A). congruence.
Qed.
Lemma above_high p : within t0 p -> above leb (V p) (band rg) -> (h good < h p)%Z.
Proof.
  intros Hp [_ B]. destruct (Z_lt_le_dec (h good) (h p)) as [|Hle]; [assumption|]. exfalso.
  pose proof (Hrise p good Hp Hgood Hle) as A. destruct Hin as [_ C]. pose proof (ol_trans leb Hl _ _ _ A C). congruence.
Qed.
Lemma step_up t p : tap_min t = tap_min t0 -> tap_max t = tap_max t0 -> tap_pos t = p -> within t0 p -> (h p < h good)%Z ->
  let q := one_step_control_voltage_up t (rg_at_tap rg) in within t0 q /\ h q = (h p + 1)%Z /\ q <> p.
Proof.
  intros E1 E2 E3 Hp Hlt. unfold one_step_control_voltage_up, one_step_tap_up, one_step_tap_down. rewrite E1, E2, E3. cbv zeta. unfold h, height, bottom, within in *. fold t0 in Hgood.
  destruct (rg_at_tap rg); match goal with |- context [(?x =? ?y)%Z] => destruct (x =? y)%Z eqn:Q end; destruct (tap_min t0 <? tap_max t0)%Z eqn:Q2; lia.
Qed.
Lemma step_down t p : tap_min t = tap_min t0 -> tap_max t = tap_max t0 -> tap_pos t = p -> within t0 p -> (h good < h p)%Z ->
  let q := one_step_control_voltage_down t (rg_at_tap rg) in within t0 q /\ h q = (h p - 1)%Z /\ q <> p.
Proof.
  intros E1 E2 E3 Hp Hlt. unfold one_step_control_voltage_down, one_step_tap_up, one_step_tap_down. rewrite E1, E2, E3. cbv zeta. unfold h, height, bottom, within in *. fold t0 in Hgood.
  destruct (rg_at_tap rg); match goal with |- context [(?x =? ?y)%Z] => destruct (x =? y)%Z eqn:Q end; destruct (tap_min t0 <? tap_max t0)%Z eqn:Q2; lia.
Qed.
Lemma updated taps q : rg_trafo rg < length taps -> tap_min (tap_at taps rg) = tap_min t0 -> tap_max (tap_at taps rg) = tap_max t0 -> within t0 q -> q <> tap_pos (tap_at taps rg) ->
  let taps' := update_state taps [(rg_trafo rg, q)] in
  rg_trafo rg < length taps' /\ tap_min (tap_at taps' rg) = tap_min t0 /\ tap_max (tap_at taps' rg) = tap_max t0 /\ tap_pos (tap_at taps' rg) = q.
Proof.
  intros L E1 E2 Hq Hne. unfold update_state, apply_update. cbn [fold_left fst snd].
  rewrite (nth_error_nth' taps no_tap L). fold (tap_at taps rg). cbv zeta. unfold tap_at at 2 4 6. rewrite upd_length.
  rewrite (nth_error_nth _ _ no_tap (nth_error_upd_eq _ _ _ L)).
  destruct Hu as (U1 & U2 & _). fold t0 in U1, U2. unfold set_tap, na_IntS.
  destruct ((q =? -128) || (q =? tap_pos (tap_at taps rg)))%Z%bool eqn:Q.
  - exfalso. unfold within in Hq. lia.
  - cbn [fst tap_min tap_max tap_pos]. rewrite E1, E2. unfold tap_limit, within in *. lia.
Qed.

Lemma one_loop fuel c r s : rg_trafo rg < length (os_taps s) -> tap_min (tap_at (os_taps s) rg) = tap_min t0 -> tap_max (tap_at (os_taps s) rg) = tap_max t0 ->
  within t0 (tap_pos (tap_at (os_taps s) rg)) -> voltage r rg = V (tap_pos (tap_at (os_taps s) rg)) ->
  (Z.of_nat c + Z.abs (h (tap_pos (tap_at (os_taps s) rg)) - h good) <= 2 * Z.of_nat (tap_range t0))%Z ->
  (Z.abs (h (tap_pos (tap_at (os_taps s) rg)) - h good) < Z.of_nat fuel)%Z ->
  exists s' r', iterate_loop leb calculate voltage band Any [[rg]] fuel Requested LinearSearch [tap_range t0] [c] r s = (s', Finished r') /\
    voltage r' rg = V (tap_pos (tap_at (os_taps s') rg)) /\ in_band leb (voltage r' rg) (band rg).
Proof.
  revert c r s. induction fuel as [|fuel IH]; intros c r s L E1 E2 Hw Hv Hn Hf; [lia|].
  set (p := tap_pos (tap_at (os_taps s) rg)) in *.
  cbn [iterate_loop iterate_ranks adjust_rank adjust_transformer]. unfold adjust_transformer_scan. rewrite Hc. cbn [negb]. unfold compare_state.
  pose proof (compare_band_spec leb Hl (voltage r rg) (band rg) ltac:(rewrite Hv; apply V_number; exact Hw) Hb1 Hb2 band_ok) as Sp.
  assert (Go : forall q, within t0 q -> q <> p -> (Z.abs (h q - h good) = Z.abs (h p - h good) - 1)%Z ->
    exists s' r', (let counts' := count_iteration 0 [c] in
          if 2 * nth 0 [tap_range t0] 0 <? nth 0 counts' 0 then (mkOpt (os_world s) (os_taps s) (os_bs s) (os_tried s), Thrown MaxIterationReached)
          else
            match run_calculation calculate Requested (mkOpt (os_world s) (update_state (os_taps s) [(rg_trafo rg, q)]) (os_bs s) (os_tried s)) with
            | (s', Ok r') => iterate_loop leb calculate voltage band Any [[rg]] fuel Requested LinearSearch [tap_range t0] counts' r' s'
            | (s', Err e) => (s', Thrown e)
            end) = (s', Finished r') /\
    voltage r' rg = V (tap_pos (tap_at (os_taps s') rg)) /\ in_band leb (voltage r' rg) (band rg)).
  { intros q Hq Hne Hd. cbv zeta. rewrite count_cons0. cbn [nth map].
    destruct (updated (os_taps s) q L E1 E2 Hq Hne) as (L' & E1' & E2' & E3').
    destruct (2 * tap_range t0 <? S c) eqn:Q; [lia|].
    unfold run_calculation. cbn [os_world os_taps os_bs os_tried].
    destruct (Hcalc (os_world s) (update_state (os_taps s) [(rg_trafo rg, q)])) as (w' & r' & C & C'). rewrite C.
    apply IH; cbn [os_taps]; auto; rewrite ?E3'; auto; lia. }
  destruct (compare_band leb (voltage r rg) (fst (band rg)) (snd (band rg))); cbn [is_gt is_lt]; [| | |destruct Sp].
  - rewrite Hv in Sp. pose proof (below_low p Hw Sp) as Hlt.
    destruct (step_up (tap_at (os_taps s) rg) p E1 E2 eq_refl Hw Hlt) as (Q1 & Q2 & Q3).
    fold p. destruct (one_step_control_voltage_up (tap_at (os_taps s) rg) (rg_at_tap rg) =? p)%Z eqn:Q; [lia|].
    cbn [orb app]. apply (Go _ Q1 Q3). lia.
  - rewrite Z.eqb_refl. cbn [orb]. eexists _, r. split; [reflexivity|]. cbn [os_taps]. split; [exact Hv|exact Sp].
  - rewrite Hv in Sp. pose proof (above_high p Hw Sp) as Hlt.
    destruct (step_down (tap_at (os_taps s) rg) p E1 E2 eq_refl Hw Hlt) as (Q1 & Q2 & Q3).
    fold p. destruct (one_step_control_voltage_down (tap_at (os_taps s) rg) (rg_at_tap rg) =? p)%Z eqn:Q; [lia|].
    cbn [orb app]. apply (Go _ Q1 Q3). lia.
Qed.

(** Strategy any: if the power flow works, the voltage rises with each step in one direction, and some position puts it in the band, then such a position is reported. *)
Theorem C48_any : forall w, exists r pos,
  snd (optimize leb calculate voltage band Any [[rg]] w ts) = Finished (r, [(rg_trafo rg, pos)]) /\
  voltage r rg = V pos /\ in_band leb (V pos) (band rg).
Proof.
  intros w. unfold optimize, optimize_inner, iterate_with_fallback, iterate, run_calculation. cbn [search_of pilot_run strategy_is_max strategy_is_min os_world os_taps os_bs os_tried bs_prep].
  unfold pilot_run. cbn [strategy_is_max strategy_is_min search_of os_world os_taps os_bs os_tried].
  destruct (Hcalc w ts) as (w' & r & C & C'). rewrite C.
  change (max_tap_ranges [[rg]] ts) with [Nat.max (tap_range t0) 0]. rewrite Nat.max_0_r. cbn [map].
  assert (Bd : forall q, within t0 q -> (0 <= h q <= Z.of_nat (tap_range t0))%Z).
  { intros q Hq. unfold within in Hq. unfold h, height, bottom, tap_range. destruct (rg_at_tap rg); lia. }
  pose proof (Bd good Hgood) as B1. destruct Hu as (U1 & U2 & U3). pose proof (Bd (tap_pos t0) U3) as B2.
  destruct (one_loop (enough [tap_range t0]) 0 r (mkOpt w' ts [] ([] ++ [ts]))) as (s' & r' & E & F & G); cbn [os_taps]; auto.
  - fold t0. lia.
  - fold t0. cbn [enough fold_right]. lia.
  - rewrite E. exists r', (tap_pos (tap_at (os_taps s') rg)). cbn [produce produce_output snd concat map app]. rewrite <- F. auto.
Qed.
(** Strategy fast_any. The binary search while no position in the band was tried: the good position is strictly between the bounds. *)
Definition searching (b : bsearch) (pos : Z) : Prop :=
  (bs_lower b < good < bs_upper b)%Z /\ within t0 (bs_lower b) /\ within t0 (bs_upper b) /\
  (bs_lower b <= bs_current b <= bs_upper b)%Z /\ bs_current b = pos /\ bs_last_check b = false /\ bs_inevitable b = false /\
  bs_reverse b = (tap_max t0 <? tap_min t0)%Z /\ bs_at_tap b = rg_at_tap rg.
Definition left_to_try (b : bsearch) : Z :=
  (bs_upper b - bs_lower b + (if (bs_lower b <? bs_current b) && (bs_current b <? bs_upper b) then 0 else 1))%Z.
Lemma midpoint_inside (x y : Z) : (x + 2 <= y)%Z -> (x < midpoint x y < y)%Z /\ (x < midpoint y x < y)%Z.
Proof.
  intros H. unfold midpoint. pose proof (Z.div_mod (y - x) 2 ltac:(lia)). pose proof (Z.mod_pos_bound (y - x) 2 ltac:(lia)).
  destruct (x <=? y)%Z eqn:A, (y <=? x)%Z eqn:B; lia.
Qed.
Lemma fast_step b pos (above_range : bool) : searching b pos -> (if above_range then (h good < h pos)%Z else (h pos < h good)%Z) ->
  let b' := bs_propose_new_pos false above_range b in
  searching b' (bs_current b') /\ bs_current b' <> pos /\ (left_to_try b' < left_to_try b)%Z.
Proof.
  intros (G & W1 & W2 & C & P & K & I & R & A) Hd.
  assert (Dir : if xorb (Bool.eqb above_range (bs_reverse b)) (bs_at_tap b) then (good < pos)%Z else (pos < good)%Z).
  { rewrite R, A. unfold h, height, bottom in Hd. unfold within in W1, W2.
    destruct above_range, (tap_max t0 <? tap_min t0)%Z eqn:Q, (rg_at_tap rg); cbn [xorb Bool.eqb]; lia. }
  unfold bs_propose_new_pos. rewrite K. unfold bs_adjust.
  destruct (xorb (Bool.eqb above_range (bs_reverse b)) (bs_at_tap b)); cbn [bs_last_down bs_lower bs_upper bs_current bs_last_check bs_reverse bs_inevitable bs_at_tap].
  - destruct (midpoint_inside (bs_lower b) (bs_current b) ltac:(lia)) as [M1 M2].
    replace (bs_lower b <? bs_current b)%Z with true by lia. unfold bs_search. cbn [bs_at_tap bs_lower bs_upper].
    set (mid := if xorb (bs_at_tap b) (xorb false (bs_reverse b)) then midpoint (bs_current b) (bs_lower b) else midpoint (bs_lower b) (bs_current b)).
    assert (M : (bs_lower b < mid < bs_current b)%Z) by (subst mid; destruct (xorb _ _); assumption). clearbody mid.
    unfold searching, left_to_try, within in *. cbn [bs_last_down bs_lower bs_upper bs_current bs_last_check bs_reverse bs_inevitable bs_at_tap].
    replace ((bs_lower b <? mid) && (mid <? bs_current b))%Z%bool with true by lia.
    split; [repeat split; try assumption; lia|]. split; [lia|].
    destruct ((bs_lower b <? bs_current b) && (bs_current b <? bs_upper b))%Z%bool eqn:E; lia.
  - destruct (midpoint_inside (bs_current b) (bs_upper b) ltac:(lia)) as [M1 M2].
    replace (bs_current b <? bs_upper b)%Z with true by lia. unfold bs_search. cbn [bs_at_tap bs_lower bs_upper].
    set (mid := if xorb (bs_at_tap b) (xorb false (bs_reverse b)) then midpoint (bs_upper b) (bs_current b) else midpoint (bs_current b) (bs_upper b)).
    assert (M : (bs_current b < mid < bs_upper b)%Z) by (subst mid; destruct (xorb _ _); assumption). clearbody mid.
    unfold searching, left_to_try, within in *. cbn [bs_last_down bs_lower bs_upper bs_current bs_last_check bs_reverse bs_inevitable bs_at_tap].
    replace ((bs_current b <? mid) && (mid <? bs_upper b))%Z%bool with true by lia.
    split; [repeat split; try assumption; lia|]. split; [lia|].
    destruct ((bs_lower b <? bs_current b) && (bs_current b <? bs_upper b))%Z%bool eqn:E; lia.
Qed.
Lemma fast_loop fuel c r b s : os_bs s = [[b]] -> searching b (tap_pos (tap_at (os_taps s) rg)) ->
  rg_trafo rg < length (os_taps s) -> tap_min (tap_at (os_taps s) rg) = tap_min t0 -> tap_max (tap_at (os_taps s) rg) = tap_max t0 ->
  voltage r rg = V (tap_pos (tap_at (os_taps s) rg)) ->
  (Z.of_nat c + left_to_try b <= 2 * Z.of_nat (tap_range t0))%Z -> (left_to_try b < Z.of_nat fuel)%Z ->
  exists s' r', iterate_loop leb calculate voltage band FastAny [[rg]] fuel Requested BinarySearch [tap_range t0] [c] r s = (s', Finished r') /\
    voltage r' rg = V (tap_pos (tap_at (os_taps s') rg)) /\ in_band leb (voltage r' rg) (band rg).
Proof.
  revert c r b s. induction fuel as [|fuel IH]; intros c r b s Eb Hs L E1 E2 Hv Hn Hf.
  { exfalso. unfold left_to_try in Hf. destruct Hs as (G & _). destruct (_ && _)%bool; lia. }
  set (p := tap_pos (tap_at (os_taps s) rg)) in *.
  assert (Hw : within t0 p). { destruct Hs as (_ & W1 & W2 & C & P & _). unfold within in *. lia. }
  assert (Pos : (2 <= left_to_try b)%Z). { unfold left_to_try. destruct Hs as (G & _). destruct (_ && _)%bool; lia. }
  cbn [iterate_loop iterate_ranks adjust_rank adjust_transformer]. rewrite Eb. unfold bs_at. cbn [nth]. unfold adjust_transformer_bs. rewrite Hc. cbn [negb].
  pose proof Hs as (G & _ & _ & _ & P & _ & I & _). unfold bs_end. rewrite I.
  replace (bs_upper b <=? bs_lower b)%Z with false by lia. cbn [orb]. unfold compare_state.
  pose proof (compare_band_spec leb Hl (voltage r rg) (band rg) ltac:(rewrite Hv; apply V_number; exact Hw) Hb1 Hb2 band_ok) as Sp.
  assert (Go : forall b', searching b' (bs_current b') -> bs_current b' <> p -> (left_to_try b' < left_to_try b)%Z ->
    exists s' r', (let counts' := count_iteration 0 [c] in
          if 2 * nth 0 [tap_range t0] 0 <? nth 0 counts' 0 then (mkOpt (os_world s) (os_taps s) [[b']] (os_tried s), Thrown MaxIterationReached)
          else
            match run_calculation calculate Requested (mkOpt (os_world s) (update_state (os_taps s) [(rg_trafo rg, bs_current b')]) [[b']] (os_tried s)) with
            | (s', Ok r') => iterate_loop leb calculate voltage band FastAny [[rg]] fuel Requested BinarySearch [tap_range t0] counts' r' s'
            | (s', Err e) => (s', Thrown e)
            end) = (s', Finished r') /\
    voltage r' rg = V (tap_pos (tap_at (os_taps s') rg)) /\ in_band leb (voltage r' rg) (band rg)).
  { intros b' Hb' Hne Hd. cbv zeta. rewrite count_cons0. cbn [nth map].
    assert (Hq : within t0 (bs_current b')). { destruct Hb' as (_ & W1 & W2 & C & _). unfold within in *. lia. }
    destruct (updated (os_taps s) (bs_current b') L E1 E2 Hq Hne) as (L' & E1' & E2' & E3').
    destruct (2 * tap_range t0 <? S c) eqn:Q; [lia|].
    unfold run_calculation. cbn [os_world os_taps os_bs os_tried].
    destruct (Hcalc (os_world s) (update_state (os_taps s) [(rg_trafo rg, bs_current b')])) as (w' & r' & C & C'). rewrite C.
    apply (IH (S c) r' b'); cbn [os_taps os_bs]; auto; rewrite ?E3'; auto; lia. }
  destruct (compare_band leb (voltage r rg) (fst (band rg)) (snd (band rg))); cbn [is_gt is_lt is_neq is_eq negb strategy_is_max strategy_is_fast_any]; [| | |destruct Sp].
  - rewrite Hv in Sp. pose proof (below_low p Hw Sp) as Hlt. destruct (fast_step b p false Hs Hlt) as (S1 & S2 & S3).
    set (b' := bs_propose_new_pos false false b) in *. clearbody b'. fold p.
    replace (bs_current b' =? p)%Z with false by lia. cbn [negb orb app set_bs nth upd]. apply (Go b' S1 S2 S3).
  - fold p. rewrite P, Z.eqb_refl. cbn [negb andb orb]. eexists _, r. split; [reflexivity|]. cbn [os_taps]. split; [exact Hv|exact Sp].
  - rewrite Hv in Sp. pose proof (above_high p Hw Sp) as Hlt. destruct (fast_step b p true Hs Hlt) as (S1 & S2 & S3).
    set (b' := bs_propose_new_pos false true b) in *. clearbody b'. fold p.
    replace (bs_current b' =? p)%Z with false by lia. cbn [negb orb app set_bs nth upd]. apply (Go b' S1 S2 S3).
Qed.

(** If a position in the band lies strictly between the ends of the range, fast_any reports one. *)
Theorem C48_fast_any_partial : (Z.min (tap_min (tap_at ts rg)) (tap_max (tap_at ts rg)) < good < Z.max (tap_min (tap_at ts rg)) (tap_max (tap_at ts rg)))%Z ->
  forall w, exists r pos,
  snd (optimize leb calculate voltage band FastAny [[rg]] w ts) = Finished (r, [(rg_trafo rg, pos)]) /\
  voltage r rg = V pos /\ in_band leb (V pos) (band rg).
Proof.
  intros Hstrict w. fold t0 in Hstrict. unfold optimize, optimize_inner, iterate_with_fallback, iterate, run_calculation. unfold pilot_run, bs_prep.
  cbn [strategy_is_max strategy_is_min search_of os_world os_taps os_bs os_tried map update_binary_search combine fst snd].
  destruct (Hcalc w ts) as (w' & r & C & C'). rewrite C.
  change (max_tap_ranges [[rg]] ts) with [Nat.max (tap_range t0) 0]. rewrite Nat.max_0_r. cbn [map].
  destruct Hu as (U1 & U2 & U3). fold t0 in U1, U2, U3. unfold update_binary_search. cbn [map combine fst snd]. fold t0.
  set (b := bs_restart (tap_pos t0) (bs_reset (tap_pos t0) (tap_min t0) (tap_max t0) (rg_at_tap rg))).
  assert (Hs : searching b (tap_pos t0)).
  { unfold searching, b, within. cbn [bs_restart bs_reset bs_last_down bs_lower bs_upper bs_current bs_last_check bs_reverse bs_inevitable bs_at_tap].
    repeat split; lia. }
  assert (Lt : (left_to_try b <= Z.of_nat (tap_range t0) + 1)%Z /\ (2 <= Z.of_nat (tap_range t0))%Z).
  { unfold left_to_try, tap_range, b. cbn [bs_restart bs_reset bs_lower bs_upper bs_current]. destruct (_ && _)%bool; lia. }
  destruct (fast_loop (enough [tap_range t0]) 0 r b (mkOpt w' ts [[b]] ([] ++ [ts]))) as (s' & r' & E & F & G'); cbn [os_taps os_bs]; auto.
  - lia.
  - cbn [enough fold_right]. lia.
  - rewrite E. exists r', (tap_pos (tap_at (os_taps s') rg)). cbn [produce produce_output snd concat map app]. rewrite <- F. auto.
Qed.

(** Every strategy but fast_any: whatever position is reported puts the voltage in the band; no other position is reported as a substitute. *)
Theorem C48_reported_in_band : Forall usable ts -> forall strat w r positions, strat <> FastAny ->
  snd (optimize leb calculate voltage band strat [[rg]] w ts) = Finished (r, positions) ->
  exists pos, positions = [(rg_trafo rg, pos)] /\ within (tap_at ts rg) pos /\ voltage r rg = V pos /\ in_band leb (V pos) (band rg).
Proof.
  intros Hus strat w r positions Hne H.
  assert (Kn : known [[rg]] ts) by (intros rgs g [<-|[]] [<-|[]]; exact Hk).
  destruct (C30_acceptable leb calculate voltage band strat [[rg]] w ts r positions Hl Hus Kn Hne H) as (taps & Ep & (w1 & w2 & C) & R & A).
  destruct (R [rg] rg (or_introl eq_refl) (or_introl eq_refl)) as [[R1 R2] (U1 & U2 & U3)]. fold t0 in R1, R2. rewrite R1, R2 in U3.
  exists (tap_pos (tap_at taps rg)). split; [exact Ep|]. split; [exact U3|].
  destruct (Hcalc w1 taps) as (w1' & r1 & C1 & Ev). rewrite C in C1. injection C1 as <- <-. split; [exact Ev|].
  specialize (A [rg] rg (or_introl eq_refl) (or_introl eq_refl) Hc). rewrite Ev in A.
  destruct (A (V_number _ U3) Hb1 Hb2 band_ok) as [B | [[B E] | [B E]]]; [exact B| |]; exfalso.
  - pose proof (below_low _ U3 B) as Lt. unfold top in E. rewrite R1, R2 in E. rewrite E in Lt. fold t0 in Hgood. unfold within in Hgood.
    unfold h, height, bottom in Lt. destruct (rg_at_tap rg); lia.
  - pose proof (above_high _ U3 B) as Lt. unfold bottom in E. rewrite R1, R2 in E. rewrite E in Lt.
    unfold h, height, bottom in Lt. destruct (rg_at_tap rg); lia.
Qed.
End One.

(** * Concrete cases *)
(** voltages are integers, None is NaN; the power flow keeps no state *)
Definition zleb (x y : option Z) : bool := match x, y with Some a, Some b => (a <=? b)%Z | _, _ => false end.
Lemma zleb_laws : order_laws zleb.
Proof. split; [intros [a|] [b|] [c|] H1 H2; cbn in *; try discriminate; lia|]. intros [a|] [b|] H1 H2; cbn in *; try discriminate. lia. Qed.
Definition flow (w : unit) (ts : list tap) (m : calc_method) : unit * res (list tap) := (w, Ok ts).
(** the first transformer: control at the to side, tap at the from side, positions 0 to 4, 10 less per step; the second: tap and control at the same side, positions 3 down to -2 *)
Definition demo_regs : ranked := [[mkRegulated 0 false true]; [mkRegulated 1 true true]].
Definition demo_taps : list tap := [mkTap 0 0 4; mkTap 3 3 (-2); mkTap 1 0 2].
Definition demo_voltage (ts : list tap) (rg : regulated) : option Z :=
  if rg_trafo rg =? 0 then Some (130 - 10 * tap_pos (tap_at ts rg))%Z
  else Some (130 - 10 * tap_pos (nth 0 ts no_tap) - 7 * tap_pos (tap_at ts rg))%Z.
Definition demo_band (rg : regulated) : option Z * option Z := (Some 95%Z, Some 105%Z).
Definition demo_run (st : strategy) := optimize zleb flow demo_voltage demo_band st demo_regs tt demo_taps.
Example demo_hypotheses : Forall usable demo_taps /\ known demo_regs demo_taps.
Proof.
  split; [repeat constructor; cbn; lia|].
  intros rgs rg [<-|[<-|[]]] [<-|[]]; cbn; lia.
Qed.
Example demo_any : snd (demo_run Any) = Finished ([mkTap 3 0 4; mkTap 0 3 (-2); mkTap 1 0 2], [(0, 3%Z); (1, 0%Z)]) /\ os_taps (fst (demo_run Any)) = demo_taps /\ length (os_tried (fst (demo_run Any))) = 7.
Proof. vm_compute. auto. Qed.
(** a power flow that diverges at the second call and then throws an error of another kind: the taps are restored *)
Definition broken (w : nat) (ts : list tap) (m : calc_method) : nat * res (list tap) :=
  (S w, if w =? 1 then Err IterationDiverge else if w =? 3 then Err NotObservableError else Ok ts).
Definition demo_broken := optimize zleb broken demo_voltage demo_band LocalMaximum demo_regs 0 demo_taps.
Example demo_failure : snd demo_broken = Thrown NotObservableError /\ os_taps (fst demo_broken) = demo_taps /\ last (os_tried (fst demo_broken)) [] <> demo_taps.
Proof. vm_compute. refine (conj eq_refl (conj eq_refl _)). discriminate. Qed.
(** hypotheses of C48_any and, position 3 being strictly between the ends, of C48_fast_any_partial *)
Example demo_one : rises zleb (mkTap 0 0 4) false (fun p => Some (130 - 10 * p)%Z) /\ within (mkTap 0 0 4) 3 /\ in_band zleb (Some (130 - 10 * 3)%Z) (Some 95%Z, Some 105%Z).
Proof.
  split; [intros p q Hp Hq H; unfold within, height, bottom in *; cbn [tap_min tap_max tap_pos zleb] in *; apply Z.leb_le; lia|]. split; [unfold within; cbn; lia|split; reflexivity].
Qed.

(** * Strategy fast_any *)
(** One transformer with positions 0 and 1, controlled at the other side. Position 1 puts the voltage in the band, the search starts at 0 and fails:
    an error is reported although an acceptable position exists. *)
Definition two_positions : list tap := [mkTap 0 0 1].
Definition one_reg (at_tap : bool) : regulated := mkRegulated 0 at_tap true.
Definition falling (ts : list tap) (rg : regulated) : option Z := Some (110 - 10 * tap_pos (tap_at ts rg))%Z.
Definition rising (ts : list tap) (rg : regulated) : option Z := Some (100 + 10 * tap_pos (tap_at ts rg))%Z.
Theorem C48_fast_any_refuted :
  usable (mkTap 0 0 1) /\ rises zleb (mkTap 0 0 1) false (fun p => Some (110 - 10 * p)%Z) /\
  (forall w taps, exists w' r, flow w taps Requested = (w', Ok r) /\ falling r (one_reg false) = Some (110 - 10 * tap_pos (tap_at taps (one_reg false)))%Z) /\
  within (mkTap 0 0 1) 1 /\ in_band zleb (Some (110 - 10 * 1)%Z) (Some 95%Z, Some 105%Z) /\
  snd (optimize zleb flow falling demo_band FastAny [[one_reg false]] tt two_positions) = Thrown MaxIterationReached.
Proof.
  refine (conj _ (conj _ (conj _ (conj _ (conj _ _))))).
  - unfold usable; cbn; lia.
  - intros p q Hp Hq H; unfold within, height, bottom in *; cbn [tap_min tap_max tap_pos zleb] in *; apply Z.leb_le; lia.
  - intros w taps. exists w, taps. split; reflexivity.
  - unfold within; cbn; lia.
  - split; reflexivity.
  - vm_compute. reflexivity.
Qed.
(** Position 3 is found in the range 0 to 4; the strategy with the maximum reports a position in the band. *)
Example maximum_inside : snd (optimize zleb flow demo_voltage demo_band LocalMaximum [[one_reg false]] tt [mkTap 0 0 4]) = Finished ([mkTap 3 0 4], [(0, 3%Z)]).
Proof. vm_compute. reflexivity. Qed.
Example fast_any_inside : snd (optimize zleb flow demo_voltage demo_band FastAny [[one_reg false]] tt [mkTap 0 0 4]) = Finished ([mkTap 3 0 4], [(0, 3%Z)]).
Proof. vm_compute. reflexivity. Qed.
(** The same with a wider range: the only acceptable position is the one with the lowest voltage. *)
Example fast_any_wide : snd (optimize zleb flow (fun ts rg => Some (180 - 10 * tap_pos (tap_at ts rg))%Z) demo_band FastAny [[one_reg false]] tt [mkTap 0 0 8]) = Thrown MaxIterationReached /\
  snd (optimize zleb flow (fun ts rg => Some (180 - 10 * tap_pos (tap_at ts rg))%Z) demo_band Any [[one_reg false]] tt [mkTap 0 0 8]) = Finished ([mkTap 8 0 8], [(0, 8%Z)]).
Proof. vm_compute. auto. Qed.
(** Strategy local_maximum (and the others with an extreme): positions 0 and 1, tap and control at the same side; position 0 puts the voltage in the band, the search fails. *)
Theorem C48_maximum_refuted :
  usable (mkTap 0 0 1) /\ rises zleb (mkTap 0 0 1) true (fun p => Some (100 + 10 * p)%Z) /\
  within (mkTap 0 0 1) 0 /\ in_band zleb (Some (100 + 10 * 0)%Z) (Some 95%Z, Some 105%Z) /\
  snd (optimize zleb flow rising demo_band LocalMaximum [[one_reg true]] tt two_positions) = Thrown MaxIterationReached /\
  snd (optimize zleb flow rising demo_band Any [[one_reg true]] tt two_positions) = Finished ([mkTap 0 0 1], [(0, 0%Z)]).
Proof.
  refine (conj _ (conj _ (conj _ (conj _ (conj _ _))))).
  - unfold usable; cbn; lia.
  - intros p q Hp Hq H; unfold within, height, bottom in *; cbn [tap_min tap_max tap_pos zleb] in *; apply Z.leb_le; lia.
  - unfold within; cbn; lia.
  - split; reflexivity.
  - vm_compute. reflexivity.
  - vm_compute. reflexivity.
Qed.
Print Assumptions C28_terminates.
Print Assumptions C29_restored.
Print Assumptions C29_in_range.
Print Assumptions C30_reported.
Print Assumptions C30_acceptable.
Print Assumptions C48_any.
Print Assumptions C48_fast_any_partial.
Print Assumptions C48_reported_in_band.
Print Assumptions C48_fast_any_refuted.
Print Assumptions C48_maximum_refuted.
