(** C65: the outcome of a short circuit does not depend on the order of the components, and a three-phase fault gives the same in a symmetric and in an asymmetric calculation. *)
From Coq Require Import Reals Lra Lia Permutation.
From Verif Require Import Common NatMap GroupedIdx Component Numbers ShortCircuit ShortCircuitSpec ShortCircuitFacts PowerFlow PowerFlowSpec PowerFlowFacts BalancedSpec BalancedFacts BalancedGrid BalancedProps YBus YBusSpec Units UnitsFacts Ratings RatingsFacts LossesSpec LossesFacts LossesMore SolvableSpec SolvableFacts SolvableKernel SolvableProps SolvableOrder ShortSolvableSpec ShortSolvableFacts ShortSolvableProps.
From Verif Require TwoPort TwoPortSpec.

Section Renumbered.
Variables (np n : nat) (ybus ybus' : nat -> nat -> tensor (C := C)) (sources sources' : nat -> list nat) (ys : nat -> tensor (C := C)) (us : nat -> vec (C := C)).
Variables (faults faults' : nat -> list nat) (y_fault : nat -> admittance (C := C)) (ft : fault_type) (p1 p2 : nat).
Variable r : nat -> nat.
Hypothesis r_range : forall b, b < n -> r b < n.
Hypothesis r_inj : forall b c, b < n -> c < n -> r b = r c -> b = c.
Hypothesis same_y : forall i j p q, i < n -> j < n -> ybus' (r i) (r j) p q = ybus i j p q.
Hypothesis same_sources : forall b, b < n -> Permutation (sources' (r b)) (sources b).
Hypothesis same_faults : forall b, b < n -> Permutation (faults' (r b)) (faults b).
Lemma outcome_renumbered u i : outcome cnum np n ybus' sources' ys us faults' y_fault ft p1 p2 u i -> outcome cnum np n ybus sources ys us faults y_fault ft p1 p2 (fun b => u (r b)) (fun b => i (r b)).
Proof.
  intros H b Hb. destruct (H (r b) (r_range b Hb)) as [B F]. split.
  - intros p Hp. specialize (B p Hp). rewrite !map_map in *.
    rewrite (nsum_perm cnum conj (TwoPort.c_abs complex_ops) (a120 complex_ops) cpf _ _ _ (same_sources b Hb)) in B. rewrite (nsum_perm cnum conj (TwoPort.c_abs complex_ops) (a120 complex_ops) cpf _ _ _ (same_faults b Hb)) in B.
    rewrite <- (nsum_perm cnum conj (TwoPort.c_abs complex_ops) (a120 complex_ops) cpf _ _ _ (all_numbers n ybus ybus' sources faults sources' faults' (fun _ => n_zero cnum) (fun _ => n_zero cnum) (fun _ => n_zero cnum) us r r_range r_inj same_y same_sources same_faults)), map_map in B. refine (eq_trans _ B). apply nsum_ext. intros j Hj. apply in_seq in Hj. apply nsum_ext. intros q _. rewrite same_y by lia. reflexivity.
  - intros f Hf. apply F. apply (Permutation_in f (Permutation_sym (same_faults b Hb))). exact Hf.
Qed.
End Renumbered.

Local Open Scope R_scope.
(** The same grid given twice: the same voltages and fault currents. *)
Theorem C65_order_symmetric : forall (r : nat -> nat) (t t' : math_topo) (prm prm' : @model_param C Datatypes.unit) (sources sources' : nat -> list nat) (y1 y0 : nat -> C) (u_source : nat -> nat -> C) (faults faults' : nat -> list nat) (y_fault : nat -> admittance) (p1 p2 : nat),
  sub_grid_ok t ->
  (forall q, In q (p_branch prm) -> exists b, passive b /\ q = param1 b) -> (forall g, In g (p_shunt prm) -> 0 <= re g) ->
  (forall b k, In k (sources b) -> 0 < re (y1 k)) ->
  (forall b, (b < mt_n_bus t)%nat -> supplied cnum 1 one_number (combine (mt_branch t) (p_branch prm)) (fun b => sources b <> []) b) ->
  (forall b f, In f (faults b) -> passive_fault (y_fault f)) -> (forall b, (b < mt_n_bus t)%nat -> (length (filter (fun f => is_bolted (y_fault f)) (faults b)) <= 1)%nat) ->
  same_grid r t t' prm prm' ->
  (forall b, (b < mt_n_bus t)%nat -> Permutation (sources' (r b)) (sources b)) -> (forall b, (b < mt_n_bus t)%nat -> Permutation (faults' (r b)) (faults b)) ->
  forall u i u' i',
  outcome cnum 1 (mt_n_bus t) (matrix1 complex_ops t prm) sources (source_y cnum 1 y1 y0) u_source faults y_fault three_phase p1 p2 u i ->
  outcome cnum 1 (mt_n_bus t') (matrix1 complex_ops t' prm') sources' (source_y cnum 1 y1 y0) u_source faults' y_fault three_phase p1 p2 u' i' ->
  forall b, (b < mt_n_bus t)%nat -> u' (r b) 0%nat = u b 0%nat /\ nsum cnum (map (fun f => i' (r b) f 0%nat) (faults' (r b))) = nsum cnum (map (fun f => i b f 0%nat) (faults b)).
Proof.
  intros r t t' prm prm' sources sources' y1 y0 us faults faults' y_fault p1 p2 ok HB HS HK HC HF F1 G Hs Hf u i u' i' H H' b Hb.
  pose proof G as (En & Hr & Hi & _). rewrite En in H'.
  destruct (C65_symmetric t prm sources y1 y0 us faults y_fault p1 p2 ok HB HS HK HC HF F1) as (x & _ & _ & U & _).
  assert (R : outcome cnum 1 (mt_n_bus t) (matrix1 complex_ops t prm) sources (source_y cnum 1 y1 y0) us faults y_fault three_phase p1 p2 (fun b => u' (r b)) (fun b => i' (r b))).
  { apply (outcome_renumbered 1 (mt_n_bus t) _ (matrix1 complex_ops t' prm') sources sources' _ us faults faults' y_fault three_phase p1 p2 r Hr Hi); auto.
    intros k j p q Li Lj. apply (same_fold one_number cadd (0, 0) (fun _ _ _ _ => eq_refl) _ _ p q). now apply same_terms. }
  destruct (U _ _ _ _ R H b 0%nat Hb ltac:(lia)) as [A B]. split; [exact A|]. rewrite <- B. apply (nsum_perm cnum conj (TwoPort.c_abs complex_ops) (a120 complex_ops) cpf). auto.
Qed.
Theorem C65_order_asymmetric : forall (r : nat -> nat) (t t' : math_topo) (prm prm' : @model_param (nat -> nat -> C) Datatypes.unit) (sources sources' : nat -> list nat) (y1 y0 : nat -> C) (u_source : nat -> nat -> C) (faults faults' : nat -> list nat) (y_fault : nat -> admittance) (ft : fault_type) (p1 p2 : nat),
  sub_grid_ok t ->
  (forall q, In q (p_branch prm) -> exists b, passive3 b /\ q = param3 b) ->
  (forall g, In g (p_shunt prm) -> exists g1 g0, 0 <= re g1 /\ 0 <= re g0 /\ g = shunt_tensor complex_ops g1 g0) ->
  (forall b k, In k (sources b) -> 0 < re (y1 k) /\ 0 < re (y0 k)) ->
  (forall b, (b < mt_n_bus t)%nat -> supplied cnum 3 a_tensor (combine (mt_branch t) (p_branch prm)) (fun b => sources b <> []) b) ->
  phases_fit 3 ft p1 p2 -> (forall b f, In f (faults b) -> passive_fault (y_fault f)) ->
  (forall b, (b < mt_n_bus t)%nat -> (length (filter (fun f => is_bolted (y_fault f)) (faults b)) <= 1)%nat) ->
  (forall b, (b < mt_n_bus t)%nat -> ft = two_phase_to_ground -> (exists f, In f (faults b) /\ y_fault f = Bolted) \/ (length (faults b) <= 1)%nat) ->
  same_grid r t t' prm prm' ->
  (forall b, (b < mt_n_bus t)%nat -> Permutation (sources' (r b)) (sources b)) -> (forall b, (b < mt_n_bus t)%nat -> Permutation (faults' (r b)) (faults b)) ->
  forall u i u' i',
  outcome cnum 3 (mt_n_bus t) (matrix3 complex_ops t prm) sources (source_y cnum 3 y1 y0) u_source faults y_fault ft p1 p2 u i ->
  outcome cnum 3 (mt_n_bus t') (matrix3 complex_ops t' prm') sources' (source_y cnum 3 y1 y0) u_source faults' y_fault ft p1 p2 u' i' ->
  forall b p, (b < mt_n_bus t)%nat -> (p < 3)%nat -> u' (r b) p = u b p /\ nsum cnum (map (fun f => i' (r b) f p) (faults' (r b))) = nsum cnum (map (fun f => i b f p) (faults b)).
Proof.
  intros r t t' prm prm' sources sources' y1 y0 us faults faults' y_fault ft p1 p2 ok HB HS HK HC PF HF F1 F2 G Hs Hf u i u' i' H H' b p Hb Hp.
  pose proof G as (En & Hr & Hi & _). rewrite En in H'.
  destruct (C65_asymmetric t prm sources y1 y0 us faults y_fault ft p1 p2 ok HB HS HK HC PF HF F1 F2) as (x & _ & _ & U & _).
  assert (R : outcome cnum 3 (mt_n_bus t) (matrix3 complex_ops t prm) sources (source_y cnum 3 y1 y0) us faults y_fault ft p1 p2 (fun b => u' (r b)) (fun b => i' (r b))).
  { apply (outcome_renumbered 3 (mt_n_bus t) _ (matrix3 complex_ops t' prm') sources sources' _ us faults faults' y_fault ft p1 p2 r Hr Hi); auto.
    intros k j p' q Li Lj. apply (same_fold a_tensor (tensor_add complex_ops) (tensor_0 complex_ops) (fun _ _ _ _ => eq_refl) _ _ p' q). now apply same_terms. }
  destruct (U _ _ _ _ R H b p Hb Hp) as [A B]. split; [exact A|]. rewrite <- B. apply (nsum_perm cnum conj (TwoPort.c_abs complex_ops) (a120 complex_ops) cpf). auto.
Qed.

(** ** Three-phase faults *)
(** The asymmetric calculation of three-phase faults in a symmetric grid gives the balanced voltages and currents of the symmetric one. *)
Theorem C65_balanced : forall (t : math_topo) (branches : list (@branch C)) (shunts : list (C * C)) (q1 : @model_param C Datatypes.unit) (q3 : @model_param (nat -> nat -> C) Datatypes.unit)
    (sources : nat -> list nat) (y1 y0 u_ref : nat -> C) (faults : nat -> list nat) (y_fault : nat -> admittance) (p1 p2 : nat),
  grid_params complex_ops branches shunts q1 q3 -> sub_grid_ok t ->
  (forall q, In q (p_branch q3) -> exists b, passive3 b /\ q = param3 b) ->
  (forall g, In g (p_shunt q3) -> exists g1 g0, 0 <= re g1 /\ 0 <= re g0 /\ g = shunt_tensor complex_ops g1 g0) ->
  (forall b k, In k (sources b) -> 0 < re (y1 k) /\ 0 < re (y0 k)) ->
  (forall b, (b < mt_n_bus t)%nat -> supplied cnum 3 a_tensor (combine (mt_branch t) (p_branch q3)) (fun b => sources b <> []) b) ->
  (forall b f, In f (faults b) -> passive_fault (y_fault f)) ->
  (forall b, (b < mt_n_bus t)%nat -> (length (filter (fun f => is_bolted (y_fault f)) (faults b)) <= 1)%nat) ->
  forall u i v j,
  outcome cnum 1 (mt_n_bus t) (matrix1 complex_ops t q1) sources (source_y cnum 1 y1 y0) (fun k _ => u_ref k) faults y_fault three_phase p1 p2 u i ->
  outcome cnum 3 (mt_n_bus t) (matrix3 complex_ops t q3) sources (source_y cnum 3 y1 y0) (fun k p => rotated cnum (a120 complex_ops) p (u_ref k)) faults y_fault three_phase p1 p2 v j ->
  forall b p, (b < mt_n_bus t)%nat -> (p < 3)%nat ->
  v b p = rotated cnum (a120 complex_ops) p (u b 0%nat) /\
  nsum cnum (map (fun f => j b f p) (faults b)) = rotated cnum (a120 complex_ops) p (nsum cnum (map (fun f => i b f 0%nat) (faults b))).
Proof.
  intros t branches shunts q1 q3 sources y1 y0 u_ref faults y_fault p1 p2 G ok HB HS HK HC HF F1 u i v j H1 H3.
  set (us3 := fun k p => rotated cnum (a120 complex_ops) p (u_ref k)) in *. set (rot := rotated cnum (a120 complex_ops)) in *.
  pose proof (rot_mul cnum conj (TwoPort.c_abs complex_ops) (a120 complex_ops) clabs) as RM. pose proof (fun A => @rot_sum C cnum conj (TwoPort.c_abs complex_ops) (a120 complex_ops) clabs A) as RS. pose proof (rot_sub cnum conj (TwoPort.c_abs complex_ops) (a120 complex_ops) clabs) as RB. pose proof (rot_zero cnum conj (TwoPort.c_abs complex_ops) (a120 complex_ops) clabs) as RZ. fold rot in RM, RS, RB, RZ.
  assert (F2 : forall b, (b < mt_n_bus t)%nat -> three_phase = two_phase_to_ground -> (exists f, In f (faults b) /\ y_fault f = Bolted) \/ (length (faults b) <= 1)%nat) by discriminate.
  assert (PF : phases_fit 3 three_phase p1 p2) by (right; reflexivity).
  destruct (C65_asymmetric t q3 sources y1 y0 us3 faults y_fault three_phase p1 p2 ok HB HS HK HC PF HF F1 F2) as (x & _ & _ & U & _).
  assert (R : outcome cnum 3 (mt_n_bus t) (matrix3 complex_ops t q3) sources (source_y cnum 3 y1 y0) us3 faults y_fault three_phase p1 p2 (fun b p => rot p (u b 0%nat)) (fun b f p => rot p (i b f 0%nat))).
  { intros b Hb. destruct (H1 b Hb) as [B F]. split.
    - intros p Hp. specialize (B 0%nat ltac:(lia)). rewrite !map_map in *. cbn [seq map] in B.
      assert (D : forall (m : nat -> nat -> C) (y z : C), acts_balanced cnum (a120 complex_ops) m y -> nsum cnum (map (fun q => n_mul cnum (m p q) (rot q z)) (seq 0 3)) = rot p (nsum cnum [n_mul cnum y z])).
      { intros m y z A. refine (eq_trans (A z p Hp) _). unfold rot. f_equal. unfold nsum. cbn [fold_right]. generalize (n_mul cnum y z). intros [? ?]. cbn. unfold cadd, re, im. cbn. f_equal; ring. }
      transitivity (rot p (nsum cnum (map (fun j => nsum cnum [n_mul cnum (matrix1 complex_ops t q1 b j 0%nat 0%nat) (u j 0%nat)]) (seq 0 (mt_n_bus t))))).
      { rewrite <- RS. apply nsum_ext. intros k _. apply D. apply (C61_admittance complex_ops complex_laws complex_rots abs_square_c abs_rot_c t branches shunts q1 q3 G sources sources y1 y0 u_ref y1 (fun _ => PowerFlow.const_y)). }
      rewrite B, RB. f_equal; [|symmetry; apply RS]. rewrite <- RS. apply nsum_ext. intros k _. rewrite RB. unfold source_y, us3. f_equal; symmetry; apply D; apply (acts_source cnum conj (TwoPort.c_abs complex_ops) (a120 complex_ops) clabs).
    - intros f Hf p Hp. specialize (F f Hf 0%nat ltac:(lia)). destruct (y_fault f); [rewrite F; apply RZ|rewrite F; apply RM]. }
  intros b p Hb Hp. destruct (U _ _ _ _ H3 R b p Hb Hp) as [A B]. split; [exact A|]. rewrite B. apply RS.
Qed.
