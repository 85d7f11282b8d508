(** C60: the selective inverse gives the blocks of the inverse matrix. *)
From Verif Require Import Common NatMap SparseOrderingSpec GroupedIdx GroupedIdxFacts GroupedIdxProps Topology TopologySpec TopologyDfs TopologyFacts TopologyProps Coupling CouplingSpec CouplingFacts CouplingProps YBus YBusSpec YBusProps YBusTopo
  SparseLU SparseLUSpec SparseLUFacts SparseLUProps SparseLUExamples SelInv SelInvSpec SelInvMat SelInvFacts.

Section C60.
Context {T V Q : Type} (o : block_ops T V Q) (a : block_algebra T V Q) (law : block_laws o a).
Context (v : inv_ops T) (one : T) (il : inv_laws o a v one).
Variables (n : nat) (pt : pattern).
Hypothesis ok : pattern_ok n pt.

(** after a factorisation without perturbation the matrix has an inverse, and every stored entry gets the block of the inverse at its
    row and column; no access leaves the pattern. After a perturbed factorisation the call is refused *)
Theorem C60_selective_inverse data perm0 A s : is_matrix pt (a_0 a) data A -> length perm0 = n -> prefactorize o pt data perm0 = Done s ->
  (lu_perturbed s = true -> selective_inverse o pt v s = Singular) /\
  (lu_perturbed s = false -> exists data' B, selective_inverse o pt v s = Done data' /\ inverse_of o a one n A B /\ holds_blocks pt data' B).
Proof.
  intros HA Hp E. unfold selective_inverse. split; [now intros ->|]. intros Hb. rewrite Hb.
  destruct (factorised o a law n pt ok data perm0 A HA Hp) as [Es|(s' & Es & F & (HF & _ & HP & H0) & Hacc & _ & HE)]; [congruence|].
  assert (s' = s) by congruence. subst s'. specialize (HE Hb). unfold selective_inverse_blocks. rewrite (size_n n pt ok).
  destruct (pivots_ok o a law v one il n pt ok F H0 Hacc (lu_data s) HF) as (d1 & Z & -> & Hd1 & HZ). cbn [bind].
  destruct (restore_all o a law one n pt ok F Hacc (lu_perm s) HP Z d1 Hd1) as (d2 & -> & Hd2).
  exists d2, (restored o a one (lu_perm s) Z). split; [reflexivity|]. split; [|exact Hd2].
  apply (restored_inverse o a law v one il n F); [|exact HZ].
  intros i j Hi Hj. specialize (HE i j Hi Hj). unfold left_of, right_of in HE. unfold pmx, qm.
  destruct (nth_error (lu_perm s) i) as [pi|] eqn:Ei; [|apply nth_error_None in Ei; lia]. destruct (nth_error (lu_perm s) j) as [pj|] eqn:Ej; [|apply nth_error_None in Ej; lia].
  destruct (Nat.ltb_spec i n); [|lia]. destruct (Nat.ltb_spec j n); [|lia]. destruct (Nat.leb_spec n i); [lia|]. cbn [andb] in HE.
  rewrite (bl_zero o a law) in HE. rewrite <- HE. symmetry. apply (bl_mul_assoc o a law).
Qed.

(** the inverse is unique: whatever inverse of the matrix a user has, its blocks are the ones returned *)
Lemma inverse_unique A B B' : inverse_of o a one n A B -> inverse_of o a one n A B' -> forall i j, i < n -> j < n -> B i j = B' i j.
Proof.
  intros H H'. change (eqm n B B'). eapply eqm_trans; [apply eqm_sym, (mm_id_r o a law v one il)|].
  eapply eqm_trans; [apply (mm_ext o a n B B (Id a one) (mm o a n A B')); [apply eqm_refl|intros i j Hi Hj; symmetry; now apply H']|].
  eapply eqm_trans; [apply eqm_sym, (mm_assoc o a law)|]. eapply eqm_trans; [|apply (mm_id_l o a law v one il)].
  apply mm_ext; [intros i j Hi Hj; now apply H|apply eqm_refl].
Qed.
Theorem C60_blocks_of_any_inverse data perm0 A B s data' : is_matrix pt (a_0 a) data A -> length perm0 = n -> prefactorize o pt data perm0 = Done s ->
  selective_inverse o pt v s = Done data' -> inverse_of o a one n A B ->
  forall e i j, csr_at (indptr pt) (cols pt) e i j -> nth_error data' e = Some (B i j).
Proof.
  intros HA Hp E ES HB e i j He. destruct (C60_selective_inverse data perm0 A s HA Hp E) as [H1 H2].
  destruct (lu_perturbed s); [rewrite (H1 eq_refl) in ES; discriminate|]. destruct (H2 eq_refl) as (d & B' & Ed & HB' & [_ Hh]).
  assert (d = data') by congruence. subst d. rewrite (Hh _ _ _ He). f_equal.
  apply (inverse_unique A); auto; [exact (at_row _ _ _ (pk_csr _ _ ok) _ _ _ He)|exact (at_col _ _ _ (pk_csr _ _ ok) _ _ _ He)].
Qed.
End C60.

(** every sub-grid of every well formed network: the pattern of its admittance matrix is one the selective inverse works on *)
Theorem C60_network {P LT : Type} (padd : P -> P -> P) (p0 : P) (popp : P -> P) sort criterion t c (ob : objects LT) :
  sort_contract sort -> well_formed t c ->
  exists st r, build_topology padd p0 popp sort criterion t c ob = Some (st, r) /\
    forall g m, nth_error (models st) g = Some m ->
    exists mt s, math_topo_of st r g = Some mt /\ mt_n_bus mt = n_bus m /\ build_structure mt = Some s /\
    forall T V Q (o : block_ops T V Q) (a : block_algebra T V Q) (v : inv_ops T) (one : T), block_laws o a -> inv_laws o a v one ->
    forall data perm0 A f, is_matrix (pattern_of s) (a_0 a) data A -> length perm0 = n_bus m -> prefactorize o (pattern_of s) data perm0 = Done f ->
      (lu_perturbed f = true -> selective_inverse o (pattern_of s) v f = Singular) /\
      (lu_perturbed f = false -> exists data' B, selective_inverse o (pattern_of s) v f = Done data' /\ inverse_of o a one (n_bus m) A B /\ holds_blocks (pattern_of s) data' B).
Proof.
  intros Hs wf. destruct (C19_network padd p0 popp sort criterion t c ob Hs wf) as (st & r & E & _ & HN). exists st, r. split; [exact E|].
  intros g m Hm. destruct (HN g m Hm) as (mt & s & E1 & E2 & _ & _ & _ & E3 & Hok & Hc). exists mt, s.
  refine (conj E1 (conj E2 (conj E3 _))). intros T V Q o a v one law il data perm0 A f HA Hp Hf. rewrite <- E2 in *.
  exact (C60_selective_inverse o a law v one il _ _ (pattern_of_ok mt s Hok Hc) data perm0 A f HA Hp Hf).
Qed.

(** ** blocks of one entry over the rationals: the demo of C22, a pattern with a fill-in free order *)
From Coq Require Import Field QArith QArith.Qcanon.
Open Scope Qc_scope.
Definition scalar_inv : inv_ops Qc := mkInvOps 0 Qcplus Qcopp (fun lu u => u / lu) (fun _ l => l) (fun lu => 1 / lu).
Lemma scalar_inv_laws : inv_laws scalar_ops scalar_algebra scalar_inv 1.
Proof.
  constructor; cbn [scalar_ops scalar_algebra scalar_inv i_zero i_add i_opp i_upper_left i_lower_right i_inverse_lu a_add a_0 a_opp a_pm a_lo a_up b_mul b_factor]; intros; try reflexivity; try ring.
  - exists 1. split; ring.
  - exists 1. split; ring.
  - destruct (Qc_eq_dec x 0); [discriminate|]. injection H as -> _ _ _. exists (1 / lu). split; field; auto.
  - destruct (Qc_eq_dec x 0); [discriminate|]. injection H as -> _ _ _. field. auto.
  - destruct (Qc_eq_dec x 0); [discriminate|]. injection H as -> _ _ _. field. auto.
Qed.
Definition demo_inverse : res (list Qc) :=
  match prefactorize scalar_ops demo_pattern demo_data (repeat (tt, tt) 4) with Done s => selective_inverse scalar_ops demo_pattern scalar_inv s | Singular => Singular | Ub => Ub end.
(** the blocks at the ten stored entries; the full inverse has sixteen *)
Example demo_inverse_blocks : match demo_inverse with Done d => map this d | _ => [] end =
  map this (map (fun z => q z / q 513) [137; 35; 125; 56; 35; 56; 140; 60; 60; 99]%Z).
Proof. vm_compute. reflexivity. Qed.
Example demo_meets_C60 : exists A s data' B, is_matrix demo_pattern 0 demo_data A /\ prefactorize scalar_ops demo_pattern demo_data (repeat (tt, tt) 4) = Done s /\
  lu_perturbed s = false /\ selective_inverse scalar_ops demo_pattern scalar_inv s = Done data' /\ inverse_of scalar_ops scalar_algebra 1 4 A B /\ holds_blocks demo_pattern data' B.
Proof.
  destruct demo_meets as [_ [A HA]]. destruct (prefactorize scalar_ops demo_pattern demo_data (repeat (tt, tt) 4)) as [s| |] eqn:E; [|exfalso; vm_compute in E; discriminate|exfalso; vm_compute in E; discriminate].
  assert (Hb : lu_perturbed s = false) by (vm_compute in E; injection E as <-; reflexivity).
  destruct (C60_selective_inverse scalar_ops scalar_algebra scalar_laws scalar_inv 1 scalar_inv_laws 4 demo_pattern demo_pattern_ok demo_data (repeat (tt, tt) 4) A s HA eq_refl E) as [_ H].
  destruct (H Hb) as (d & B & H1 & H2 & H3). exists A, s, d, B. auto 10.
Qed.
Print Assumptions C60_selective_inverse. Print Assumptions C60_blocks_of_any_inverse. Print Assumptions C60_network. Print Assumptions demo_meets_C60.
