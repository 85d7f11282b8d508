(** C22 for the matrices of a network, and for scalar entries. *)
From Coq Require Import Field QArith QArith.Qcanon.
From Verif Require Import Common NatMap SparseOrderingSpec GroupedIdx GroupedIdxFacts GroupedIdxProps Topology TopologySpec TopologyDfs TopologyFacts TopologyProps Coupling CouplingSpec CouplingFacts CouplingProps YBus YBusSpec YBusProps YBusTopo SparseLU SparseLUSpec SparseLUFacts SparseLUProps.
Close Scope Qc_scope.
Close Scope Q_scope.
Open Scope nat_scope.

(** the pattern handed to the solver (math_solver/math_solver.hpp: row_indptr_lu, col_indices_lu, lu_diag of the admittance matrix) *)
Definition pattern_of (s : y_structure) : pattern := mkPattern (row_indptr_lu s) (col_indices_lu s) (diag_lu s).
Lemma pattern_of_ok t s : structure_ok t s -> closed_pattern (row_indptr_lu s) (col_indices_lu s) -> pattern_ok (mt_n_bus t) (pattern_of s).
Proof.
  intros H Hc. constructor.
  - exact (so_csr_lu _ _ H).
  - exact (so_diag_lu _ _ H).
  - intros e i j He. destruct (so_transpose _ _ H) as [HL HT]. cbn [indptr cols pattern_of] in *.
    destruct (nth_error (lu_transpose_entry s) e) as [e'|] eqn:E; [exists e'; exact (HT _ _ _ _ E He)|].
    apply nth_error_None in E. destruct He as [He _]. assert (e < length (col_indices_lu s)) by (apply nth_error_Some; congruence). lia.
  - exact Hc.
Qed.

(** every sub-grid of every well formed network: the factorisation stays inside the pattern and what it solves is solved *)
Theorem C22_network {P LT : Type} (padd : P -> P -> P) (p0 : P) (popp : P -> P) sort criterion t c (ob : objects LT) :
  sort_contract sort -> well_formed t c ->
  exists st r, build_topology padd p0 popp sort criterion t c ob = Some (st, r) /\
    forall g m, nth_error (models st) g = Some m ->
    exists mt s, math_topo_of st r g = Some mt /\ mt_n_bus mt = n_bus m /\ build_structure mt = Some s /\ structure_ok mt s /\
    forall T V Q (o : block_ops T V Q) (a : block_algebra T V Q), block_laws o a ->
    forall E (be : list V -> list V -> E) small data perm0 A rhs x0,
      is_matrix (pattern_of s) (a_0 a) data A -> length perm0 = n_bus m -> length rhs = n_bus m -> length x0 = n_bus m ->
      match prefactorize_and_solve o (pattern_of s) (a_vadd a) (a_v0 a) be small data perm0 rhs x0 with
      | Ub => False
      | Singular => True
      | Done (f, x) => length x = n_bus m /\ (lu_perturbed f = false ->
          forall i, i < n_bus m -> sum_n (a_vadd a) (a_v0 a) (n_bus m) (fun j => b_act o (A i j) (nth j x (a_v0 a))) = nth i rhs (a_v0 a))
      end.
Proof.
  intros Hs wf. destruct (C19_network padd p0 popp sort criterion t c ob Hs wf) as (st & r & E & _ & HN). exists st, r. split; [exact E|].
  intros g m Hm. destruct (HN g m Hm) as (mt & s & E1 & E2 & _ & _ & _ & E3 & Hok & Hc). exists mt, s.
  refine (conj E1 (conj E2 (conj E3 (conj Hok _)))). intros T V Q o a law E' be small data perm0 A rhs x0 HA Hp Hr Hx.
  rewrite <- E2 in *. exact (C22_solves o a law _ _ (pattern_of_ok mt s Hok Hc) be small data perm0 A rhs x0 HA Hp Hr Hx).
Qed.

(** ** scalar entries (263-275, 378-390): nothing to permute, a zero pivot is refused *)
Open Scope Qc_scope.
Definition scalar_ops : block_ops Qc Qc unit :=
  mkBlockOps Qcminus Qcmult Qcminus Qcmult (fun x => if Qc_eq_dec x 0 then None else Some (x, tt, tt, false))
    (fun _ x => x) (fun x _ => x) (fun _ x => x) (fun _ u => u) (fun lu l => l / lu) (fun _ v => v) (fun lu v => v / lu).
Definition scalar_algebra : block_algebra Qc Qc unit := mkAlgebra Qcplus 0 Qcopp Qcplus 0 Qcopp (fun _ => 1) (fun _ => 1) (fun x => x).
Lemma scalar_laws : block_laws scalar_ops scalar_algebra.
Proof.
  constructor; cbn [scalar_ops scalar_algebra a_add a_0 a_opp a_vadd a_v0 a_vopp a_pm a_lo a_up b_sub b_mul b_vsub b_act b_factor b_perm_left b_perm_right b_perm_v
    b_solve_lower b_solve_right_upper b_solve_lower_v b_solve_upper_v]; intros; try ring.
  - rewrite !Qcmult_1_l in H. exact H.
  - destruct (Qc_eq_dec x 0); [discriminate|]. injection H as -> _ _. ring.
  - destruct (Qc_eq_dec x 0); [discriminate|]. injection H as -> _ _ _. field. auto.
  - destruct (Qc_eq_dec x 0); [discriminate|]. injection H as -> _ _ _. field. auto.
  - destruct (Qc_eq_dec x 0); [discriminate|]. injection H as -> _ _ _. field. auto.
Qed.

(** three buses in a triangle with a tail: 0 - 2, 1 - 2, 2 - 3, eliminated in order *)
Definition demo_pattern : pattern := mkPattern [0; 2; 4; 8; 10]%nat [0; 2; 1; 2; 0; 1; 2; 3; 2; 3]%nat [0; 2; 6; 9]%nat.
Definition q (z : Z) : Qc := Q2Qc (inject_Z z).
Definition demo_data : list Qc := map q [4; -1; 5; -2; -1; -2; 6; -3; -3; 7]%Z.
Definition demo_result := prefactorize_and_solve scalar_ops demo_pattern Qcplus 0 (fun _ _ => tt) (fun _ => true) demo_data (repeat (tt, tt) 4)
  (map q [1; 2; 3; 4]%Z) (repeat 0 4).
Definition demo_residual := match demo_result with Done (_, x) => residual scalar_ops demo_pattern demo_data (map q [1; 2; 3; 4]%Z) x (repeat 0 4) | _ => Ub end.
Example demo_solved : match demo_result with Done (s, _) => lu_perturbed s | _ => true end = false /\
  match demo_residual with Done r => map this r | _ => [] end = map this (repeat 0 4).
Proof. vm_compute. auto. Qed.
(** the same system with a zero pivot is refused *)
Example demo_refused : prefactorize scalar_ops demo_pattern (map q [0; -1; 5; -2; -1; -2; 6; -3; -3; 7]%Z) (repeat (tt, tt) 4) = Singular.
Proof. vm_compute. reflexivity. Qed.

Lemma demo_pattern_ok : pattern_ok 4 demo_pattern.
Proof.
  assert (HR : forall i lo hi, nth_error (indptr demo_pattern) i = Some lo -> nth_error (indptr demo_pattern) (S i) = Some hi ->
    (i = 0 /\ lo = 0 /\ hi = 2 \/ i = 1 /\ lo = 2 /\ hi = 4 \/ i = 2 /\ lo = 4 /\ hi = 8 \/ i = 3 /\ lo = 8 /\ hi = 10)%nat).
  { intros i lo hi H1 H2. do 4 (destruct i as [|i]; [simpl in H1, H2; injection H1 as <-; injection H2 as <-; lia|]). destruct i; simpl in H2; discriminate. }
  assert (HA : forall e i j, csr_at (indptr demo_pattern) (cols demo_pattern) e i j <->
    In (e, i, j) [(0,0,0);(1,0,2);(2,1,1);(3,1,2);(4,2,0);(5,2,1);(6,2,2);(7,2,3);(8,3,2);(9,3,3)]%nat).
  { intros e i j. split.
    - intros (Hc & lo & hi & Hl & Hh & Hr). 
      destruct (HR i lo hi Hl Hh) as [(-> & -> & ->)|[(-> & -> & ->)|[(-> & -> & ->)|(-> & -> & ->)]]];
      do 10 (destruct e as [|e]; [try lia; simpl in Hc; injection Hc as <-; simpl; tauto|]); lia.
    - intros H. simpl in H. repeat (destruct H as [H|H]; [injection H as <- <- <-; split; [reflexivity|]; eexists; eexists; split; [reflexivity|]; split; [reflexivity|]; lia|]). easy. }
  constructor.
  - constructor.
    all: try reflexivity.
    + repeat constructor; lia.
    + intros e e' i j j' H1 H2 He. apply HA in H1. apply HA in H2. simpl in H1, H2.
      repeat (destruct H1 as [H1|H1]; [injection H1 as <- <- <-; repeat (destruct H2 as [H2|H2]; [injection H2; intros; subst; lia|]); easy|]); easy.
    + intros c Hc. simpl in Hc. lia.
  - split; [reflexivity|]. intros i e H. apply HA. do 4 (destruct i as [|i]; [simpl in H; injection H as <-; simpl; tauto|]). destruct i; discriminate.
  - intros e i j H. apply HA in H. simpl in H.
    assert (X : forall e' , In (e', j, i) [(0,0,0);(1,0,2);(2,1,1);(3,1,2);(4,2,0);(5,2,1);(6,2,2);(7,2,3);(8,3,2);(9,3,3)]%nat -> exists e', csr_at (indptr demo_pattern) (cols demo_pattern) e' j i)
      by (intros e' He'; exists e'; now apply HA).
    repeat (destruct H as [H|H]; [injection H as <- <- <-; first [apply (X 0%nat); simpl; tauto|apply (X 4%nat); simpl; tauto|apply (X 2%nat); simpl; tauto|apply (X 5%nat); simpl; tauto
      |apply (X 1%nat); simpl; tauto|apply (X 3%nat); simpl; tauto|apply (X 6%nat); simpl; tauto|apply (X 7%nat); simpl; tauto|apply (X 8%nat); simpl; tauto|apply (X 9%nat); simpl; tauto]|]). easy.
  - intros i j k Hij Hik [e1 H1] [e2 H2]. apply HA in H1. apply HA in H2. simpl in H1, H2.
    assert (X : (j = 2 /\ k = 2 \/ j = 3 /\ k = 3)%nat).
    { repeat (destruct H1 as [H1|H1]; [injection H1 as <- <- <-; try lia; repeat (destruct H2 as [H2|H2]; [injection H2; intros; subst; lia|]); easy|]); easy. }
    destruct X as [[-> ->]|[-> ->]]; [exists 6%nat|exists 9%nat]; apply HA; simpl; tauto.
Qed.
(** the demo meets the hypotheses of the theorems *)
Example demo_meets : pattern_ok 4 demo_pattern /\ exists A, is_matrix demo_pattern 0 demo_data A.
Proof.
  split; [exact demo_pattern_ok|].
  exists (fun i j => match find (fun e => nth e (cols demo_pattern) 0 =? j)%nat (seq (nth i (indptr demo_pattern) 0) (nth (S i) (indptr demo_pattern) 0 - nth i (indptr demo_pattern) 0))%nat
    with Some e => nth e demo_data 0 | None => 0 end).
  refine (conj eq_refl (conj _ _)).
  - intros e i j H. pose proof H as (Hc & lo & hi & Hl & Hh & Hr). rewrite (nth_error_nth _ _ _ Hl), (nth_error_nth _ _ _ Hh).
    destruct (find _ _) as [e'|] eqn:Ef.
    + apply find_some in Ef as [Hin Hj]. apply in_seq in Hin. apply Nat.eqb_eq in Hj.
      destruct (at_of _ _ _ (pk_csr _ _ demo_pattern_ok) e' i lo hi Hl Hh) as (j' & Hat & Hj'); [lia|]. rewrite (nth_error_nth _ _ _ Hj') in Hj. subst j'.
      rewrite (at_inj _ _ _ (pk_csr _ _ demo_pattern_ok) _ _ _ _ H Hat). apply nth_error_nth'. 
      pose proof (at_len _ _ _ _ _ Hat). exact H0.
    + exfalso. assert (Hin : In e (seq lo (hi - lo))) by (apply in_seq; lia). apply (find_none _ _ Ef e) in Hin. rewrite (nth_error_nth _ _ _ Hc), Nat.eqb_refl in Hin. discriminate.
  - intros i j Hn. destruct (find _ _) as [e'|] eqn:Ef; [|reflexivity]. exfalso. apply Hn. apply find_some in Ef as [Hin Hj]. apply in_seq in Hin. apply Nat.eqb_eq in Hj.
    exists e'. do 4 (destruct i as [|i]; [cbn in Hin; do 10 (destruct e' as [|e']; [first [lia|cbn in Hj; subst j; split; [reflexivity|]; do 2 eexists; split; [reflexivity|]; split; [reflexivity|lia]]|]); lia|]).
    destruct i as [|i]; simpl in Hin; [lia|]. destruct i; simpl in Hin; lia.
Qed.

Print Assumptions C22_factors. Print Assumptions C22_solves. Print Assumptions C22_refused. Print Assumptions C22_refined. Print Assumptions C22_network.
Print Assumptions scalar_laws. Print Assumptions demo_meets.
