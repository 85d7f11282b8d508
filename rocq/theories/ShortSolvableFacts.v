(** C65: the equations of a short circuit without the voltages of the sources, in voltages and currents of the faults. *)
From Coq Require Import Field.
From Verif Require Import Common NatMap Component Numbers ShortCircuit ShortCircuitSpec ShortCircuitFacts.
Section Homogeneous.
Context {C : Type} (o : num_ops C) (L : num_laws o).
Add Field NumFieldSs : (nl_field o L).
Local Notation "a + b" := (n_add o a b) : num_scope. Local Notation "a * b" := (n_mul o a b) : num_scope. Local Notation "a - b" := (n_sub o a b) : num_scope.
Local Notation "a / b" := (n_div o a b) : num_scope. Local Notation "- a" := (n_opp o a) : num_scope.
Local Notation zero := (n_zero o). Local Notation one := (n_one o).
Local Open Scope num_scope.
Variable np : nat.
Variable fault_buses : nat -> list nat.
Variable y_fault : nat -> admittance (C := C).
Variables (ftype : fault_type) (phase_1 phase_2 : nat).
Hypothesis PF : phases_fit np ftype phase_1 phase_2.
Local Notation add_fault := (add_fault o ftype phase_1 phase_2).
Local Notation add_bolted := (add_fault_with_infinite_impedance o ftype phase_1 phase_2).
Local Notation add_faults := (add_faults o y_fault ftype phase_1 phase_2).
Local Notation dot := (dot o np).

(** the matrix does not depend on the right-hand side *)
Lemma fault_mat y b e e' : e_mat e = e_mat e' -> e_mat (add_fault y b e) = e_mat (add_fault y b e').
Proof. intros H. unfold ShortCircuit.add_fault. rewrite H. destruct ftype; reflexivity. Qed.
Lemma bolted_mat b e e' : e_mat e = e_mat e' -> e_mat (add_bolted b e) = e_mat (add_bolted b e').
Proof. intros H. unfold add_fault_with_infinite_impedance. rewrite H. destruct ftype; reflexivity. Qed.
Lemma faults_mat l b : forall e e', e_mat e = e_mat e' -> e_mat (add_faults l b e) = e_mat (add_faults l b e').
Proof.
  induction l as [|f l IH]; intros e e' H; cbn [ShortCircuit.add_faults]; [exact H|]. destruct (y_fault f); [apply bolted_mat; exact H|apply IH, fault_mat; exact H].
Qed.
(** zero stays zero *)
Lemma faults_rhs l b : forall e, (forall p, e_rhs e b p = zero) -> forall p, e_rhs (add_faults l b e) b p = zero.
Proof.
  assert (F : forall y e, (forall p, e_rhs e b p = zero) -> forall p, e_rhs (add_fault y b e) b p = zero).
  { intros y e H p. unfold ShortCircuit.add_fault. destruct ftype; cbn [e_rhs]; auto. unfold set_rhs, vset. rewrite Nat.eqb_refl. destruct (p =? phase_1); [reflexivity|]. destruct (p =? phase_2); [rewrite !H; ring|apply H]. }
  assert (B : forall e, (forall p, e_rhs e b p = zero) -> forall p, e_rhs (add_bolted b e) b p = zero).
  { intros e H p. unfold add_fault_with_infinite_impedance. destruct ftype; cbn [e_rhs]; unfold set_rhs, vset, vzero; rewrite Nat.eqb_refl; [reflexivity| | |].
    - destruct (p =? phase_1); [reflexivity|apply H].
    - destruct (p =? phase_1); [reflexivity|]. destruct (p =? phase_2); [rewrite !H; ring|apply H].
    - destruct (p =? phase_2); [reflexivity|]. destruct (p =? phase_1); [reflexivity|apply H]. }
  induction l as [|f l IH]; intros e H; cbn [ShortCircuit.add_faults]; [exact H|]. destruct (y_fault f) as [|y]; [apply B; exact H|apply IH, F; exact H].
Qed.

(** the difference of two states of a fault is one *)
Lemma boundary_sub y u i u' i' : boundary o np ftype phase_1 phase_2 y u i -> boundary o np ftype phase_1 phase_2 y u' i' -> boundary o np ftype phase_1 phase_2 y (vsub o u u') (vsub o i i').
Proof.
  unfold boundary, vsub. unfold phases_fit in PF. destruct ftype.
  - intros H H' p Hp. specialize (H p Hp). specialize (H' p Hp). destruct y; rewrite H, H'; ring.
  - intros [A H] [A' H']. split; [intros p Hp N; rewrite A, A' by auto; ring|]. destruct y; rewrite H, H'; ring.
  - intros (A & S & H) (A' & S' & H'). split; [intros p Hp N N'; rewrite A, A' by auto; ring|]. split.
    + transitivity (i phase_1 + i phase_2 - (i' phase_1 + i' phase_2)); [ring|]. rewrite S, S'. ring.
    + destruct y; rewrite H, H'; ring.
  - intros (A & S & H) (A' & S' & H'). split; [intros p Hp N N'; rewrite A, A' by auto; ring|]. split; [rewrite S, S'; ring|].
    destruct y; [rewrite H, H'; ring|]. transitivity (i phase_1 + i phase_2 - (i' phase_1 + i' phase_2)); [ring|]. rewrite H, H'. ring.
Qed.

(** ** One bus *)
Section Bus.
Variable b : nat.
Hypothesis one_bolted : length (filter (fun f => is_bolted (y_fault f)) (fault_buses b)) <= 1.
Hypothesis one_ground : ftype = two_phase_to_ground -> (exists f, In f (fault_buses b) /\ y_fault f = Bolted) \/ length (fault_buses b) <= 1.
Variable m : nat -> nat -> tensor (C := C).
Variable x : vec (C := C).
Local Notation none := (fun _ : nat => @nil nat).
Local Notation ys := (fun _ : nat => tzero o). Local Notation us := (fun _ : nat => vzero o).
Let e0 : equations (C := C) := mkEq m (fun _ => vzero o) (fun _ => 0).
Let e' := add_faults (fault_buses b) b e0.
Let k := e_bolted e' b.
Let u := bus_voltage o y_fault ftype phase_1 phase_2 k (fault_buses b) x.
Let i_f := fault_current o np none ys us y_fault ftype phase_1 phase_2 b x u k (length (fault_buses b)).
Lemma alone_identity :
  (forall i p, i <> b -> p < np -> dot (e_mat e' i b) x p = dot (m i b) u p) /\
  (forall p, p < np -> dot (e_mat e' b b) x p = dot (m b b) u p + nsum o (map (fun f => i_f f p) (fault_buses b))) /\
  (forall f, In f (fault_buses b) -> boundary o np ftype phase_1 phase_2 (y_fault f) u (i_f f)).
Proof.
  destruct (bus_identity o L np m none ys us fault_buses y_fault ftype phase_1 phase_2 PF b one_bolted one_ground (fun _ _ s (H : In s []) => match H with end) e0 (fun _ => eq_refl) eq_refl eq_refl x) as (H1 & H2 & H3).
  refine (conj H1 (conj _ H3)). intros p Hp. specialize (H2 p Hp).
  assert (R : e_rhs e' b p = zero) by (apply faults_rhs; reflexivity).
  change (dot (e_mat e' b b) x p - e_rhs e' b p = dot (m b b) u p - zero + nsum o (map (fun f => i_f f p) (fault_buses b))) in H2. rewrite R in H2.
  transitivity (dot (e_mat e' b b) x p - zero); [ring|]. rewrite H2. ring.
Qed.
Ltac off_eqb := repeat match goal with
  | H : ?a <> ?c |- context [?a =? ?c] => rewrite (proj2 (Nat.eqb_neq a c) H)
  | |- context [?a =? ?a] => rewrite (Nat.eqb_refl a) end.
Lemma neg_zero a : (- one) * a = zero -> a = zero.
Proof. intros H. transitivity ((- one) * ((- one) * a)); [ring|]. rewrite H. ring. Qed.
Lemma alone_zero : (forall p, p < np -> u p = zero) -> (forall p, p < np -> nsum o (map (fun f => i_f f p) (fault_buses b)) = zero) -> forall p, p < np -> x p = zero.
Proof.
  unfold i_f, u, k, e'. clear i_f u k e'.
  destruct (split_of_count m none ys us fault_buses y_fault _ one_bolted) as [Hall|(l1 & f & l2 & El & H1 & Hf & H2)].
  - destruct (is_ground_dec ftype) as [Ht|Ht].
    + assert (Hlen : length (fault_buses b) <= 1).
      { destruct (one_ground Ht) as [(f & Hin & Hb)|Hl]; [|exact Hl]. rewrite Forall_forall in Hall. destruct (Hall f Hin) as [y Hy]. congruence. }
      destruct (fault_buses b) as [|f [|]] eqn:El; [| |cbn in Hlen; lia]; [auto|].
      destruct (Forall_inv Hall) as [y Hy]. cbn [ShortCircuit.add_faults map length]. rewrite Hy, (add_fault_bolted o np ftype phase_1 phase_2 PF). cbn [e0 e_bolted]. unfold bus_voltage. cbn [fold_left]. unfold fault_voltage, fault_current, fault_current_1. rewrite Hy, Ht. cbn [Nat.ltb Nat.leb]. cbv zeta.
      pose proof PF as PF'. unfold phases_fit in PF'. rewrite Ht in PF'. destruct PF' as (E & P1 & P2 & P12). assert (P21 : phase_2 <> phase_1) by auto.
      intros U I p Hp. destruct (Nat.eq_dec p phase_2) as [->|N].
      * specialize (I phase_1 ltac:(lia)). unfold i_source_inject, vset, vzero, nsum in I. cbn [fold_left map fold_right] in I. revert I. off_eqb. rewrite (num_one o L), (div_one o L). intros I. apply neg_zero. rewrite <- I. ring.
      * specialize (U p Hp). revert U. unfold vset. off_eqb. auto.
    + destruct (add_faults_effect o L np m none ys us fault_buses y_fault ftype phase_1 phase_2 PF (fault_buses b) b x Ht Hall e0) as (_ & _ & A3 & _). rewrite A3. cbn [e0 e_bolted].
      rewrite (voltage_skip o np y_fault ftype phase_1 phase_2 PF _ Hall 0 x (or_intror Ht)). auto.
  - rewrite El. destruct (masked_faults o L np y_fault ftype phase_1 phase_2 PF l1 f l2 b H1 Hf e0) as (e2 & M & K & E). rewrite E.
    assert (Kb : e_bolted (add_bolted b e2) b = 1) by (unfold add_fault_with_infinite_impedance; destruct ftype; cbn [e_bolted]; rewrite K; reflexivity).
    rewrite Kb. assert (V : bus_voltage o y_fault ftype phase_1 phase_2 1 (l1 ++ f :: l2) x = fault_voltage o y_fault ftype phase_1 phase_2 1 f x).
    { unfold bus_voltage. rewrite fold_left_app. cbn [fold_left]. fold (bus_voltage o y_fault ftype phase_1 phase_2 1 l1 x). rewrite (voltage_skip o np y_fault ftype phase_1 phase_2 PF l1 H1 1 x) by (left; lia).
      fold (bus_voltage o y_fault ftype phase_1 phase_2 1 l2 (fault_voltage o y_fault ftype phase_1 phase_2 1 f x)). apply (voltage_skip o np y_fault ftype phase_1 phase_2 PF); [exact H2|left; lia]. }
    rewrite V. intros U I p Hp.
    assert (I' : forall p, p < np -> fault_current o np none ys us y_fault ftype phase_1 phase_2 b x (fault_voltage o y_fault ftype phase_1 phase_2 1 f x) 1 (length (l1 ++ f :: l2)) f p = zero).
    { intros p' Hp'. rewrite <- (I p' Hp'). rewrite map_app, (nsum_app o L). cbn [map]. rewrite (nsum_zero o L _ l1) by (intros g Hg; apply (current_skip o np _ _ _ y_fault ftype phase_1 phase_2 PF); [rewrite Forall_forall in H1; auto|lia]).
      match goal with |- _ = _ + nsum o (?a :: ?l) => change (nsum o (a :: l)) with (a + nsum o l) end.
      rewrite (nsum_zero o L _ l2) by (intros g Hg; apply (current_skip o np _ _ _ y_fault ftype phase_1 phase_2 PF); [rewrite Forall_forall in H2; auto|lia]). ring. }
    clear I. revert U I'. unfold fault_voltage, fault_current, fault_current_1, i_source_bus, i_source_inject. rewrite Hf, (num_one o L). cbv zeta. cbn [fold_left]. pose proof PF as PF'. unfold phases_fit in PF'. unfold vset, vzero.
    destruct ftype; intros U I.
    + specialize (I p Hp). rewrite !(div_one o L) in I. apply neg_zero. rewrite <- I. ring.
    + destruct PF' as (_ & P1). destruct (Nat.eq_dec p phase_1) as [->|N].
      * specialize (I phase_1 Hp). revert I. off_eqb. rewrite !(div_one o L). intros I. apply neg_zero. rewrite <- I. ring.
      * specialize (U p Hp). revert U. off_eqb. auto.
    + destruct PF' as (E3 & P1 & P2 & P12). assert (P21 : phase_2 <> phase_1) by auto. destruct (Nat.eq_dec p phase_2) as [->|N].
      * specialize (I phase_1 ltac:(lia)). revert I. off_eqb. rewrite !(div_one o L). intros I. apply neg_zero. rewrite <- I. ring.
      * specialize (U p Hp). revert U. off_eqb. auto.
    + destruct PF' as (_ & P1 & P2 & P12). assert (P21 : phase_2 <> phase_1) by auto. destruct (Nat.eq_dec p phase_2) as [->|N]; [|destruct (Nat.eq_dec p phase_1) as [->|N1]].
      * specialize (I phase_2 Hp). revert I. off_eqb. rewrite !(div_one o L). intros I. apply neg_zero. rewrite <- I. ring.
      * specialize (I phase_1 Hp). revert I. off_eqb. rewrite !(div_one o L). intros I. apply neg_zero. rewrite <- I. ring.
      * specialize (U p Hp). revert U. off_eqb. auto.
Qed.
End Bus.
End Homogeneous.
