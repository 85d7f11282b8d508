(** Proofs about the short circuit solver. *)
From Coq Require Import Field.
From Verif Require Import Common Component Numbers ShortCircuit ShortCircuitSpec.

Lemma is_ground_dec (t : fault_type) : {t = two_phase_to_ground} + {t <> two_phase_to_ground}.
Proof. destruct t; (left; reflexivity) || (right; discriminate). Qed.
Section Facts.
Context {C : Type} (o : num_ops C) (L : num_laws o).
Add Field NumFieldSc : (nl_field o L).
Local Notation "a + b" := (n_add o a b) : num_scope. Local Notation "a * b" := (n_mul o a b) : num_scope. Local Notation "a - b" := (n_sub o a b) : num_scope.
Local Notation "a / b" := (n_div o a b) : num_scope. Local Notation "- a" := (n_opp o a) : num_scope.
Local Notation zero := (n_zero o). Local Notation one := (n_one o).
Local Open Scope num_scope.
Variable np : nat.
Variable ybus : nat -> nat -> tensor (C := C).
Variable sources_per_bus : nat -> list nat.
Variable y_source : nat -> tensor (C := C).
Variable u_source : nat -> vec (C := C).
Variable fault_buses : nat -> list nat.
Variable y_fault : nat -> admittance (C := C).
Variables (ftype : fault_type) (phase_1 phase_2 : nat).

Local Notation add_sources := (add_sources o np sources_per_bus y_source u_source).
Local Notation add_fault := (add_fault o ftype phase_1 phase_2).
Local Notation add_bolted := (add_fault_with_infinite_impedance o ftype phase_1 phase_2).
Local Notation add_faults := (add_faults o y_fault ftype phase_1 phase_2).
Local Notation dot := (dot o np).

(** ** Each pass writes its own column *)
Definition same_off (b : nat) (e e' : equations (C := C)) : Prop :=
  (forall i j, j <> b -> e_mat e' i j = e_mat e i j) /\ (forall i, i <> b -> e_rhs e' i = e_rhs e i /\ e_bolted e' i = e_bolted e i).
Lemma same_off_refl b e : same_off b e e. Proof. split; auto. Qed.
Lemma same_off_trans b e e' e'' : same_off b e e' -> same_off b e' e'' -> same_off b e e''.
Proof.
  intros [H1 H2] [H3 H4]. split.
  - intros i j Hj. rewrite H3, H1; auto.
  - intros i Hi. destruct (H2 i Hi) as [A B]. destruct (H4 i Hi) as [A' B']. rewrite A', B'. auto.
Qed.
Lemma set_block_off m i j a r c : c <> j -> set_block (C := C) m i j a r c = m r c.
Proof. intros H. unfold set_block. apply Nat.eqb_neq in H. now rewrite H, andb_false_r. Qed.
Lemma set_block_at m i j a : set_block (C := C) m i j a i j = a.
Proof. unfold set_block. now rewrite !Nat.eqb_refl. Qed.
Lemma set_block_row m i j a r c : r <> i -> set_block (C := C) m i j a r c = m r c.
Proof. intros H. unfold set_block. apply Nat.eqb_neq in H. now rewrite H. Qed.
Lemma map_col_off m b f r c : c <> b -> map_col (C := C) m b f r c = m r c.
Proof. intros H. unfold map_col. apply Nat.eqb_neq in H. now rewrite H. Qed.
Lemma map_col_at m b f r : map_col (C := C) m b f r b = f (m r b).
Proof. unfold map_col. now rewrite Nat.eqb_refl. Qed.
Lemma set_rhs_off r b u i : i <> b -> set_rhs (C := C) r b u i = r i.
Proof. intros H. unfold set_rhs. apply Nat.eqb_neq in H. now rewrite H. Qed.
Lemma set_rhs_at r b u : set_rhs (C := C) r b u b = u.
Proof. unfold set_rhs. now rewrite Nat.eqb_refl. Qed.
Lemma off_sources b e : same_off b e (add_sources b e).
Proof.
  unfold ShortCircuit.add_sources. generalize (sources_per_bus b) as l. intros l. revert e. induction l as [|s l IH]; intros e; cbn [fold_left]; [apply same_off_refl|].
  refine (same_off_trans b _ _ _ _ (IH _)). split.
  - intros i j Hj. cbn [e_mat]. now apply set_block_off.
  - intros i Hi. cbn [e_rhs e_bolted]. now rewrite set_rhs_off.
Qed.
Lemma off_fault y b e : same_off b e (add_fault y b e).
Proof. unfold ShortCircuit.add_fault. destruct ftype; (split; [intros i j Hj; cbn [e_mat]; rewrite set_block_off by auto; try rewrite map_col_off by auto; auto|intros i Hi; cbn [e_rhs e_bolted]; try rewrite set_rhs_off by auto; auto]). Qed.
Lemma off_bolted b e : same_off b e (add_bolted b e).
Proof.
  unfold add_fault_with_infinite_impedance. destruct ftype; (split; [intros i j Hj; cbn [e_mat]; rewrite set_block_off by auto; try rewrite map_col_off by auto; auto|intros i Hi; cbn [e_rhs e_bolted]; try rewrite set_rhs_off by auto; auto]).
Qed.
Lemma off_faults l b : forall e, same_off b e (add_faults l b e).
Proof.
  induction l as [|f l IH]; intros e; cbn [ShortCircuit.add_faults]; [apply same_off_refl|]. destruct (y_fault f) as [|y].
  - refine (same_off_trans b _ _ _ _ (off_bolted b _)). split; auto. intros i Hi. cbn [e_rhs e_bolted]. apply Nat.eqb_neq in Hi. now rewrite Hi.
  - refine (same_off_trans b _ _ _ (off_fault y b e) (IH _)).
Qed.
Definition pass (e : equations (C := C)) (b : nat) : equations := add_faults (fault_buses b) b (add_sources b e).
Lemma off_pass b e : same_off b e (pass e b).
Proof. apply (same_off_trans b _ _ _ (off_sources b e)). apply off_faults. Qed.
(** two states that agree in column [b] *)
Definition same_on (b : nat) (e e' : equations (C := C)) : Prop :=
  (forall i, e_mat e' i b = e_mat e i b) /\ e_rhs e' b = e_rhs e b /\ e_bolted e' b = e_bolted e b.
Lemma fold_column l b : NoDup l -> In b l -> forall e, exists e0, same_on b e e0 /\ same_on b (pass e0 b) (fold_left pass l e).
Proof.
  induction l as [|a l IH]; intros Hn Hb e; [destruct Hb|]. inversion Hn as [|? ? Ha Hn']; subst. cbn [fold_left]. destruct Hb as [->|Hb].
  - exists e. split; [split; auto|]. clear IH Hn. revert Ha Hn'. generalize (pass e b) as e1. induction l as [|c l IH]; intros e1 Ha Hn'; cbn [fold_left]; [split; auto|].
    inversion Hn' as [|? ? _ Hn2]; subst. destruct (IH (pass e1 c)) as (H1 & H2 & H3); [intros Hin; apply Ha; right; exact Hin|exact Hn2|].
    assert (Hc : b <> c) by (intros ->; apply Ha; left; reflexivity). destruct (off_pass c e1) as [O1 O2]. destruct (O2 b Hc) as [O3 O4].
    split; [intros i; rewrite H1; apply O1; auto|split; congruence].
  - destruct (IH Hn' Hb (pass e a)) as (e0 & (H1 & H2 & H3) & Hf). exists e0. split; [|exact Hf].
    assert (Hc : b <> a) by (intros ->; auto). destruct (off_pass a e) as [O1 O2]. destruct (O2 b Hc) as [O3 O4].
    split; [intros i; rewrite H1; apply O1; auto|split; congruence].
Qed.

(** ** Sources *)
Lemma dot_add a c u p : dot (tadd o a c) u p = dot a u p + dot c u p.
Proof. unfold ShortCircuit.dot, tadd. rewrite <- (nsum_add o L). apply nsum_ext. intros q _. ring. Qed.
Lemma dot_ext a c u v p : (forall q, q < np -> a p q = c p q) -> (forall q, q < np -> u q = v q) -> dot a u p = dot c v p.
Proof. intros H1 H2. unfold ShortCircuit.dot. apply nsum_ext. intros q Hq. apply in_seq in Hq. rewrite H1, H2 by lia. reflexivity. Qed.
Lemma sources_effect b : forall e u p,
  dot (e_mat (add_sources b e) b b) u p = dot (e_mat e b b) u p + nsum o (map (fun s => dot (y_source s) u p) (sources_per_bus b)) /\
  e_rhs (add_sources b e) b p = e_rhs e b p + nsum o (map (fun s => dot (y_source s) (u_source s) p) (sources_per_bus b)) /\
  (forall i, i <> b -> e_mat (add_sources b e) i b = e_mat e i b) /\ e_bolted (add_sources b e) = e_bolted e.
Proof.
  unfold ShortCircuit.add_sources. generalize (sources_per_bus b) as l. induction l as [|s l IH]; intros e u p.
  - cbn [fold_left map nsum fold_right]. split; [unfold nsum; cbn; ring|split; [unfold nsum; cbn; ring|auto]].
  - cbn [fold_left]. match goal with |- context [fold_left _ l ?x] => set (e1 := x) end.
    destruct (IH e1 u p) as (H1 & H2 & H3 & H4). rewrite H1, H2, H4. unfold e1. cbn [e_mat e_rhs e_bolted].
    rewrite set_block_at, set_rhs_at, dot_add. unfold vadd. cbn [map]. unfold nsum. cbn [fold_right]. split; [ring|split; [ring|split; [|reflexivity]]].
    intros i Hi. rewrite H3 by exact Hi. unfold e1. cbn [e_mat]. apply set_block_row. exact Hi.
Qed.
Lemma fold_vadd {A} (f : A -> vec (C := C)) l p : forall z, fold_left (fun i s => vadd o i (f s)) l z p = z p + nsum o (map (fun s => f s p) l).
Proof.
  induction l as [|s l IH]; intros z; cbn [fold_left map]; [unfold nsum; cbn; ring|]. rewrite IH. unfold vadd, nsum. cbn [fold_right]. ring.
Qed.
Lemma inject_sum b p : i_source_inject o np sources_per_bus y_source u_source b p = nsum o (map (fun s => dot (y_source s) (u_source s) p) (sources_per_bus b)).
Proof. unfold i_source_inject. rewrite fold_vadd. unfold vzero. ring. Qed.
Lemma bus_sum b u p : i_source_bus o np sources_per_bus y_source u_source u b p =
  nsum o (map (fun s => dot (y_source s) (u_source s) p) (sources_per_bus b)) - nsum o (map (fun s => dot (y_source s) u p) (sources_per_bus b)).
Proof. unfold i_source_bus. rewrite fold_vadd. unfold source_current, vsub, vzero. rewrite (nsum_sub o L). ring. Qed.

(** ** Faults *)
Hypothesis PF : phases_fit np ftype phase_1 phase_2.
Local Notation cur1 := (fault_current_1 o y_fault ftype phase_1 phase_2).
Local Notation cur := (fault_current o np sources_per_bus y_source u_source y_fault ftype phase_1 phase_2).
Local Notation volt := (fault_voltage o y_fault ftype phase_1 phase_2).
Ltac three n := let k := fresh "k" in destruct n as [|[|[|k]]]; [| | |exfalso; lia].
Ltac calc := unfold ShortCircuit.dot, tset, tadd, tdiag, vset, vzero, tzero, col_zero, col_add, nsum; cbn.

(** one fault with an impedance, not of two phases to ground *)
Lemma add_fault_effect f y b e x p : ftype <> two_phase_to_ground -> y_fault f = Through y -> p < np ->
  dot (e_mat (add_fault y b e) b b) x p = dot (e_mat e b b) x p + cur1 x 0 f p.
Proof.
  intros Ht Hy Hp. unfold ShortCircuit.add_fault, fault_current_1. rewrite Hy. unfold phases_fit in PF. destruct ftype; try congruence.
  - cbn [e_mat]. rewrite set_block_at. cbn [Nat.ltb Nat.leb]. destruct PF as [E|E]; rewrite E in *.
    + destruct p; [|lia]. calc. ring.
    + three p; calc; ring.
  - destruct PF as [E P1]. rewrite E in *. cbn [e_mat]. rewrite set_block_at. cbn [Nat.ltb Nat.leb]. three p; three phase_1; calc; ring.
  - destruct PF as (E & P1 & P2 & P12). rewrite E in *. cbn [e_mat]. rewrite set_block_at. cbn [Nat.ltb Nat.leb]. three p; three phase_1; three phase_2; try congruence; calc; ring.
Qed.
Lemma add_fault_rest y b e : ftype <> two_phase_to_ground ->
  (forall i, i <> b -> e_mat (add_fault y b e) i b = e_mat e i b) /\ e_rhs (add_fault y b e) b = e_rhs e b.
Proof.
  intros Ht. unfold ShortCircuit.add_fault. destruct ftype; try congruence; (split; [intros i Hi; cbn [e_mat]; apply set_block_row; exact Hi|reflexivity]).
Qed.
Lemma add_fault_bolted y b e : e_bolted (add_fault y b e) = e_bolted e.
Proof. unfold ShortCircuit.add_fault. destruct ftype; reflexivity. Qed.
Definition impedance (f : nat) : Prop := exists y, y_fault f = Through y.
Lemma add_faults_effect l b x : ftype <> two_phase_to_ground -> Forall impedance l -> forall e,
  (forall i, i <> b -> e_mat (add_faults l b e) i b = e_mat e i b) /\ e_rhs (add_faults l b e) b = e_rhs e b /\ e_bolted (add_faults l b e) = e_bolted e /\
  forall p, p < np -> dot (e_mat (add_faults l b e) b b) x p = dot (e_mat e b b) x p + nsum o (map (fun f => cur1 x 0 f p) l).
Proof.
  intros Ht. induction l as [|f l IH]; intros Hl e; cbn [ShortCircuit.add_faults].
  - refine (conj (fun _ _ => eq_refl) (conj eq_refl (conj eq_refl _))). intros p Hp. unfold nsum; cbn; ring.
  - inversion Hl as [|? ? [y Hy] Hl']; subst. rewrite Hy. destruct (IH Hl' (add_fault y b e)) as (H1 & H2 & H3 & H4). destruct (add_fault_rest y b e Ht) as [R1 R2].
    refine (conj _ (conj _ (conj _ _))).
    + intros i Hi. rewrite H1, R1; auto.
    + congruence.
    + rewrite H3. apply add_fault_bolted.
    + intros p Hp. rewrite H4 by exact Hp. rewrite (add_fault_effect f y b e x p Ht Hy Hp). unfold nsum. cbn [map fold_right]. ring.
Qed.

(** What faults with an impedance in front of a bolted one leave unchanged for it. *)
Definition masked (b : nat) (e e1 : equations (C := C)) : Prop :=
  match ftype with
  | three_phase => True
  | single_phase_to_ground => (forall i p q, q <> phase_1 -> e_mat e1 i b p q = e_mat e i b p q) /\ (forall p, e_rhs e1 b p = e_rhs e b p)
  | two_phase =>
      (forall i p q, q <> phase_1 -> q <> phase_2 -> e_mat e1 i b p q = e_mat e i b p q) /\
      (forall i p, e_mat e1 i b p phase_1 + e_mat e1 i b p phase_2 = e_mat e i b p phase_1 + e_mat e i b p phase_2) /\ (forall p, e_rhs e1 b p = e_rhs e b p)
  | two_phase_to_ground =>
      (forall i p q, q <> phase_1 -> q <> phase_2 -> e_mat e1 i b p q = e_mat e i b p q) /\
      (forall p, p <> phase_1 -> p <> phase_2 -> e_rhs e1 b p = e_rhs e b p)
  end.
Ltac off_eqb := repeat match goal with
  | H : ?a <> ?c |- context [?a =? ?c] => rewrite (proj2 (Nat.eqb_neq a c) H)
  | |- context [?a =? ?a] => rewrite (Nat.eqb_refl a) end.
Lemma masked_fault y b e : masked b e (add_fault y b e).
Proof.
  unfold masked, ShortCircuit.add_fault. unfold phases_fit in PF. destruct ftype; auto.
  - destruct PF as [_ P1]. split; [|reflexivity]. intros i p q Hq. cbn [e_mat]. unfold set_block. destruct ((i =? b) && (b =? b)) eqn:E; [|reflexivity].
    apply andb_prop in E. destruct E as [E _]. apply Nat.eqb_eq in E. subst i. unfold tset. off_eqb. rewrite andb_false_r. reflexivity.
  - destruct PF as (_ & P1 & P2 & P12). split; [|split; [|reflexivity]].
    + intros i p q Hq Hq2. cbn [e_mat]. unfold set_block. destruct ((i =? b) && (b =? b)) eqn:E; [|reflexivity].
      apply andb_prop in E. destruct E as [E _]. apply Nat.eqb_eq in E. subst i. unfold tset. off_eqb. rewrite !andb_false_r. reflexivity.
    + intros i p. cbn [e_mat]. unfold set_block. destruct ((i =? b) && (b =? b)) eqn:E; [|reflexivity].
      apply andb_prop in E. destruct E as [E _]. apply Nat.eqb_eq in E. subst i. unfold tset.
      assert (P21 : phase_2 <> phase_1) by auto. off_eqb. rewrite ?andb_true_r, ?andb_false_r.
      destruct (p =? phase_1) eqn:E1; [apply Nat.eqb_eq in E1; subst p; off_eqb; cbn [andb]; ring|].
      destruct (p =? phase_2) eqn:E2; [apply Nat.eqb_eq in E2; subst p; off_eqb; cbn [andb]; ring|reflexivity].
  - destruct PF as (_ & P1 & P2 & P12). split.
    + intros i p q Hq Hq2. cbn [e_mat]. unfold set_block. destruct ((i =? b) && (b =? b)) eqn:E.
      * apply andb_prop in E. destruct E as [E _]. apply Nat.eqb_eq in E. subst i. unfold tset, map_col, col_zero, col_add. off_eqb. rewrite !andb_false_r. reflexivity.
      * unfold map_col, col_zero, col_add. off_eqb. reflexivity.
    + intros p H1 H2. cbn [e_rhs]. rewrite set_rhs_at. unfold vset. off_eqb. reflexivity.
Qed.
Lemma masked_refl b e : masked b e e.
Proof. unfold masked. destruct ftype; auto. Qed.
Lemma masked_trans b e e1 e2 : masked b e e1 -> masked b e1 e2 -> masked b e e2.
Proof.
  unfold masked. destruct ftype; auto.
  - intros [H1 H2] [H3 H4]. split; intros; rewrite ?H3, ?H4; auto.
  - intros (H1 & H2 & H3) (H4 & H5 & H6). split; [intros; rewrite H4 by auto; auto|split; [intros; rewrite H5; auto|intros; rewrite H6; auto]].
  - intros [H1 H2] [H3 H4]. split; intros; rewrite ?H3, ?H4; auto.
Qed.
Lemma masked_faults l f l2 b : Forall impedance l -> y_fault f = Bolted -> forall e,
  exists e1, masked b e e1 /\ e_bolted e1 b = S (e_bolted e b) /\ add_faults (l ++ f :: l2) b e = add_bolted b e1.
Proof.
  intros Hl Hf. induction l as [|g l IH]; intros e; cbn [app ShortCircuit.add_faults].
  - rewrite Hf. eexists. split; [|split; [|reflexivity]].
    + assert (H := masked_refl b e). unfold masked in *. destruct ftype; cbn [e_mat e_rhs]; auto.
    + cbn [e_bolted]. now rewrite Nat.eqb_refl.
  - inversion Hl as [|? ? [y Hy] Hl']; subst. rewrite Hy. destruct (IH Hl' (add_fault y b e)) as (e1 & M & K & E). exists e1.
    split; [|split; [rewrite K, add_fault_bolted; reflexivity|exact E]]. apply (masked_trans b e (add_fault y b e)); [apply masked_fault|exact M].
Qed.
(** the bolted fault itself: [w] is the current that the sources drive into the faulted phases through their coupling with the other phases *)
Lemma bolted_column b e e1 x i p : masked b e e1 -> i <> b -> p < np -> forall f, y_fault f = Bolted -> dot (e_mat (add_bolted b e1) i b) x p = dot (e_mat e i b) (volt 1 f x) p.
Proof.
  intros M Hi Hp f Hf. unfold add_fault_with_infinite_impedance, fault_voltage. rewrite Hf. unfold masked in M. unfold phases_fit in PF. destruct ftype.
  - cbn [e_mat]. rewrite set_block_row, map_col_at by exact Hi. destruct PF as [E|E]; rewrite E in *; [destruct p; [|lia]|three p]; calc; ring.
  - destruct PF as (E & P1). rewrite E in *. destruct M as [M _]. cbn [e_mat]. rewrite set_block_row, map_col_at by exact Hi.
    pose proof (M i p 0). pose proof (M i p 1). pose proof (M i p 2). three phase_1; calc; rewrite ?H, ?H0, ?H1 by lia; ring.
  - destruct PF as (E & P1 & P2 & P12). rewrite E in *. destruct M as (M & M' & _). cbn [e_mat]. rewrite set_block_row, map_col_at by exact Hi.
    pose proof (M i p 0). pose proof (M i p 1). pose proof (M i p 2). pose proof (M' i p) as M2.
    three phase_1; three phase_2; try congruence; calc; rewrite ?H, ?H0, ?H1 by lia; rewrite ?M2; try ring.
  - destruct PF as (E & P1 & P2 & P12). rewrite E in *. destruct M as [M _]. cbn [e_mat]. rewrite set_block_row, map_col_at by exact Hi.
    pose proof (M i p 0). pose proof (M i p 1). pose proof (M i p 2). three phase_1; three phase_2; try congruence; calc; rewrite ?H, ?H0, ?H1 by lia; ring.
Qed.
Definition grounded (p : nat) : Prop :=
  match ftype with three_phase => True | single_phase_to_ground => p = phase_1 | two_phase => False | two_phase_to_ground => p = phase_1 \/ p = phase_2 end.
Local Notation inject := (i_source_inject o np sources_per_bus y_source u_source).
Local Notation bus := (i_source_bus o np sources_per_bus y_source u_source).
Lemma num_one : nnum o 1 = one. Proof. unfold nnum, nsum. cbn. ring. Qed.
Lemma one_nz : one <> zero. Proof. exact (F_1_neq_0 (nl_field o L)). Qed.
Lemma div_one a : a / one = a. Proof. field. apply one_nz. Qed.
Lemma bolted_row b e e1 x p f nf : masked b e e1 -> p < np -> y_fault f = Bolted ->
  (forall q, inject b q = e_rhs e b q) -> (forall q, q < np -> grounded q -> bus (volt 1 f x) b q = e_rhs e b q) ->
  dot (e_mat (add_bolted b e1) b b) x p - e_rhs (add_bolted b e1) b p = dot (e_mat e b b) (volt 1 f x) p - e_rhs e b p + cur b x (volt 1 f x) 1 nf f p.
Proof.
  intros M Hp Hf Hi Hb. unfold fault_current, fault_current_1. rewrite Hf, num_one. cbv zeta.
  set (B := bus (volt 1 f x) b) in *. set (J := inject b) in *. set (R := e_rhs e b) in *. clearbody B J.
  assert (V : volt 1 f x = match ftype with three_phase => vzero o | single_phase_to_ground => vset x phase_1 zero | two_phase => vset x phase_2 (x phase_1)
    | two_phase_to_ground => vset (vset x phase_1 zero) phase_2 zero end) by (unfold fault_voltage; rewrite Hf; reflexivity).
  rewrite V. clear V. unfold add_fault_with_infinite_impedance. unfold masked in M. unfold phases_fit in PF. unfold grounded in Hb.
  set (A := e_mat e b b) in *. destruct ftype.
  - cbn [e_mat e_rhs]. rewrite set_block_at, set_rhs_at. rewrite Hb by auto. destruct PF as [E|E]; rewrite E in *; [destruct p; [|lia]|three p]; calc; rewrite !div_one; ring.
  - destruct PF as (E & P1). rewrite E in *. destruct M as [M MR]. cbn [e_mat e_rhs]. rewrite set_block_at, set_rhs_at, map_col_at.
    pose proof (Hb phase_1 P1 eq_refl) as B1. pose proof (M b p 0). pose proof (M b p 1). pose proof (M b p 2). pose proof (MR p) as MR0. fold A in H, H0, H1. fold R in MR0.
    three phase_1; three p; calc; rewrite ?B1, ?H, ?H0, ?H1, ?MR0, ?div_one by lia; ring.
  - destruct PF as (E & P1 & P2 & P12). rewrite E in *. destruct M as (M & M' & MR). cbn [e_mat e_rhs]. rewrite set_block_at, set_rhs_at, map_col_at.
    pose proof (M b p 0). pose proof (M b p 1). pose proof (M b p 2). pose proof (M' b p) as M2. fold A in H, H0, H1, M2. fold R in MR.
    pose proof (MR 0) as R0. pose proof (MR 1) as R1. pose proof (MR 2) as R2.
    three phase_1; three phase_2; try congruence; three p; calc; rewrite ?H, ?H0, ?H1, ?M2, ?R0, ?R1, ?R2, ?Hi, ?div_one by lia; ring.
  - destruct PF as (E & P1 & P2 & P12). rewrite E in *. destruct M as (M & MR). cbn [e_mat e_rhs]. rewrite set_block_at, set_rhs_at, map_col_at.
    pose proof (Hb phase_1 P1 (or_introl eq_refl)) as B1. pose proof (Hb phase_2 P2 (or_intror eq_refl)) as B2.
    pose proof (M b p 0). pose proof (M b p 1). pose proof (M b p 2). fold A in H, H0, H1. pose proof (MR p) as MR0. fold R in MR0.
    three phase_1; three phase_2; try congruence; three p; calc; rewrite ?B1, ?B2, ?H, ?H0, ?H1, ?MR0, ?div_one by lia; ring.
Qed.
(** a single fault of two phases to ground, with an impedance *)
Lemma ground_column b e x y i p f : ftype = two_phase_to_ground -> y_fault f = Through y -> i <> b -> p < np ->
  dot (e_mat (add_fault y b e) i b) x p = dot (e_mat e i b) (volt 0 f x) p.
Proof.
  intros Ht Hf Hi Hp. unfold ShortCircuit.add_fault, fault_voltage. rewrite Hf, Ht. unfold phases_fit in PF. rewrite Ht in PF. destruct PF as (E & P1 & P2 & P12). rewrite E in *.
  cbn [e_mat]. rewrite set_block_row, map_col_at by exact Hi. cbn [Nat.ltb Nat.leb]. three phase_1; three phase_2; try congruence; calc; ring.
Qed.
Lemma ground_row b e x y p f : ftype = two_phase_to_ground -> y_fault f = Through y -> p < np -> (forall q, inject b q = e_rhs e b q) ->
  dot (e_mat (add_fault y b e) b b) x p - e_rhs (add_fault y b e) b p = dot (e_mat e b b) (volt 0 f x) p - e_rhs e b p + cur b x (volt 0 f x) 0 1 f p.
Proof.
  intros Ht Hf Hp Hi. unfold fault_current, fault_current_1, ShortCircuit.add_fault, fault_voltage. rewrite Hf, Ht, num_one. cbn [Nat.ltb Nat.leb].
  unfold phases_fit in PF. rewrite Ht in PF. destruct PF as (E & P1 & P2 & P12). set (J := inject b) in *. clearbody J. rewrite E in *.
  cbn [e_mat e_rhs]. rewrite set_block_at, set_rhs_at, map_col_at. three phase_1; three phase_2; try congruence; three p; calc; rewrite ?Hi, ?div_one; ring.
Qed.

(** ** One bus *)
Definition bus_voltage (k : nat) (l : list nat) (x : vec (C := C)) : vec := fold_left (fun u f => volt k f u) l x.
Lemma voltage_skip l : Forall impedance l -> forall k x, (0 < k \/ ftype <> two_phase_to_ground) -> bus_voltage k l x = x.
Proof.
  induction 1 as [|f l [y Hy] Hl IH]; intros k x Hk; [reflexivity|]. unfold bus_voltage. cbn [fold_left]. assert (E : volt k f x = x).
  { unfold fault_voltage. rewrite Hy. destruct ftype; auto. destruct Hk as [Hk|Hk]; [|congruence]. apply Nat.ltb_lt in Hk. now rewrite Hk. }
  rewrite E. apply IH. exact Hk.
Qed.
Lemma current_skip f : impedance f -> forall b x u k nf p, 0 < k -> cur b x u k nf f p = zero.
Proof.
  intros [y Hy] b x u k nf p Hk. apply Nat.ltb_lt in Hk. unfold fault_current, fault_current_1. rewrite Hy, Hk. destruct ftype; reflexivity.
Qed.
Lemma current_one f : impedance f -> ftype <> two_phase_to_ground -> forall b x u k nf p, cur b x u k nf f p = cur1 x k f p.
Proof. intros [y Hy] Ht b x u k nf p. unfold fault_current. rewrite Hy. destruct ftype; congruence || reflexivity. Qed.
Definition bolted_split (l : list nat) : Prop :=
  Forall impedance l \/ exists l1 f l2, l = l1 ++ f :: l2 /\ Forall impedance l1 /\ y_fault f = Bolted /\ Forall impedance l2.
Lemma split_of_count l : length (filter (fun f => is_bolted (y_fault f)) l) <= 1 -> bolted_split l.
Proof.
  induction l as [|f l IH]; intros H; [left; constructor|]. cbn [filter] in H. destruct (y_fault f) as [|y] eqn:E; cbn [is_bolted] in H.
  - cbn [length] in H. right. exists [], f, l. split; [reflexivity|split; [constructor|split; [exact E|]]].
    assert (H0 : filter (fun f => is_bolted (y_fault f)) l = []) by (destruct (filter _ l); [reflexivity|cbn in H; lia]).
    apply Forall_forall. intros g Hg. destruct (y_fault g) as [|y] eqn:Eg; [|exists y; exact Eg]. exfalso.
    assert (In g (filter (fun f => is_bolted (y_fault f)) l)) by (apply filter_In; rewrite Eg; auto). rewrite H0 in *. auto.
  - assert (If : impedance f) by (exists y; exact E). destruct (IH H) as [Hl|(l1 & g & l2 & -> & H1 & H2 & H3)]; [left; constructor; auto|].
    right. exists (f :: l1), g, l2. split; [reflexivity|split; [constructor; auto|auto]].
Qed.
Lemma uncoupled_dot y u q : uncoupled o y -> u q = zero -> dot y u q = zero.
Proof.
  intros Hy Hu. unfold ShortCircuit.dot. apply (nsum_zero o L). intros r _. destruct (Nat.eq_dec q r) as [->|N]; [rewrite Hu; ring|rewrite (Hy q r N); ring].
Qed.
Lemma zero_dot y p : dot y (vzero o) p = zero.
Proof. unfold ShortCircuit.dot. apply (nsum_zero o L). intros r _. unfold vzero. ring. Qed.

Section Bus.
Variable b : nat.
Hypothesis one_bolted : length (filter (fun f => is_bolted (y_fault f)) (fault_buses b)) <= 1.
Hypothesis one_ground : ftype = two_phase_to_ground -> (exists f, In f (fault_buses b) /\ y_fault f = Bolted) \/ length (fault_buses b) <= 1.
Hypothesis no_coupling : ftype = single_phase_to_ground \/ ftype = two_phase_to_ground -> (exists f, In f (fault_buses b) /\ y_fault f = Bolted) ->
  forall s, In s (sources_per_bus b) -> uncoupled o (y_source s).
Variable e0 : equations (C := C).
Hypothesis col0 : forall i, e_mat e0 i b = ybus i b.
Hypothesis rhs0 : e_rhs e0 b = vzero o.
Hypothesis bolted0 : e_bolted e0 b = 0.
Variable x : vec (C := C).
Let e' := pass e0 b.
Let k := e_bolted e' b.
Let u := bus_voltage k (fault_buses b) x.
Let i_f := cur b x u k (length (fault_buses b)).

Lemma bus_identity :
  (forall i p, i <> b -> p < np -> dot (e_mat e' i b) x p = dot (ybus i b) u p) /\
  (forall p, p < np -> dot (e_mat e' b b) x p - e_rhs e' b p =
     dot (ybus b b) u p - nsum o (map (fun s => source_current o np y_source u_source u s p) (sources_per_bus b)) + nsum o (map (fun f => i_f f p) (fault_buses b))) /\
  (forall f, In f (fault_buses b) -> boundary o np ftype phase_1 phase_2 (y_fault f) u (i_f f)).
Proof.
  unfold i_f, u, k, e', pass. clear i_f u k e'. set (e1 := add_sources b e0).
  assert (K1 : e_bolted e1 b = 0) by (unfold e1; destruct (sources_effect b e0 x 0) as (_ & _ & _ & H); rewrite H; exact bolted0).
  assert (C1 : forall i, i <> b -> e_mat e1 i b = ybus i b) by (intros i Hi; unfold e1; destruct (sources_effect b e0 x 0) as (_ & _ & H & _); rewrite H by exact Hi; apply col0).
  assert (D1 : forall v p, dot (e_mat e1 b b) v p = dot (ybus b b) v p + nsum o (map (fun s => dot (y_source s) v p) (sources_per_bus b))).
  { intros v p. unfold e1. destruct (sources_effect b e0 v p) as (H & _). rewrite H, col0. reflexivity. }
  assert (R1 : forall p, inject b p = e_rhs e1 b p).
  { intros p. rewrite inject_sum. unfold e1. destruct (sources_effect b e0 x p) as (_ & H & _). rewrite H, rhs0. unfold vzero. ring. }
  assert (S1 : forall v p, nsum o (map (fun s => source_current o np y_source u_source v s p) (sources_per_bus b)) = e_rhs e1 b p - nsum o (map (fun s => dot (y_source s) v p) (sources_per_bus b))).
  { intros v p. rewrite <- R1, inject_sum. unfold source_current, vsub. apply (nsum_sub o L). }
  clearbody e1. destruct (split_of_count _ one_bolted) as [Hall|(l1 & f & l2 & El & H1 & Hf & H2)].
  - destruct (is_ground_dec ftype) as [Ht|Ht].
    + (* two phases to ground, with an impedance *)
      assert (Hlen : length (fault_buses b) <= 1).
      { destruct (one_ground Ht) as [(f & Hin & Hb)|Hl]; [|exact Hl]. rewrite Forall_forall in Hall. destruct (Hall f Hin) as [y Hy]. congruence. }
      destruct (fault_buses b) as [|f [|]] eqn:El; [| |cbn in Hlen; lia].
      * cbn [ShortCircuit.add_faults bus_voltage fold_left map length]. refine (conj _ (conj _ _)).
        -- intros i p Hi Hp. now rewrite C1.
        -- intros p Hp. rewrite D1, S1. unfold nsum at 3. cbn. ring.
        -- intros f [].
      * inversion Hall as [|? ? [y Hy] _]; subst. cbn [ShortCircuit.add_faults bus_voltage fold_left map length]. rewrite Hy. rewrite add_fault_bolted, K1.
        cbn [bus_voltage fold_left]. unfold bus_voltage. cbn [fold_left]. refine (conj _ (conj _ _)).
        -- intros i p Hi Hp. rewrite (ground_column b e1 x y i p f Ht Hy Hi Hp). now rewrite C1.
        -- intros p Hp. rewrite (ground_row b e1 x y p f Ht Hy Hp R1), D1, S1. unfold nsum at 3. cbn [fold_right]. ring.
        -- intros g [<-|[]]. unfold boundary, fault_current, fault_current_1, fault_voltage. rewrite Hy, Ht. cbn [Nat.ltb Nat.leb]. cbv zeta. rewrite num_one.
           unfold phases_fit in PF. rewrite Ht in PF. destruct PF as (E & P1 & P2 & P12). assert (P21 : phase_2 <> phase_1) by auto.
           unfold vset, vzero. off_eqb. refine (conj _ (conj _ _)).
           ++ intros p Hp Q1 Q2. off_eqb. reflexivity.
           ++ reflexivity.
           ++ rewrite !div_one. ring.
    + (* only impedances, another type *)
      destruct (add_faults_effect (fault_buses b) b x Ht Hall e1) as (A1 & A2 & A3 & A4). rewrite A3, K1. rewrite (voltage_skip _ Hall 0 x (or_intror Ht)). refine (conj _ (conj _ _)).
      * intros i p Hi Hp. rewrite A1, C1 by exact Hi. reflexivity.
      * intros p Hp. rewrite A2, A4, D1, S1 by exact Hp.
        rewrite (nsum_ext o (fun f => cur b x x 0 (length (fault_buses b)) f p) (fun f => cur1 x 0 f p)); [ring|].
        intros f Hin. apply current_one; [|exact Ht]. rewrite Forall_forall in Hall. auto.
      * intros f Hin. rewrite Forall_forall in Hall. destruct (Hall f Hin) as [y Hy].
        unfold boundary, fault_current, fault_current_1. rewrite Hy. unfold phases_fit in PF. destruct ftype; try congruence; cbn [Nat.ltb Nat.leb].
        -- intros p Hp. reflexivity.
        -- destruct PF as (E & P1). unfold vset, vzero. off_eqb. split; [|reflexivity]. intros p Hp Q1. off_eqb. reflexivity.
        -- destruct PF as (E & P1 & P2 & P12). assert (P21 : phase_2 <> phase_1) by auto. unfold vset, vzero. off_eqb. refine (conj _ (conj _ _)); [|ring|ring].
           intros p Hp Q1 Q2. off_eqb. reflexivity.
  - (* one bolted fault *)
    assert (Hin : In f (fault_buses b)) by (rewrite El; apply in_or_app; right; left; reflexivity).
    assert (Hc := fun T => no_coupling T (ex_intro _ f (conj Hin Hf))). clear no_coupling one_ground one_bolted. rewrite El. clear El Hin.
    destruct (masked_faults l1 f l2 b H1 Hf e1) as (e2 & M & K & E). rewrite E.
    assert (Kb : e_bolted (add_bolted b e2) b = 1) by (unfold add_fault_with_infinite_impedance; destruct ftype; cbn [e_bolted]; rewrite K, K1; reflexivity).
    rewrite Kb. assert (V : bus_voltage 1 (l1 ++ f :: l2) x = volt 1 f x).
    { unfold bus_voltage. rewrite fold_left_app. cbn [fold_left]. fold (bus_voltage 1 l1 x). rewrite (voltage_skip l1 H1 1 x) by (left; lia).
      fold (bus_voltage 1 l2 (volt 1 f x)). apply voltage_skip; [exact H2|left; lia]. }
    rewrite V. set (v := volt 1 f x). set (nf := length (l1 ++ f :: l2)).
    assert (Hb : forall q, q < np -> grounded q -> bus v b q = e_rhs e1 b q).
    { intros q Hq G. rewrite bus_sum, <- inject_sum, R1. rewrite (nsum_zero o L); [ring|]. intros s Hs. unfold v, fault_voltage. rewrite Hf. unfold grounded in G.
      destruct ftype; [apply zero_dot| |destruct G|].
      - apply uncoupled_dot; [apply Hc; auto|]. subst q. unfold vset. now rewrite Nat.eqb_refl.
      - apply uncoupled_dot; [apply Hc; auto|]. unfold vset. destruct G as [->| ->]; rewrite Nat.eqb_refl; [|reflexivity]. destruct (phase_1 =? phase_2); reflexivity. }
    refine (conj _ (conj _ _)).
    + intros i p Hi Hp. rewrite (bolted_column b e1 e2 x i p M Hi Hp f Hf). now rewrite C1.
    + intros p Hp. rewrite (bolted_row b e1 e2 x p f nf M Hp Hf R1 Hb), D1, S1. rewrite map_app, (nsum_app o L). cbn [map].
      rewrite (nsum_zero o L _ l1) by (intros g Hg; apply current_skip; [rewrite Forall_forall in H1; auto|lia]).
      change (nsum o (cur b x v 1 nf f p :: map (fun f0 => cur b x v 1 nf f0 p) l2)) with (cur b x v 1 nf f p + nsum o (map (fun f0 => cur b x v 1 nf f0 p) l2)).
      rewrite (nsum_zero o L _ l2) by (intros g Hg; apply current_skip; [rewrite Forall_forall in H2; auto|lia]). unfold v. ring.
    + intros g Hg. assert (G : g = f \/ impedance g).
      { apply in_app_or in Hg. rewrite Forall_forall in H1, H2. destruct Hg as [Hg|[Hg|Hg]]; auto. }
      destruct G as [->|Ig].
      * rewrite Hf. unfold boundary, fault_current, fault_current_1, v, fault_voltage. rewrite Hf. cbv zeta. rewrite num_one. unfold phases_fit in PF. destruct ftype.
        -- intros p Hp. reflexivity.
        -- destruct PF as (_ & P1). unfold vset, vzero. off_eqb. split; [|reflexivity]. intros p Hp Q1. off_eqb. reflexivity.
        -- destruct PF as (_ & P1 & P2 & P12). assert (P21 : phase_2 <> phase_1) by auto. unfold vset, vzero. off_eqb. refine (conj _ (conj _ _)); [|ring|reflexivity].
           intros p Hp Q1 Q2. off_eqb. reflexivity.
        -- destruct PF as (_ & P1 & P2 & P12). assert (P21 : phase_2 <> phase_1) by auto. unfold vset, vzero. off_eqb. refine (conj _ (conj _ _)); [|reflexivity|reflexivity].
           intros p Hp Q1 Q2. off_eqb. reflexivity.
      * assert (Z : forall p, cur b x v 1 nf g p = zero) by (intros p; apply current_skip; [exact Ig|lia]). destruct Ig as [y Hy]. rewrite Hy.
        set (ig := cur b x v 1 nf g) in *. clearbody ig. unfold boundary, v, fault_voltage. rewrite Hf. unfold phases_fit in PF. destruct ftype.
        -- intros p Hp. rewrite Z. unfold vzero. ring.
        -- destruct PF as (_ & P1). split; [auto|]. rewrite Z. unfold vset. off_eqb. ring.
        -- destruct PF as (_ & P1 & P2 & P12). refine (conj _ (conj _ _)); [auto|rewrite !Z; ring|]. rewrite Z. unfold vset. off_eqb. ring.
        -- destruct PF as (_ & P1 & P2 & P12). refine (conj _ (conj _ _)); [auto| |]; rewrite ?Z; unfold vset; off_eqb; ring.
Qed.
End Bus.
End Facts.
