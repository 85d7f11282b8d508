(** C65: a short circuit has exactly one outcome. *)
From Coq Require Import Reals Lra Lia Field.
From Verif Require Import Common NatMap GroupedIdx Component Numbers ShortCircuit ShortCircuitSpec ShortCircuitFacts ShortCircuitProps PowerFlow PowerFlowSpec PowerFlowFacts BalancedSpec BalancedGrid YBus YBusSpec Units UnitsFacts Ratings RatingsFacts LossesSpec LossesFacts LossesMore SolvableSpec SolvableFacts SolvableKernel SolvableProps ShortSolvableSpec ShortSolvableFacts.
From Verif Require TwoPort TwoPortSpec.
Local Open Scope R_scope.

(** ** The power of faults *)
Lemma nsum_cons (a : C) l : nsum cnum (a :: l) = cadd a (nsum cnum l). Proof. reflexivity. Qed.
Definition cneg (z : C) : C := (- re z, - im z).
Definition pw (u i : C) : R := re (cmul u (conj i)).
Lemma pw_0 u i : i = (0, 0) -> pw u i = 0. Proof. intros ->. unfold pw, cmul, conj, re, im. cbn. ring. Qed.
Lemma pw_u0 u i : u = (0, 0) -> pw u i = 0. Proof. intros ->. unfold pw, cmul, conj, re, im. cbn. ring. Qed.
Lemma pw_y u y : pw u (cmul y u) = re y * norm2 u. Proof. unfold pw, norm2, cmul, conj, re, im. destruct u, y. cbn. ring. Qed.
Lemma pw_add u i j : pw u (cadd i j) = pw u i + pw u j. Proof. unfold pw, cmul, cadd, conj, re, im. destruct u, i, j. cbn. ring. Qed.
Lemma pw_sub u v i : pw u i - pw v i = pw (csub u v) i. Proof. unfold pw, cmul, csub, conj, re, im. destruct u, v, i. cbn. ring. Qed.
Lemma pw_opp u i : pw u (cneg i) = - pw u i. Proof. unfold pw, cmul, cneg, conj, re, im. destruct u, i. cbn. ring. Qed.
Lemma power_three u i : power 3 u i = pw (u 0%nat) (i 0%nat) + pw (u 1%nat) (i 1%nat) + pw (u 2%nat) (i 2%nat).
Proof. unfold power, pw. cbn [seq map fold_right]. ring. Qed.
Lemma one_phase p1 u i : (p1 < 3)%nat -> (forall p, (p < 3)%nat -> p <> p1 -> i p = (0, 0)) -> power 3 u i = pw (u p1) (i p1).
Proof.
  intros H Z. rewrite power_three. destruct p1 as [|[|[|p1]]]; [| | |lia].
  - rewrite !(pw_0 _ _ (Z 1%nat ltac:(lia) ltac:(lia))), !(pw_0 _ _ (Z 2%nat ltac:(lia) ltac:(lia))). ring.
  - rewrite !(pw_0 _ _ (Z 0%nat ltac:(lia) ltac:(lia))), !(pw_0 _ _ (Z 2%nat ltac:(lia) ltac:(lia))). ring.
  - rewrite !(pw_0 _ _ (Z 0%nat ltac:(lia) ltac:(lia))), !(pw_0 _ _ (Z 1%nat ltac:(lia) ltac:(lia))). ring.
Qed.
Lemma two_phases p1 p2 u i : (p1 < 3)%nat -> (p2 < 3)%nat -> p1 <> p2 -> (forall p, (p < 3)%nat -> p <> p1 -> p <> p2 -> i p = (0, 0)) -> power 3 u i = pw (u p1) (i p1) + pw (u p2) (i p2).
Proof.
  intros H1 H2 N Z. rewrite power_three. destruct p1 as [|[|[|p1]]]; [| | |lia]; (destruct p2 as [|[|[|p2]]]; [| | |lia]); try congruence.
  all: first [rewrite !(pw_0 _ _ (Z 0%nat ltac:(lia) ltac:(lia) ltac:(lia))) | rewrite !(pw_0 _ _ (Z 1%nat ltac:(lia) ltac:(lia) ltac:(lia))) | rewrite !(pw_0 _ _ (Z 2%nat ltac:(lia) ltac:(lia) ltac:(lia)))]; ring.
Qed.
Lemma opposite a b : cadd a b = (0, 0) -> b = cneg a.
Proof. destruct a, b. unfold cadd, cneg, re, im. cbn. intros [= A B]. f_equal; lra. Qed.
Lemma boundary_power np t p1 p2 y u i : phases_fit np t p1 p2 -> passive_fault y -> boundary cnum np t p1 p2 y u i -> 0 <= power np u i.
Proof.
  intros PF Y. unfold boundary. unfold phases_fit in PF. destruct t.
  - intros B. rewrite power_sum. apply rsum_nn. intros p Hp. apply in_seq in Hp. specialize (B p ltac:(lia)). fold (pw (u p) (i p)). destruct y as [|y].
    + rewrite pw_u0 by exact B. lra.
    + rewrite B. change (n_mul cnum) with cmul. rewrite pw_y. apply Rmult_le_pos; [exact Y|apply norm2_nn].
  - destruct PF as [-> P1]. intros [Z B]. rewrite (one_phase p1 u i P1 Z). destruct y as [|y].
    + rewrite pw_u0 by exact B. lra.
    + rewrite B. change (n_mul cnum) with cmul. rewrite pw_y. apply Rmult_le_pos; [exact Y|apply norm2_nn].
  - destruct PF as (-> & P1 & P2 & N). intros (Z & S & B). rewrite (two_phases p1 p2 u i P1 P2 N Z). rewrite (opposite _ _ S), pw_opp.
    replace (pw (u p1) (i p1) + - pw (u p2) (i p1)) with (pw (csub (u p1) (u p2)) (i p1)) by (rewrite <- pw_sub; ring). destruct y as [|y].
    + rewrite pw_u0; [lra|]. rewrite B. destruct (u p2). unfold csub, re, im. cbn. f_equal; ring.
    + rewrite B. change (n_mul cnum y (n_sub cnum (u p1) (u p2))) with (cmul y (csub (u p1) (u p2))). rewrite pw_y. apply Rmult_le_pos; [exact Y|apply norm2_nn].
  - destruct PF as (-> & P1 & P2 & N). intros (Z & S & B). rewrite (two_phases p1 p2 u i P1 P2 N Z). rewrite <- S, <- pw_add. destruct y as [|y].
    + rewrite pw_u0 by exact B. lra.
    + change (cadd (i p1) (i p2)) with (n_add cnum (i p1) (i p2)). rewrite B. change (n_mul cnum) with cmul. rewrite pw_y. apply Rmult_le_pos; [exact Y|apply norm2_nn].
Qed.

(** ** Active power *)
Section Kernel.
Variable np : nat.
Context {Y S' : Type} (ten : Y -> nat -> nat -> C) (yadd : Y -> Y -> Y) (yzero : Y).
Hypothesis ten_add : forall a b p q, ten (yadd a b) p q = cadd (ten a p q) (ten b p q).
Hypothesis ten_0 : forall p q, ten yzero p q = (0, 0).
Variables (t : math_topo) (prm : @model_param Y S').
Hypothesis ok : sub_grid_ok t.
Notation n := (mt_n_bus t).
Variables (sources : nat -> list nat) (ys : nat -> nat -> nat -> C).
Notation dot := (dot cnum np).
Notation branches := (combine (mt_branch t) (p_branch prm)).
Notation shunts := (combine (d_vec (mt_shunt t)) (p_shunt prm)).
Notation Y' := (ybus ten yadd yzero t prm).
Hypothesis passive_branches : forall q, In q (p_branch prm) -> passive_branch cnum np ten q.
Hypothesis passive_shunts : forall g, In g (p_shunt prm) -> passive_admittance cnum np ten g.
Hypothesis real_sources : forall b k, In k (sources b) -> resistive cnum np (fun m => m) (ys k).
Hypothesis connected : forall b, (b < n)%nat -> supplied cnum np ten branches (fun b => sources b <> []) b.
Lemma taken_zero (d J : nat -> nat -> C) : (forall b, (b < n)%nat -> 0 <= power np (d b) (J b)) ->
  (forall b p, (b < n)%nat -> (p < np)%nat -> cadd (cadd (network_current cnum np n Y' d b p) (nsum cnum (map (fun k => dot (ys k) (d b) p) (sources b)))) (J b p) = (0, 0)) ->
  forall b p, (b < n)%nat -> (p < np)%nat -> d b p = (0, 0).
Proof.
  intros HJ still.
  set (bus_power := fun b => power np (d b) (network_current cnum np n Y' d b)). set (source_power := fun b => rsum (map (fun k => power np (d b) (dot (ys k) (d b))) (sources b))).
  assert (Bal : forall b, (b < n)%nat -> bus_power b + source_power b + power np (d b) (J b) = 0).
  { intros b Hb. unfold bus_power, source_power. rewrite <- (power_nsum np (d b) (fun k => dot (ys k) (d b))), <- !power_add. rewrite (power_ext np _ _ (fun _ => (0, 0))); [apply power_0|].
    intros p Hp. exact (still b p Hb Hp). }
  assert (Snn : forall b, 0 <= source_power b) by (intros b; apply rsum_nn; intros k Hk; apply (resistive_nn np (fun m => m)); eapply real_sources; eauto).
  assert (T : rsum (map bus_power (seq 0 n)) + rsum (map source_power (seq 0 n)) + rsum (map (fun b => power np (d b) (J b)) (seq 0 n)) = 0).
  { rewrite <- !rsum_plus. apply (nsum_zero rnum rnum_laws). intros b Hb. apply in_seq in Hb. apply Bal. lia. }
  pose proof (energy np ten yadd yzero ten_add ten_0 t prm n (ranges t ok) (go_shunt t ok) d) as En.
  change (rsum (map bus_power (seq 0 n)) = rsum (map (fun x => takes cnum np ten (snd x) (at_end d (fst (fst x))) (at_end d (snd (fst x)))) branches) +
    rsum (map (fun x => power np (d (fst x)) (dot (ten (snd x)) (d (fst x)))) shunts)) in En. rewrite En in T.
  assert (B : forall x, In x branches -> 0 <= takes cnum np ten (snd x) (at_end d (fst (fst x))) (at_end d (snd (fst x)))).
  { intros [x q] Hin. apply passive_branches. now apply in_combine_r in Hin. }
  assert (S : 0 <= rsum (map (fun x => power np (d (fst x)) (dot (ten (snd x)) (d (fst x)))) shunts)).
  { apply rsum_nn. intros [b g] Hin. apply passive_shunts. now apply in_combine_r in Hin. }
  assert (Ld : 0 <= rsum (map (fun b => power np (d b) (J b)) (seq 0 n))) by (apply rsum_nn; intros b Hb; apply in_seq in Hb; apply HJ; lia).
  assert (Sr : 0 <= rsum (map source_power (seq 0 n))) by (apply rsum_nn; intros; apply Snn).
  pose proof (rsum_nn _ _ B) as Bn.
  assert (NB : forall x, In x branches -> takes cnum np ten (snd x) (at_end d (fst (fst x))) (at_end d (snd (fst x))) = 0) by (apply rsum_0; [exact B|lra]).
  assert (NS : forall b, (b < n)%nat -> source_power b = 0) by (intros b Hb; apply (rsum_0 source_power (seq 0 n)); [intros; apply Snn|lra|apply in_seq; lia]).
  assert (G : forall b, supplied cnum np ten branches (fun b => sources b <> []) b -> (b < n)%nat -> forall p, (p < np)%nat -> d b p = (0, 0)).
  { intros b H. induction H as [b Hs|i j q Hin _ IH Hr|i j q Hin _ IH Hr]; intros Hb.
    - destruct (sources b) as [|k l] eqn:E; [congruence|]. intros p0 Hp0; refine (not_resistive np (fun m => m) (ys k) (d b) _ _ p0 Hp0); [apply (real_sources b); rewrite E; left; reflexivity|].
      assert (Z : power np (d b) (dot (ys k) (d b)) = 0); [|lra].
      apply (rsum_0 (fun k => power np (d b) (dot (ys k) (d b))) (sources b)); [intros k' Hk'; apply (resistive_nn np (fun m => m)); eapply real_sources; eauto|pose proof (NS b Hb) as Q; unfold source_power in Q; lra|rewrite E; left; reflexivity].
    - pose proof (NB _ Hin) as Tk. cbn [fst snd at_end] in Tk. unfold takes in Tk. rewrite !power_add in Tk.
      assert (Hi : (i < n)%nat) by (apply in_combine_l in Hin; apply (proj1 (ranges t ok _ _ Hin)); reflexivity). specialize (IH Hi).
      rewrite !(near_end np (d i)), !(far_end np _ (d i)) in Tk by exact IH. intros p0 Hp0; refine (not_resistive np ten (ytt q) (d j) _ _ p0 Hp0); [exact Hr|lra].
    - pose proof (NB _ Hin) as Tk. cbn [fst snd at_end] in Tk. unfold takes in Tk. rewrite !power_add in Tk.
      assert (Hj : (j < n)%nat) by (apply in_combine_l in Hin; apply (proj2 (ranges t ok _ _ Hin)); reflexivity). specialize (IH Hj).
      rewrite !(near_end np (d j)), !(far_end np _ (d j)) in Tk by exact IH. intros p0 Hp0; refine (not_resistive np ten (yff q) (d i) _ _ p0 Hp0); [exact Hr|lra]. }
  intros b p Hb Hp. apply G; auto.
Qed.

(** ** Faults *)
Variables (us : nat -> nat -> C) (faults : nat -> list nat) (y_fault : nat -> admittance (C := C)) (ft : fault_type) (p1 p2 : nat).
Hypothesis PF : phases_fit np ft p1 p2.
Hypothesis passive_faults : forall b f, In f (faults b) -> passive_fault (y_fault f).
Lemma total_passive b (u : nat -> C) (i : nat -> nat -> C) : (forall f, In f (faults b) -> boundary cnum np ft p1 p2 (y_fault f) u (i f)) -> 0 <= power np u (fun p => nsum cnum (map (fun f => i f p) (faults b))).
Proof. intros H. rewrite (power_nsum np u i). apply rsum_nn. intros f Hf. apply (boundary_power np ft p1 p2 (y_fault f)); eauto. Qed.
(** two outcomes are the same *)
Lemma unique_outcome u i u' i' : outcome cnum np n Y' sources ys us faults y_fault ft p1 p2 u i -> outcome cnum np n Y' sources ys us faults y_fault ft p1 p2 u' i' ->
  forall b p, (b < n)%nat -> (p < np)%nat -> u b p = u' b p /\ nsum cnum (map (fun f => i b f p) (faults b)) = nsum cnum (map (fun f => i' b f p) (faults b)).
Proof.
  intros H H'.
  set (d := fun b => vsub cnum (u b) (u' b)). set (j := fun b f => vsub cnum (i b f) (i' b f)).
  assert (Sm : forall b p, nsum cnum (map (fun f => j b f p) (faults b)) = csub (nsum cnum (map (fun f => i b f p) (faults b))) (nsum cnum (map (fun f => i' b f p) (faults b)))) by (intros b p; apply (nsum_sub cnum cl)).
  assert (Nw : forall b p, network_current cnum np n Y' d b p = csub (network_current cnum np n Y' u b p) (network_current cnum np n Y' u' b p)).
  { intros b p. exact (row_sub cnum conj (TwoPort.c_abs complex_ops) (a120 complex_ops) cpf np n Y' u u' b p). }
  assert (Sc : forall b p, nsum cnum (map (fun k => dot (ys k) (d b) p) (sources b)) = csub (nsum cnum (map (fun k => dot (ys k) (u b) p) (sources b))) (nsum cnum (map (fun k => dot (ys k) (u' b) p) (sources b)))).
  { intros b p. change csub with (n_sub cnum). rewrite <- (nsum_sub cnum cl). apply nsum_ext. intros k _. unfold ShortCircuit.dot. rewrite <- (nsum_sub cnum cl). apply nsum_ext. intros q _. unfold d, vsub. cbn. generalize (ys k p q), (u b q), (u' b q). intros; creal; ring. }
  assert (Eq : forall u i, outcome cnum np n Y' sources ys us faults y_fault ft p1 p2 u i -> forall b p, (b < n)%nat -> (p < np)%nat ->
    cadd (cadd (network_current cnum np n Y' u b p) (nsum cnum (map (fun k => dot (ys k) (u b) p) (sources b)))) (nsum cnum (map (fun f => i b f p) (faults b))) = nsum cnum (map (fun k => dot (ys k) (us k) p) (sources b))).
  { clear. intros u i H b p Hb Hp. destruct (H b Hb) as [Bal _]. specialize (Bal p Hp). rewrite !map_map in Bal. rewrite (nsum_sub cnum cl) in Bal.
    change (network_current cnum np n Y' u b p = csub (csub (nsum cnum (map (fun k => dot (ys k) (us k) p) (sources b))) (nsum cnum (map (fun k => dot (ys k) (u b) p) (sources b)))) (nsum cnum (map (fun f => i b f p) (faults b)))) in Bal.
    rewrite Bal. generalize (nsum cnum (map (fun k => dot (ys k) (us k) p) (sources b))), (nsum cnum (map (fun k => dot (ys k) (u b) p) (sources b))), (nsum cnum (map (fun f => i b f p) (faults b))). intros; creal; ring. }
  assert (Z : forall b p, (b < n)%nat -> (p < np)%nat -> d b p = (0, 0)).
  { apply (taken_zero d (fun b p => nsum cnum (map (fun f => j b f p) (faults b)))).
    - intros b Hb. apply total_passive. intros f Hf. apply (boundary_sub cnum cl np ft p1 p2 PF); [apply (H b Hb)|apply (H' b Hb)]; exact Hf.
    - intros b p Hb Hp. rewrite Nw, Sc, Sm. pose proof (Eq u i H b p Hb Hp) as E1. pose proof (Eq u' i' H' b p Hb Hp) as E2. rewrite <- E2 in E1. revert E1.
      generalize (network_current cnum np n Y' u b p), (network_current cnum np n Y' u' b p), (nsum cnum (map (fun k => dot (ys k) (u b) p) (sources b))), (nsum cnum (map (fun k => dot (ys k) (u' b) p) (sources b))), (nsum cnum (map (fun f => i b f p) (faults b))), (nsum cnum (map (fun f => i' b f p) (faults b))).
      intros [? ?] [? ?] [? ?] [? ?] [? ?] [? ?]. unfold cadd, csub, re, im. cbn. intros [= A B]. f_equal; lra. }
  assert (U : forall b p, (b < n)%nat -> (p < np)%nat -> u b p = u' b p).
  { intros b p Hb Hp. specialize (Z b p Hb Hp). revert Z. unfold d, vsub. destruct (u b p), (u' b p). cbn. unfold csub, re, im. cbn. intros [= A B]. f_equal; lra. }
  intros b p Hb Hp. split; [auto|]. pose proof (Eq u i H b p Hb Hp) as E1. pose proof (Eq u' i' H' b p Hb Hp) as E2.
  assert (N : network_current cnum np n Y' u b p = network_current cnum np n Y' u' b p).
  { unfold network_current. apply nsum_ext. intros k Hk. apply in_seq in Hk. apply dot_ext_v. intros q Hq. apply U; [lia|exact Hq]. }
  assert (Sr : nsum cnum (map (fun k => dot (ys k) (u b) p) (sources b)) = nsum cnum (map (fun k => dot (ys k) (u' b) p) (sources b))).
  { apply nsum_ext. intros k _. apply dot_ext_v. intros q Hq. apply U; auto. }
  rewrite N, Sr in E1. rewrite <- E2 in E1. revert E1. generalize (network_current cnum np n Y' u' b p), (nsum cnum (map (fun k => dot (ys k) (u' b) p) (sources b))), (nsum cnum (map (fun f => i b f p) (faults b))), (nsum cnum (map (fun f => i' b f p) (faults b))).
  intros [? ?] [? ?] [? ?] [? ?]. unfold cadd, re, im. cbn. intros [= A B]. f_equal; lra.
Qed.

(** the equations of the solver have exactly one solution *)
Hypothesis one_bolted : forall b, (b < n)%nat -> (length (filter (fun f => is_bolted (y_fault f)) (faults b)) <= 1)%nat.
Hypothesis one_ground : forall b, (b < n)%nat -> ft = two_phase_to_ground -> (exists f, In f (faults b) /\ y_fault f = Bolted) \/ (length (faults b) <= 1)%nat.
Notation e := (prepare cnum np Y' sources ys us faults y_fault ft p1 p2 n).
Lemma finite_choice {A} (a : A) (P : nat -> A -> Prop) k : (forall b, (b < k)%nat -> exists z, P b z) -> exists f, forall b, (b < k)%nat -> P b (f b).
Proof.
  induction k as [|k IH]; intros H; [exists (fun _ => a); intros; lia|]. destruct IH as (f & Hf); [intros; apply H; lia|]. destruct (H k ltac:(lia)) as (z & Hz).
  exists (fun b => if Nat.eqb b k then z else f b). intros b Hb. destruct (Nat.eqb_spec b k) as [->|N]; [exact Hz|apply Hf; lia].
Qed.
Lemma columns (x : nat -> nat -> C) : forall b, (b < n)%nat -> exists ui : (nat -> C) * (nat -> nat -> C),
  (forall r p, r <> b -> (p < np)%nat -> dot (e_mat e r b) (x b) p = dot (Y' r b) (fst ui) p) /\
  (forall p, (p < np)%nat -> dot (e_mat e b b) (x b) p = cadd (cadd (dot (Y' b b) (fst ui) p) (nsum cnum (map (fun k => dot (ys k) (fst ui) p) (sources b)))) (nsum cnum (map (fun f => snd ui f p) (faults b)))) /\
  (forall f, In f (faults b) -> boundary cnum np ft p1 p2 (y_fault f) (fst ui) (snd ui f)) /\
  ((forall p, (p < np)%nat -> fst ui p = (0, 0)) -> (forall p, (p < np)%nat -> nsum cnum (map (fun f => snd ui f p) (faults b)) = (0, 0)) -> forall p, (p < np)%nat -> x b p = (0, 0)).
Proof.
  intros b Hb.
  destruct (fold_column cnum np sources ys us faults y_fault ft p1 p2 (seq 0 n) b (seq_NoDup n 0) ltac:(apply in_seq; lia) (mkEq Y' (fun _ => vzero cnum) (fun _ => 0%nat))) as (e0 & (A1 & A2 & A3) & B1 & _ & _).
  cbn [e_mat] in A1. set (e1 := add_sources cnum np sources ys us b e0).
  assert (M : forall r, e_mat e r b = e_mat (add_faults cnum y_fault ft p1 p2 (faults b) b (mkEq (e_mat e1) (fun _ => vzero cnum) (fun _ => 0%nat))) r b).
  { intros r. transitivity (e_mat (add_faults cnum y_fault ft p1 p2 (faults b) b e1) r b); [exact (B1 r)|]. now rewrite (faults_mat cnum np y_fault ft p1 p2 PF (faults b) b e1 (mkEq (e_mat e1) (fun _ => vzero cnum) (fun _ => 0%nat)) eq_refl). }
  destruct (alone_identity cnum cl np faults y_fault ft p1 p2 PF b (one_bolted b Hb) (one_ground b Hb) (e_mat e1) (x b)) as (I1 & I2 & I3).
  pose proof (alone_zero cnum cl np faults y_fault ft p1 p2 PF b (one_bolted b Hb) (one_ground b Hb) (e_mat e1) (x b)) as I4.
  set (u := bus_voltage _ _ _ _ _ _ _ _) in *. set (i := fault_current _ _ _ _ _ _ _ _ _ _ _ _ _ _) in *.
  exists (u, i). cbn [fst snd]. split; [|split; [|split; [exact I3|exact I4]]].
  - intros r p Hr Hp. rewrite M, (I1 r p Hr Hp). unfold e1. destruct (sources_effect cnum cl np sources ys us b e0 u p) as (_ & _ & E & _). rewrite E, A1 by exact Hr. reflexivity.
  - intros p Hp. rewrite M, (I2 p Hp). unfold e1. destruct (sources_effect cnum cl np sources ys us b e0 u p) as (E & _). rewrite E, A1. reflexivity.
Qed.
Lemma unique_prepared : exists x, solves cnum np n e x /\ forall x', solves cnum np n e x' -> forall b p, (b < n)%nat -> (p < np)%nat -> x' b p = x b p.
Proof.
  apply (exactly_one cnum conj (TwoPort.c_abs complex_ops) (a120 complex_ops) cpf np n c_dec (e_mat e) (e_rhs e)).
  intros x Hx. destruct (finite_choice (fun _ => (0, 0), fun _ _ => (0, 0)) _ n (columns x)) as (ui & H).
  set (u := fun b => fst (ui b)). set (i := fun b => snd (ui b)).
  assert (St : forall b p, (b < n)%nat -> (p < np)%nat -> cadd (cadd (network_current cnum np n Y' u b p) (nsum cnum (map (fun k => dot (ys k) (u b) p) (sources b)))) (nsum cnum (map (fun f => i b f p) (faults b))) = (0, 0)).
  { intros b p Hb Hp. refine (eq_trans _ (Hx b p Hb Hp)). unfold row, network_current.
    assert (Sp : seq 0 n = seq 0 b ++ b :: seq (S b) (n - S b)) by (replace n with (b + S (n - S b))%nat at 1 by lia; rewrite seq_app; reflexivity).
    rewrite Sp, !map_app, !(nsum_app cnum cl). cbn [map]. rewrite !nsum_cons.
    assert (Q : forall l, (forall j, In j l -> (j < n)%nat /\ j <> b) -> nsum cnum (map (fun j => dot (e_mat e b j) (x j) p) l) = nsum cnum (map (fun j => dot (Y' b j) (u j) p) l)).
    { intros l Hl. apply nsum_ext. intros j Hj. destruct (Hl j Hj) as [J1 J2]. destruct (H j J1) as (K & _). apply K; auto. }
    rewrite !Q by (intros j Hj; apply in_seq in Hj; lia). destruct (H b Hb) as (_ & K & _). specialize (K p Hp). fold (u b) (i b) in K.
    assert (K' : dot (e_mat e b b) (x b) p = cadd (cadd (dot (Y' b b) (u b) p) (nsum cnum (map (fun k => dot (ys k) (u b) p) (sources b)))) (nsum cnum (map (fun f => i b f p) (faults b)))) by exact K. rewrite K'. clear K K'.
    generalize (nsum cnum (map (fun j => dot (Y' b j) (u j) p) (seq 0 b))), (nsum cnum (map (fun j => dot (Y' b j) (u j) p) (seq (S b) (n - S b)))), (dot (Y' b b) (u b) p), (nsum cnum (map (fun k => dot (ys k) (u b) p) (sources b))), (nsum cnum (map (fun f => i b f p) (faults b))).
    intros [? ?] [? ?] [? ?] [? ?] [? ?]. cbn [n_add cnum num_of Ratings.complex_ops TwoPort.c_add]. unfold cadd, re, im. cbn. f_equal; ring. }
  assert (Z : forall b p, (b < n)%nat -> (p < np)%nat -> u b p = (0, 0)).
  { apply (taken_zero u (fun b p => nsum cnum (map (fun f => i b f p) (faults b)))); [|exact St]. intros b Hb. apply total_passive. exact (proj1 (proj2 (proj2 (H b Hb)))). }
  intros b p Hb Hp. apply (proj2 (proj2 (proj2 (H b Hb)))); [intros; apply Z; auto| |exact Hp].
  intros p' Hp'. refine (eq_trans _ (St b p' Hb Hp')).
  assert (E1 : network_current cnum np n Y' u b p' = (0, 0)) by (apply (nsum_zero cnum cl); intros k Hk; apply in_seq in Hk; apply dot_0; intros; apply Z; [lia|assumption]).
  assert (E2 : nsum cnum (map (fun k => dot (ys k) (u b) p') (sources b)) = (0, 0)) by (apply (nsum_zero cnum cl); intros k _; apply dot_0; intros; apply Z; assumption).
  rewrite E1, E2. transitivity (nsum cnum (map (fun f => i b f p') (faults b))); [reflexivity|]. generalize (nsum cnum (map (fun f => i b f p') (faults b))). intros [? ?]. unfold cadd, re, im. cbn. f_equal; ring.
Qed.
End Kernel.

(** ** The grid *)
Definition fault_conditions (n : nat) (faults : nat -> list nat) (y_fault : nat -> admittance (C := C)) (ft : fault_type) : Prop :=
  (forall b, (b < n)%nat -> (length (filter (fun f => is_bolted (y_fault f)) (faults b)) <= 1)%nat) /\
  (forall b, (b < n)%nat -> ft = two_phase_to_ground -> (exists f, In f (faults b) /\ y_fault f = Bolted) \/ (length (faults b) <= 1)%nat).
Section Conclude.
Variable np : nat.
Context {Y S' : Type} (ten : Y -> nat -> nat -> C) (yadd : Y -> Y -> Y) (yzero : Y).
Hypothesis ten_add : forall a b p q, ten (yadd a b) p q = cadd (ten a p q) (ten b p q).
Hypothesis ten_0 : forall p q, ten yzero p q = (0, 0).
Lemma conclude (t : math_topo) (prm : @model_param Y S') (sources : nat -> list nat) (ys : nat -> nat -> nat -> C) us faults y_fault ft p1 p2 : sub_grid_ok t ->
  (forall q, In q (p_branch prm) -> passive_branch cnum np ten q) -> (forall g, In g (p_shunt prm) -> passive_admittance cnum np ten g) ->
  (forall b k, In k (sources b) -> resistive cnum np (fun m => m) (ys k)) ->
  (forall b, (b < mt_n_bus t)%nat -> supplied cnum np ten (combine (mt_branch t) (p_branch prm)) (fun b => sources b <> []) b) ->
  phases_fit np ft p1 p2 -> (forall b f, In f (faults b) -> passive_fault (y_fault f)) -> fault_conditions (mt_n_bus t) faults y_fault ft ->
  one_outcome cnum np (mt_n_bus t) (ybus ten yadd yzero t prm) sources ys us faults y_fault ft p1 p2.
Proof.
  intros ok HB HS HK HC PF HF [F1 F2]. unfold one_outcome.
  destruct (unique_prepared np ten yadd yzero ten_add ten_0 t prm ok sources ys HB HS HK HC us faults y_fault ft p1 p2 PF HF F1 F2) as (x & Hx & U). exists x. split; [exact Hx|]. split; [exact U|]. split.
  - intros u i u' i' H H'. exact (unique_outcome np ten yadd yzero ten_add ten_0 t prm ok sources ys HB HS HK HC us faults y_fault ft p1 p2 PF HF u i u' i' H H').
  - intros NC b Hb. destruct (C43_short_circuit_partial cnum cl np (mt_n_bus t) (ybus ten yadd yzero t prm) sources ys us faults y_fault ft p1 p2 x PF F1 F2 NC Hx b Hb) as (B & Bd & Sr). split; [|exact Bd].
    intros p Hp. rewrite (B p Hp), !map_map. f_equal.
Qed.
End Conclude.

(** In a symmetric calculation, for three-phase faults. *)
Theorem C65_symmetric : forall (t : math_topo) (prm : @model_param C Datatypes.unit) (sources : nat -> list nat) (y1 y0 : nat -> C) (u_source : nat -> nat -> C) (faults : nat -> list nat) (y_fault : nat -> admittance) (p1 p2 : nat),
  sub_grid_ok t ->
  (forall q, In q (p_branch prm) -> exists b, passive b /\ q = param1 b) -> (forall g, In g (p_shunt prm) -> 0 <= re g) ->
  (forall b k, In k (sources b) -> 0 < re (y1 k)) ->
  (forall b, (b < mt_n_bus t)%nat -> supplied cnum 1 one_number (combine (mt_branch t) (p_branch prm)) (fun b => sources b <> []) b) ->
  (forall b f, In f (faults b) -> passive_fault (y_fault f)) -> (forall b, (b < mt_n_bus t)%nat -> (length (filter (fun f => is_bolted (y_fault f)) (faults b)) <= 1)%nat) ->
  one_outcome cnum 1 (mt_n_bus t) (matrix1 complex_ops t prm) sources (source_y cnum 1 y1 y0) u_source faults y_fault three_phase p1 p2.
Proof.
  intros t prm sources y1 y0 u_source faults y_fault p1 p2 ok HB HS HK HC HF F1.
  assert (HB' : forall q, In q (p_branch prm) -> passive_branch cnum 1 one_number q) by (intros q Hq; destruct (HB q Hq) as (b & Pb & ->); now apply passive1).
  assert (HS' : forall g, In g (p_shunt prm) -> passive_admittance cnum 1 one_number g).
  { intros g Hg u. rewrite power1, dot_one, active_self. apply Rmult_le_pos; [now apply HS|apply norm2_nn]. }
  assert (HK' : forall b k, In k (sources b) -> resistive cnum 1 (fun m => m) (source_y cnum 1 y1 y0 k)) by (intros b k Hk; apply source_resistive1; eapply HK; eauto).
  assert (FC : fault_conditions (mt_n_bus t) faults y_fault three_phase) by (split; [exact F1|discriminate]).
  exact (conclude 1 one_number cadd (0, 0) (fun a b p q => eq_refl) (fun p q => eq_refl) t prm sources (source_y cnum 1 y1 y0) u_source faults y_fault three_phase p1 p2 ok HB' HS' HK' HC (or_introl eq_refl) HF FC).
Qed.
(** In an asymmetric calculation, for every type of fault. *)
Theorem C65_asymmetric : forall (t : math_topo) (prm : @model_param (nat -> nat -> C) Datatypes.unit) (sources : nat -> list nat) (y1 y0 : nat -> C) (u_source : nat -> nat -> C) (faults : nat -> list nat) (y_fault : nat -> admittance) (ft : fault_type) (p1 p2 : nat),
  sub_grid_ok t ->
  (forall q, In q (p_branch prm) -> exists b, passive3 b /\ q = param3 b) ->
  (forall g, In g (p_shunt prm) -> exists g1 g0, 0 <= re g1 /\ 0 <= re g0 /\ g = shunt_tensor complex_ops g1 g0) ->
  (forall b k, In k (sources b) -> 0 < re (y1 k) /\ 0 < re (y0 k)) ->
  (forall b, (b < mt_n_bus t)%nat -> supplied cnum 3 a_tensor (combine (mt_branch t) (p_branch prm)) (fun b => sources b <> []) b) ->
  phases_fit 3 ft p1 p2 -> (forall b f, In f (faults b) -> passive_fault (y_fault f)) ->
  (forall b, (b < mt_n_bus t)%nat -> (length (filter (fun f => is_bolted (y_fault f)) (faults b)) <= 1)%nat) ->
  (forall b, (b < mt_n_bus t)%nat -> ft = two_phase_to_ground -> (exists f, In f (faults b) /\ y_fault f = Bolted) \/ (length (faults b) <= 1)%nat) ->
  one_outcome cnum 3 (mt_n_bus t) (matrix3 complex_ops t prm) sources (source_y cnum 3 y1 y0) u_source faults y_fault ft p1 p2.
Proof.
  intros t prm sources y1 y0 u_source faults y_fault ft p1 p2 ok HB HS HK HC PF HF F1 F2.
  assert (HB' : forall q, In q (p_branch prm) -> passive_branch cnum 3 a_tensor q) by (intros q Hq; destruct (HB q Hq) as (b & Pb & ->); now apply passive3_branch).
  assert (HS' : forall g, In g (p_shunt prm) -> passive_admittance cnum 3 a_tensor g) by (intros g Hg; destruct (HS g Hg) as (g1 & g0 & H1 & H0 & ->); now apply shunt_passive3).
  assert (HK' : forall b k, In k (sources b) -> resistive cnum 3 (fun m => m) (source_y cnum 3 y1 y0 k)) by (intros b k Hk; destruct (HK b k Hk); now apply source_resistive3).
  assert (FC : fault_conditions (mt_n_bus t) faults y_fault ft) by (split; assumption).
  exact (conclude 3 a_tensor (tensor_add complex_ops) (tensor_0 complex_ops) (fun a b p q => eq_refl) (fun p q => eq_refl) t prm sources (source_y cnum 3 y1 y0) u_source faults y_fault ft p1 p2 ok HB' HS' HK' HC PF HF FC).
Qed.

(** ** The parameters of sources and faults *)
(** A source with a positive short circuit power, a positive ratio of resistance to reactance and a positive ratio of zero to positive sequence has a resistance. *)
Theorem C65_source : forall sk rx_ratio z01_ratio, 0 < sk -> 0 < rx_ratio -> 0 < z01_ratio -> 0 < re (source_y1 sk rx_ratio) /\ 0 < re (source_y0 sk rx_ratio z01_ratio).
Proof.
  intros sk rx z01 Hs Hr Hz.
  assert (Q : 0 < sqrt (rx * rx + 1)) by (apply sqrt_lt_R0; pose proof (Rmult_lt_0_compat rx rx Hr Hr); lra).
  assert (X : 0 < base_power_3p / sk / sqrt (rx * rx + 1)) by (apply Rdiv_lt_0_compat; [apply Rdiv_lt_0_compat; [unfold base_power_3p; lra|exact Hs]|exact Q]).
  assert (A : 0 < re (source_y1 sk rx)).
  { unfold source_y1, source_z1, cinv, norm2, re, im. cbn [fst snd]. set (a := base_power_3p / sk / sqrt (rx * rx + 1)) in *.
    assert (P : 0 < a * rx) by (apply Rmult_lt_0_compat; assumption). apply Rdiv_lt_0_compat; [exact P|]. pose proof (Rmult_lt_0_compat _ _ P P). pose proof (Rmult_lt_0_compat _ _ X X). lra. }
  split; [exact A|]. unfold source_y0. rewrite re_scale. apply Rmult_lt_0_compat; [now apply Rinv_0_lt_compat|exact A].
Qed.
(** A fault with a resistance that is not negative does not generate. *)
Theorem C65_fault : forall u_rated r_f x_f, 0 <= r_f -> passive_fault (Through (fault_y u_rated r_f x_f)).
Proof.
  intros u r x H. unfold passive_fault, fault_y. rewrite re_scale. apply Rmult_le_pos; [|apply re_inv; exact H].
  apply Rmult_le_pos; [apply Rle_0_sqr|]. left. apply Rinv_0_lt_compat. unfold base_power_3p. lra.
Qed.
