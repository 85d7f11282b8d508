(** C64: only zero solves the equations without sources; so there is exactly one solution. *)
From Coq Require Import Reals Lra Field.
From Coq Require FinFun.
From Verif Require Import Common NatMap GroupedIdx Numbers ShortCircuit ShortCircuitFacts PowerFlow PowerFlowSpec PowerFlowFacts BalancedSpec BalancedFacts BalancedGrid YBus YBusSpec SquareSystem Units UnitsFacts Ratings RatingsFacts SolvableSpec SolvableFacts.
From Verif Require TwoPort TwoPortSpec.

(** ** The left hand sides of the prepared equations *)
Section Rows.
Context {C : Type} (o : num_ops C) (cj cabs : C -> C) (a : C) (P : pf_laws o cj cabs a).
Local Notation L := (pf_num o cj cabs a P).
Add Field NumFieldRow : (nl_field o (pf_num o cj cabs a P)).
Local Notation "a + b" := (n_add o a b) : num_scope. Local Notation "a * b" := (n_mul o a b) : num_scope. Local Notation "a - b" := (n_sub o a b) : num_scope. Local Notation "- a" := (n_opp o a) : num_scope.
Local Notation zero := (n_zero o).
Local Open Scope num_scope.
Variables (np n : nat).
Local Notation dot := (dot o np).
Definition row (m : nat -> nat -> tensor (C := C)) (x : nat -> vec) (b p : nat) : C := nsum o (map (fun j => dot (m b j) (x j) p) (seq 0 n)).
Lemma dot_zero y p : dot y (vzero o) p = zero.
Proof. unfold ShortCircuit.dot. apply (nsum_zero o L). intros q _. unfold vzero. ring. Qed.
Lemma row_zero m b p : row m (fun _ => vzero o) b p = zero.
Proof. unfold row. apply (nsum_zero o L). intros j _. apply dot_zero. Qed.
Lemma row_sub m x y b p : row m (fun b => vsub o (x b) (y b)) b p = row m x b p - row m y b p.
Proof.
  unfold row. rewrite <- (nsum_sub o L). apply nsum_ext. intros j _. unfold ShortCircuit.dot. rewrite <- (nsum_sub o L). apply nsum_ext. intros q _. unfold vsub. ring.
Qed.

(** ** As many equations as unknowns *)
Hypothesis eqdec : forall a b : C, {a = b} + {a <> b}.
Definition unknowns : list (nat * nat) := list_prod (seq 0 n) (seq 0 np).
Lemma in_unknowns b p : In (b, p) unknowns <-> b < n /\ p < np.
Proof. unfold unknowns. rewrite in_prod_iff, !in_seq. lia. Qed.
Lemma nodup_app {A} (l l' : list A) : NoDup l -> NoDup l' -> (forall x, In x l -> ~ In x l') -> NoDup (l ++ l').
Proof.
  induction 1 as [|z l Na Nl IH]; intros N H; cbn [app]; [exact N|]. constructor; [|apply IH; [exact N|intros; apply H; right; assumption]].
  intros Hi. apply in_app_or in Hi as [Hi|Hi]; [contradiction|]. exact (H z (or_introl eq_refl) Hi).
Qed.
Lemma unknowns_NoDup : NoDup unknowns.
Proof.
  unfold unknowns. generalize (seq_NoDup n 0). induction 1 as [|b l Nb Nl IH]; cbn [list_prod]; [constructor|]. apply nodup_app; [|exact IH|].
  - apply FinFun.Injective_map_NoDup; [intros x y; congruence|apply seq_NoDup].
  - intros [x y] H H'. apply in_map_iff in H as (z & E & _). injection E as <- <-. apply in_prod_iff in H'. tauto.
Qed.
Lemma row_unknowns m x b p : row m x b p = nsum o (map (fun jq : nat * nat => m b (fst jq) p (snd jq) * x (fst jq) (snd jq)) unknowns).
Proof.
  unfold row, unknowns. generalize (seq 0 n). induction l as [|j l IH]; cbn [list_prod]; [reflexivity|]. rewrite nsum_cons, IH, map_app, (nsum_app o L). f_equal.
  unfold ShortCircuit.dot. rewrite map_map. reflexivity.
Qed.
Lemma exactly_one (m : nat -> nat -> tensor) (r : nat -> vec) :
  (forall d, (forall b p, b < n -> p < np -> row m d b p = zero) -> forall b p, b < n -> p < np -> d b p = zero) ->
  exists x, (forall b p, b < n -> p < np -> row m x b p = r b p) /\
    forall x', (forall b p, b < n -> p < np -> row m x' b p = r b p) -> forall b p, b < n -> p < np -> x' b p = x b p.
Proof.
  intros K.
  assert (D : forall a c : nat * nat, {a = c} + {a <> c}) by (decide equality; apply Nat.eq_dec).
  destruct (solvable o L eqdec D unknowns (fun bp jq => m (fst bp) (fst jq) (snd bp) (snd jq)) (fun bp => r (fst bp) (snd bp)) unknowns_NoDup) as (x & Hx).
  { intros x H [b p] Hin. apply in_unknowns in Hin as [Hb Hp]. apply (K (fun b p => x (b, p))); auto. intros b' p' Hb' Hp'. rewrite row_unknowns. rewrite <- (H (b', p')) by (now apply in_unknowns).
    cbn [fst snd]. apply nsum_ext. intros [j q] _. reflexivity. }
  assert (Hs : forall b p, b < n -> p < np -> row m (fun b p => x (b, p)) b p = r b p).
  { intros b p Hb Hp. rewrite row_unknowns. transitivity (r (fst (b, p)) (snd (b, p))); [|reflexivity]. rewrite <- (Hx (b, p)) by (now apply in_unknowns). apply nsum_ext. intros [j q] _. reflexivity. }
  exists (fun b p => x (b, p)). split; [exact Hs|].
  intros x' H' b p Hb Hp. apply (eq_sub o cj cabs a P). apply (K (fun b => vsub o (x' b) (fun p => x (b, p)))); auto.
  intros b' p' Hb' Hp'. rewrite (row_sub m x' (fun b p => x (b, p))), H', Hs by auto. ring.
Qed.
End Rows.
Section Prepared.
Context {C : Type} (o : num_ops C) (cj cabs : C -> C) (a : C) (P : pf_laws o cj cabs a).
Local Notation L := (pf_num o cj cabs a P).
Add Field NumFieldPrep : (nl_field o (pf_num o cj cabs a P)).
Local Notation "a + b" := (n_add o a b) : num_scope. Local Notation "a * b" := (n_mul o a b) : num_scope. Local Notation "a - b" := (n_sub o a b) : num_scope. Local Notation "- a" := (n_opp o a) : num_scope.
Local Notation zero := (n_zero o).
Local Open Scope num_scope.
Variables (np n : nat) (ybus : nat -> nat -> tensor (C := C)) (sources_per_bus loads_per_bus : nat -> list nat) (y1 y0 u_source : nat -> C) (s_injection : nat -> vec (C := C)).
Local Notation dot := (dot o np).
Local Notation source_y := (source_y o np y1 y0).
Local Notation e := (prepare_linear o cj a np n ybus sources_per_bus loads_per_bus y1 y0 u_source s_injection).
Lemma linear_row x b p : b < n -> p < np -> row o np n (e_mat e) x b p =
  network_current o np n ybus x b p - nsum o (map (fun l => cj (s_injection l p) * x b p) (loads_per_bus b)) + nsum o (map (fun s => dot (source_y s) (x b) p) (sources_per_bus b)).
Proof.
  intros Hb Hp. pose proof (prepare_residual o cj cabs a P np n ybus sources_per_bus loads_per_bus y1 y0 u_source s_injection x b p Hb Hp) as H.
  pose proof (prepare_residual o cj cabs a P np n ybus sources_per_bus loads_per_bus y1 y0 u_source s_injection (fun _ => vzero o) b p Hb Hp) as H0.
  unfold residual in H, H0. fold (row o np n (e_mat e) x b p) in H. fold (row o np n (e_mat e) (fun _ => vzero o) b p) in H0. rewrite (row_zero o cj cabs a P) in H0.
  change (network_current o np n ybus (fun _ => vzero o) b p) with (row o np n ybus (fun _ => vzero o) b p) in H0. rewrite (row_zero o cj cabs a P) in H0.
  rewrite (nsum_zero o L (fun l => cj (s_injection l p) * vzero o p)) in H0 by (intros; unfold vzero; ring). rewrite !(nsum_sub o L) in H, H0.
  rewrite (nsum_zero o L (fun s => dot (source_y s) (vzero o) p)) in H0 by (intros; apply (dot_zero o cj cabs a P)).
  transitivity (row o np n (e_mat e) x b p - e_rhs e b p - (zero - e_rhs e b p)); [ring|]. rewrite H, H0. ring.
Qed.
End Prepared.

(** ** Active power *)
Local Open Scope R_scope.
Section Kernel.
Variable np : nat.
Context {Y S' : Type} (ten : Y -> nat -> nat -> C) (yadd : Y -> Y -> Y) (yzero : Y).
Hypothesis ten_add : forall a b p q, ten (yadd a b) p q = cadd (ten a p q) (ten b p q).
Hypothesis ten_0 : forall p q, ten yzero p q = (0, 0).
Variable t : math_topo.
Variable prm : @model_param Y S'.
Variable n : nat.
Hypothesis in_range : forall f b, In (f, b) (mt_branch t) -> (forall i, f = Some i -> (i < n)%nat) /\ (forall i, b = Some i -> (i < n)%nat).
Hypothesis shunt_range : forall b, In b (d_vec (mt_shunt t)) -> (b < n)%nat.
Variables (sources loads : nat -> list nat) (y1 y0 u_source : nat -> C) (s : nat -> nat -> C).
Notation dot := (dot cnum np).
Notation branches := (combine (mt_branch t) (p_branch prm)).
Notation shunts := (combine (d_vec (mt_shunt t)) (p_shunt prm)).
Notation source_y := (source_y cnum np y1 y0).
Hypothesis passive_branches : forall q, In q (p_branch prm) -> passive_branch cnum np ten q.
Hypothesis passive_shunts : forall g, In g (p_shunt prm) -> passive_admittance cnum np ten g.
Hypothesis consumers : forall b l p, In l (loads b) -> (p < np)%nat -> re (s l p) <= 0.
Hypothesis real_sources : forall b k, In k (sources b) -> resistive cnum np (fun m => m) (source_y k).
Hypothesis connected : forall b, (b < n)%nat -> supplied cnum np ten branches (fun b => sources b <> []) b.

Lemma self_power y (v : nat -> C) : power np v (fun p => cmul (conj (y p)) (v p)) = rsum (map (fun p => re (y p) * norm2 (v p)) (seq 0 np)).
Proof. rewrite power_sum. apply nsum_ext. intros p _. generalize (v p), (y p). intros x z. unfold cmul, conj, norm2, re, im. cbn [fst snd]. ring. Qed.
Lemma norm2_nonneg z : 0 <= norm2 z. Proof. unfold norm2. pose proof (Rle_0_sqr (re z)). pose proof (Rle_0_sqr (im z)). unfold Rsqr in *. lra. Qed.
Variable d : nat -> nat -> C.
Hypothesis still : forall b p, (b < n)%nat -> (p < np)%nat ->
  n_add cnum (n_sub cnum (network_current cnum np n (ybus ten yadd yzero t prm) d b p) (nsum cnum (map (fun l => n_mul cnum (conj (s l p)) (d b p)) (loads b))))
    (nsum cnum (map (fun k => dot (source_y k) (d b) p) (sources b))) = (0, 0).
Definition zero_at (b : nat) : Prop := forall p, (p < np)%nat -> d b p = (0, 0).
Lemma not_resistive {Z} (tn : Z -> nat -> nat -> C) (y : Z) (v : nat -> C) : resistive cnum np tn y -> power np v (dot (tn y) v) <= 0 -> forall p, (p < np)%nat -> v p = (0, 0).
Proof. intros H Hv p Hp. destruct (c_dec (v p) (0, 0)) as [E|E]; [exact E|]. pose proof (H v (ex_intro _ p (Logic.conj Hp E))). lra. Qed.
Lemma resistive_nn {Z} (tn : Z -> nat -> nat -> C) (y : Z) v : resistive cnum np tn y -> 0 <= power np v (dot (tn y) v).
Proof. intros H. destruct (Rle_or_lt 0 (power np v (dot (tn y) v))) as [K|K]; [exact K|]. exfalso.
  assert (Z0 : forall p, (p < np)%nat -> v p = (0, 0)) by (apply (not_resistive tn y v H); lra). rewrite (power_ext_u np v (fun _ => (0, 0))) in K by exact Z0.
  rewrite power_sum, (nsum_zero rnum rnum_laws) in K; [cbn in K; lra|]. intros p _. unfold cmul, re, im. cbn. ring.
Qed.
Definition bus_power (b : nat) : R := power np (d b) (network_current cnum np n (ybus ten yadd yzero t prm) d b).
Definition load_power (b : nat) : R := rsum (map (fun l => - rsum (map (fun p => re (s l p) * norm2 (d b p)) (seq 0 np))) (loads b)).
Definition source_power (b : nat) : R := rsum (map (fun k => power np (d b) (dot (source_y k) (d b))) (sources b)).
Lemma balance b : (b < n)%nat -> bus_power b + load_power b + source_power b = 0.
Proof.
  intros Hb. unfold bus_power, load_power, source_power. rewrite <- (power_nsum np (d b) (fun k => dot (source_y k) (d b))).
  assert (E : rsum (map (fun l => - rsum (map (fun p => re (s l p) * norm2 (d b p)) (seq 0 np))) (loads b)) = power np (d b) (fun p => n_opp cnum (nsum cnum (map (fun l => n_mul cnum (conj (s l p)) (d b p)) (loads b))))).
  { transitivity (- power np (d b) (fun p => nsum cnum (map (fun l => n_mul cnum (conj (s l p)) (d b p)) (loads b)))).
    - rewrite (power_nsum np (d b) (fun l p => n_mul cnum (conj (s l p)) (d b p))). rewrite (nsum_ext rnum _ (fun l => -1 * power np (d b) (fun p => n_mul cnum (conj (s l p)) (d b p)))).
      + change Rmult with (n_mul rnum). rewrite (nsum_scale rnum rnum_laws). cbn [rnum n_mul]. ring.
      + intros l _. rewrite <- (self_power (s l) (d b)). cbn [cnum num_of n_mul TwoPort.c_mul complex_ops]. ring.
    - rewrite !power_sum. rewrite (nsum_ext rnum (fun p => re (cmul (d b p) (conj (n_opp cnum (nsum cnum (map (fun l => n_mul cnum (conj (s l p)) (d b p)) (loads b))))))) 
         (fun p => -1 * re (cmul (d b p) (conj (nsum cnum (map (fun l => n_mul cnum (conj (s l p)) (d b p)) (loads b))))))).
      + change Rmult with (n_mul rnum). rewrite (nsum_scale rnum rnum_laws). cbn [rnum n_mul]. ring.
      + intros p _. generalize (nsum cnum (map (fun l => n_mul cnum (conj (s l p)) (d b p)) (loads b))), (d b p). intros w v. cbn [cnum num_of n_opp TwoPort.c_neg complex_ops]. unfold cmul, cneg, conj, re, im. cbn [fst snd]. ring. }
  rewrite E, <- !power_add. rewrite (power_ext np _ _ (fun _ => (0, 0))); [apply power_0|]. intros p Hp. rewrite <- (still b p Hb Hp). unfold vadd.
  generalize (nsum cnum (map (fun l => n_mul cnum (conj (s l p)) (d b p)) (loads b))), (network_current cnum np n (ybus ten yadd yzero t prm) d b p), (nsum cnum (map (fun k => dot (source_y k) (d b) p) (sources b))).
  intros x y z. cbn [cnum num_of n_add n_sub n_opp TwoPort.c_neg TwoPort.c_add TwoPort.c_sub complex_ops]. creal; ring.
Qed.
Lemma load_nn b : 0 <= load_power b.
Proof.
  apply rsum_nn. intros l Hl. assert (H : 0 <= rsum (map (fun p => - re (s l p) * norm2 (d b p)) (seq 0 np))).
  { apply rsum_nn. intros p Hp. apply in_seq in Hp. pose proof (consumers b l p Hl ltac:(lia)). pose proof (norm2_nonneg (d b p)). apply Rmult_le_pos; lra. }
  rewrite (nsum_ext rnum _ (fun p => -1 * (re (s l p) * norm2 (d b p)))) in H by (intros; cbn [rnum n_mul]; ring). change Rmult with (n_mul rnum) in H at 1. rewrite (nsum_scale rnum rnum_laws) in H. cbn [rnum n_mul] in H. lra.
Qed.
Lemma source_nn b : 0 <= source_power b.
Proof. apply rsum_nn. intros k Hk. apply (resistive_nn (fun m => m)). eapply real_sources; eauto. Qed.
Lemma total_power : rsum (map bus_power (seq 0 n)) + rsum (map load_power (seq 0 n)) + rsum (map source_power (seq 0 n)) = 0.
Proof. rewrite <- !rsum_plus. apply (nsum_zero rnum rnum_laws). intros b Hb. apply in_seq in Hb. apply balance. lia. Qed.
Lemma no_losses : (forall x, In x branches -> takes cnum np ten (snd x) (at_end d (fst (fst x))) (at_end d (snd (fst x))) = 0) /\ (forall b, (b < n)%nat -> source_power b = 0).
Proof.
  pose proof total_power as T. pose proof (energy np ten yadd yzero ten_add ten_0 t prm n in_range shunt_range d) as En.
  change (rsum (map bus_power (seq 0 n)) = rsum (map (fun x => takes cnum np ten (snd x) (at_end d (fst (fst x))) (at_end d (snd (fst x)))) branches) +
    rsum (map (fun x => power np (d (fst x)) (dot (ten (snd x)) (d (fst x)))) shunts)) in En. rewrite En in T.
  assert (B : forall x, In x branches -> 0 <= takes cnum np ten (snd x) (at_end d (fst (fst x))) (at_end d (snd (fst x)))).
  { intros [x q] Hin. apply passive_branches. now apply in_combine_r in Hin. }
  assert (S : 0 <= rsum (map (fun x => power np (d (fst x)) (dot (ten (snd x)) (d (fst x)))) shunts)).
  { apply rsum_nn. intros [b g] Hin. apply passive_shunts. now apply in_combine_r in Hin. }
  assert (Ld : 0 <= rsum (map load_power (seq 0 n))) by (apply rsum_nn; intros; apply load_nn).
  assert (Sr : 0 <= rsum (map source_power (seq 0 n))) by (apply rsum_nn; intros; apply source_nn).
  pose proof (rsum_nn _ _ B) as Bn. split.
  - apply rsum_0; [exact B|lra].
  - intros b Hb. apply (rsum_0 source_power (seq 0 n)); [intros; apply source_nn|lra|apply in_seq; lia].
Qed.
Lemma far_end y (w : nat -> C) x : (forall p, (p < np)%nat -> w p = (0, 0)) -> power np x (dot y w) = 0.
Proof. intros H. rewrite (power_ext np _ _ (fun _ => (0, 0))); [apply power_0|]. intros p _. now apply dot_0. Qed.
Lemma near_end (w : nat -> C) i : (forall p, (p < np)%nat -> w p = (0, 0)) -> power np w i = 0.
Proof. intros H. rewrite (power_ext_u np w (fun _ => (0, 0))) by exact H. rewrite power_sum. apply (nsum_zero rnum rnum_laws). intros p _. unfold cmul, re, im. cbn. ring. Qed.
Lemma all_zero b : (b < n)%nat -> zero_at b.
Proof.
  intros Hb. destruct no_losses as [NB NS]. specialize (connected b Hb).
  assert (G : forall b, supplied cnum np ten branches (fun b => sources b <> []) b -> (b < n)%nat -> zero_at b).
  { clear b Hb connected. intros b H. induction H as [b Hs|i j q Hin _ IH Hr|i j q Hin _ IH Hr]; intros Hb.
    - destruct (sources b) as [|k l] eqn:E; [congruence|]. intros p0 Hp0; refine (not_resistive (fun m => m) (source_y k) (d b) _ _ p0 Hp0); [apply (real_sources b); rewrite E; left; reflexivity|].
      assert (Z : power np (d b) (dot (source_y k) (d b)) = 0); [|lra].
      apply (rsum_0 (fun k => power np (d b) (dot (source_y k) (d b))) (sources b)); [intros k' Hk'; apply (resistive_nn (fun m => m)); eapply real_sources; eauto|pose proof (NS b Hb) as Q; unfold source_power in Q; lra|rewrite E; left; reflexivity].
    - pose proof (NB _ Hin) as T. cbn [fst snd at_end] in T. unfold takes in T. rewrite !power_add in T.
      assert (Hi : (i < n)%nat) by (apply in_combine_l in Hin; apply (proj1 (in_range _ _ Hin)); reflexivity). specialize (IH Hi).
      rewrite !(near_end (d i)), !(far_end _ (d i)) in T by exact IH. intros p0 Hp0; refine (not_resistive ten (ytt q) (d j) _ _ p0 Hp0); [exact Hr|lra].
    - pose proof (NB _ Hin) as T. cbn [fst snd at_end] in T. unfold takes in T. rewrite !power_add in T.
      assert (Hj : (j < n)%nat) by (apply in_combine_l in Hin; apply (proj2 (in_range _ _ Hin)); reflexivity). specialize (IH Hj).
      rewrite !(near_end (d j)), !(far_end _ (d j)) in T by exact IH. intros p0 Hp0; refine (not_resistive ten (yff q) (d i) _ _ p0 Hp0); [exact Hr|lra]. }
  auto.
Qed.
End Kernel.
