(** The observability check of a radial grid with at most one measured angle: it accepts exactly the observable grids. *)
From Coq Require Import Relations ZArith.
From Verif Require Import Common Observability ObservabilitySpec ObservabilityFacts ObservabilityCount.

Section Radial.
Variables (n n_branch : nat) (branch_bus : nat -> bool -> option nat) (flow injection phasor : nat -> bool).
Hypothesis OK : grid_ok n branch_bus.
Hypothesis RAD : ObservabilitySpec.radial n n_branch branch_bus.
Local Notation joins := (ObservabilitySpec.joins n_branch branch_bus).
Local Notation determines := (ObservabilitySpec.determines n n_branch branch_bus flow injection).
Local Notation linked := (ObservabilitySpec.linked n_branch branch_bus).
Local Notation entry := (Observability.entry n_branch branch_bus).
Local Notation upper := (Observability.upper n n_branch branch_bus).
Local Notation flow_sensors := (Observability.flow_sensors n_branch branch_bus flow injection).
Local Notation sum_flow := (Observability.sum_flow n n_branch branch_bus).
Local Notation assign_bus := (Observability.assign_bus n n_branch branch_bus).
Definition up (b : nat) : nat := hd n (upper b).

Lemma upper_one b : S b < n -> upper b = [up b].
Proof.
  intros Hb. destruct (RAD b Hb) as (u & Hu & (k & J) & Q). assert (All : forall c, In c (upper b) -> c = u) by (intros c I; apply (in_upper n n_branch branch_bus) in I; destruct I as [L (k' & J')]; exact (Q c k' (proj1 L) J')).
  assert (I : In u (upper b)). { apply (in_upper n n_branch branch_bus). split; [|exists k; exact J]. destruct (joins_lt n n_branch branch_bus OK _ _ _ J) as (_ & L & _). lia. }
  assert (N : NoDup (upper b)) by (apply NoDup_filter, seq_NoDup). unfold up. destruct (upper b) as [|x [|y r]]; [destruct I|reflexivity|].
  exfalso. inversion N as [|? ? Nx _]; subst. apply Nx. rewrite (All x) by (left; reflexivity). rewrite (All y) by (right; left; reflexivity). left. reflexivity.
Qed.
Lemma up_spec b : S b < n -> b < up b < n /\ exists k, joins k b (up b).
Proof. intros Hb. apply (in_upper n n_branch branch_bus). rewrite (upper_one b Hb). left. reflexivity. Qed.
Lemma up_only b c k : S b < n -> b < c -> joins k b c -> c = up b.
Proof. intros Hb L J. destruct (RAD b Hb) as (u & Hu & (k' & J') & Q). rewrite (Q c k L J). symmetry. destruct (up_spec b Hb) as [H (k'' & J'')]. apply (Q _ k''); [lia|exact J'']. Qed.
Lemma joins_up k a b : joins k a b -> a < b -> b = up a /\ S a < n.
Proof. intros J L. destruct (joins_lt n n_branch branch_bus OK _ _ _ J) as (Ha & Hb & _). split; [|lia]. apply up_only with k; [lia|exact L|exact J]. Qed.
Lemma joins_ends k a b c d : joins k a b -> joins k c d -> (a = c /\ b = d) \/ (a = d /\ b = c).
Proof. intros [_ [[A B]|[A B]]] [_ [[C D]|[C D]]]; rewrite C in A; rewrite D in B; injection A as <-; injection B as <-; auto. Qed.
Lemma same_up k b c : S b < n -> S c < n -> joins k b (up b) -> joins k c (up c) -> b = c.
Proof. intros Hb Hc J J'. destruct (up_spec b Hb) as [L _]. destruct (up_spec c Hc) as [L' _]. destruct (joins_ends _ _ _ _ _ J J') as [[A _]|[A B]]; lia. Qed.
Lemma flow_entry b : S b < n -> flow_sensors b (up b) = true <-> exists k, joins k b (up b) /\ flow k = true.
Proof.
  intros Hb. destruct (up_spec b Hb) as [L _]. unfold Observability.flow_sensors. destruct (Nat.eqb_spec b (up b)); [lia|]. rewrite existsb_exists. split; intros (k & A & B); exists k; (split; [|exact B]); apply (in_entry n_branch branch_bus); exact A.
Qed.
Definition state (m : nat) := fold_left assign_bus (seq 0 m) (flow_sensors, phasor).
Lemma state_S m : state (S m) = assign_bus (state m) m. Proof. unfold state. rewrite seq_S, fold_left_app. reflexivity. Qed.
Lemma set2_at fs b c x : set2 fs b c x b c = x. Proof. unfold set2. rewrite !Nat.eqb_refl. reflexivity. Qed.
Lemma set2_other fs b c x i j : i <> b \/ j <> c -> set2 fs b c x i j = fs i j.
Proof. intros H. unfold set2. destruct (Nat.eqb_spec i b), (Nat.eqb_spec j c); try reflexivity. lia. Qed.

(** ** The sum at the end *)
Lemma all_ones f m : (forall b, b < m -> f b <= 1) -> m <= list_sum (map f (seq 0 m)) -> forall b, b < m -> f b = 1.
Proof.
  intros B. assert (T : list_sum (map f (seq 0 m)) <= m /\ (m <= list_sum (map f (seq 0 m)) -> forall b, b < m -> f b = 1)); [|apply T].
  induction m as [|m IH]; [split; [cbn; lia|intros _ b Hb; lia]|]. destruct IH as [U IH]; [intros b Hb; apply B; lia|]. rewrite seq_S, map_app, list_sum_app. cbn [map list_sum fold_right plus]. pose proof (B m ltac:(lia)) as Bm.
  split; [lia|]. intros G b Hb. destruct (Nat.eq_dec b m) as [->|D]; [lia|]. apply IH; lia.
Qed.
Lemma sum_ones f m : (forall b, b < m -> f b = 1) -> list_sum (map f (seq 0 m)) = m.
Proof. intros B. induction m as [|m IH]; [reflexivity|]. rewrite seq_S, map_app, list_sum_app, IH by (intros b Hb; apply B; lia). cbn. rewrite (B m) by lia. lia. Qed.
Lemma last_upper : upper (n - 1) = [].
Proof. pose proof (ok_some _ _ OK). destruct (upper (n - 1)) as [|c r] eqn:E; [reflexivity|]. assert (I : In c (upper (n - 1))) by (rewrite E; left; reflexivity). apply (in_upper n n_branch branch_bus) in I. lia. Qed.
Lemma sum_final fs : (forall b, S b < n -> fs b b = false) -> sum_flow (set2 fs (n - 1) (n - 1) false) = list_sum (map (fun b => if fs b (up b) then 1 else 0) (seq 0 (n - 1))).
Proof.
  intros E. pose proof (ok_some _ _ OK) as P. unfold Observability.sum_flow. assert (Q : seq 0 n = seq 0 (n - 1) ++ [n - 1]) by (change [n - 1] with [0 + (n - 1)]; rewrite <- seq_S; f_equal; lia). rewrite Q.
  rewrite map_app, list_sum_app. cbn [map list_sum fold_right]. rewrite last_upper, count_cons, set2_at. change (count (set2 fs (n - 1) (n - 1) false (n - 1)) []) with 0. rewrite !Nat.add_0_r.
  f_equal. apply map_ext_in. intros b I. apply in_seq in I. rewrite upper_one by lia. rewrite !count_cons, !set2_other by lia. rewrite (E b) by lia. destruct (fs b (up b)); reflexivity.
Qed.

(** ** Sound *)
Record covers (m : nat) (fs : nat -> nat -> bool) (l : list (nat * sensor)) : Prop := {
  c_det : forall k s, In (k, s) l -> determines k s;
  c_nodup : NoDup (map snd l);
  c_before : forall b, b < m -> fs b (up b) = true -> exists k s, In (k, s) l /\ joins k b (up b);
  c_after : forall b, m <= b -> S b < n -> fs b (up b) = flow_sensors b (up b);
  c_diag : forall x, x < n -> fs x x = true -> injection x = true /\ ~ In (injection_at x) (map snd l);
  c_cleared : forall b, b < m -> fs b b = false;
  c_flow : forall k, In (flow_on k) (map snd l) -> exists b, b < m /\ joins k b (up b) }.
Lemma covers_add m fs fs' l k s : S m < n -> covers m fs l -> joins k m (up m) -> determines k s -> ~ In s (map snd l) ->
  (forall b, b <> m -> fs' b (up b) = fs b (up b)) -> (forall x, fs' x x = true -> x <> m /\ fs x x = true /\ s <> injection_at x) -> (forall k', s = flow_on k' -> k' = k) -> covers (S m) fs' ((k, s) :: l).
Proof.
  intros Hm C J D Ns E X F. constructor.
  - intros k' s' [H|H]; [injection H as <- <-; exact D|exact (c_det _ _ _ C _ _ H)].
  - cbn. constructor; [exact Ns|exact (c_nodup _ _ _ C)].
  - intros b Hb T. destruct (Nat.eq_dec b m) as [->|N]; [exists k, s; split; [left; reflexivity|exact J]|]. rewrite (E b N) in T. destruct (c_before _ _ _ C b ltac:(lia) T) as (k' & s' & I & J'). exists k', s'. split; [right; exact I|exact J'].
  - intros b Hb Hn. rewrite (E b) by lia. apply (c_after _ _ _ C); lia.
  - intros x Hx T. destruct (X x T) as (N & T' & S'). destruct (c_diag _ _ _ C x Hx T') as [A B]. split; [exact A|]. cbn. intros [G|G]; [exact (S' G)|exact (B G)].
  - intros b Hb. destruct (fs' b b) eqn:T; [|reflexivity]. destruct (X b T) as (N & T' & _). rewrite (c_cleared _ _ _ C b) in T' by lia. discriminate.
  - intros k' [G|G]; [exists m; split; [lia|]; cbn in G; rewrite (F k' G); exact J|]. destruct (c_flow _ _ _ C k' G) as (b & Hb & J'). exists b. split; [lia|exact J'].
Qed.
Lemma covers_keep m fs fs' l : S m < n -> covers m fs l -> fs' m (up m) = false -> (forall b, b <> m -> fs' b (up b) = fs b (up b)) -> (forall x, fs' x x = true -> x <> m /\ fs x x = true) -> covers (S m) fs' l.
Proof.
  intros Hm C Z E X. constructor.
  - exact (c_det _ _ _ C).
  - exact (c_nodup _ _ _ C).
  - intros b Hb T. destruct (Nat.eq_dec b m) as [->|N]; [congruence|]. rewrite (E b N) in T. apply (c_before _ _ _ C b); [lia|exact T].
  - intros b Hb Hn. rewrite (E b) by lia. apply (c_after _ _ _ C); lia.
  - intros x Hx T. destruct (X x T) as (N & T'). exact (c_diag _ _ _ C x Hx T').
  - intros b Hb. destruct (fs' b b) eqn:T; [|reflexivity]. destruct (X b T) as (N & T'). rewrite (c_cleared _ _ _ C b) in T' by lia. discriminate.
  - intros k' G. destruct (c_flow _ _ _ C k' G) as (b & Hb & J'). exists b. split; [lia|exact J'].
Qed.
Lemma sum_phasor_less vs b : b < n -> vs b = true -> sum_phasor n (set1 vs b false) < sum_phasor n vs.
Proof.
  intros Hb T. unfold sum_phasor, count. assert (I : In b (seq 0 n)) by (apply in_seq; lia). apply in_split in I. destruct I as (l1 & l2 & E). pose proof (seq_NoDup n 0) as N. rewrite E in N.
  apply NoDup_remove_2 in N. rewrite E, !filter_app, !app_length. cbn [filter]. unfold set1 at 2. rewrite Nat.eqb_refl, T. cbn [length].
  assert (X : forall l, ~ In b l -> filter (set1 vs b false) l = filter vs l).
  { intros l H. apply filter_ext_in. intros a Ha. unfold set1. destruct (Nat.eqb_spec a b); [subst; contradiction|reflexivity]. }
  rewrite !X by (intros H; apply N, in_or_app; auto). lia.
Qed.
Lemma sum_phasor_ext vs vs' : (forall b, vs b = vs' b) -> sum_phasor n vs = sum_phasor n vs'. Proof. intros E. unfold sum_phasor, count. rewrite (filter_ext _ _ E). reflexivity. Qed.
Definition sound_state (m : nat) (s : (nat -> nat -> bool) * (nat -> bool)) : Prop :=
  ((forall b, snd s b = phasor b) /\ exists l, covers m (fst s) l) \/ (sum_phasor n (snd s) < sum_phasor n phasor /\ forall b, b < m -> fst s b b = false).
Lemma less_step m fs vs : S m < n -> (forall b, b < m -> fs b b = false) -> let s := assign_bus (fs, vs) m in sum_phasor n (snd s) <= sum_phasor n vs /\ forall b, b < S m -> fst s b b = false.
Proof.
  intros Hm C. destruct (up_spec m Hm) as [L _]. unfold Observability.assign_bus. fold (up m).
  assert (D : forall fs', (forall b, b < m -> fs' b b = false) -> forall b, b < S m -> set2 fs' m m false b b = false).
  { intros fs' H b Hb. destruct (Nat.eq_dec b m) as [->|N]; [apply set2_at|]. rewrite set2_other by lia. apply H. lia. }
  destruct (fs m (up m)); [cbn; split; [lia|apply D, C]|]. cbn [negb]. destruct (fs m m); [cbn; split; [lia|]; apply D; intros b Hb; rewrite !set2_other by lia; apply C, Hb|].
  destruct (fs (up m) (up m)); [cbn; split; [lia|]; apply D; intros b Hb; rewrite !set2_other by lia; apply C, Hb|].
  destruct (vs m) eqn:V; [cbn; split; [apply Nat.lt_le_incl, sum_phasor_less; [lia|exact V]|]; apply D; intros b Hb; rewrite set2_other by lia; apply C, Hb|].
  destruct (vs (S m)) eqn:V'; [cbn; split; [apply Nat.lt_le_incl, sum_phasor_less; [lia|exact V']|]; apply D; intros b Hb; rewrite set2_other by lia; apply C, Hb|].
  cbn. split; [lia|apply D, C].
Qed.
Lemma sound_step m s : S m < n -> sound_state m s -> sound_state (S m) (assign_bus s m).
Proof.
  intros Hm H. destruct s as [fs vs]. destruct (up_spec m Hm) as [L (k0 & J0)]. destruct H as [[P (l & C)]|[P C]]; cbn [fst snd] in *.
  2: { right. destruct (less_step m fs vs Hm C) as [A B]. split; [lia|exact B]. }
  destruct (less_step m fs vs Hm (c_cleared _ _ _ C)) as [_ CL].
  unfold sound_state. unfold Observability.assign_bus in *. fold (up m) in *. destruct (fs m (up m)) eqn:F; cbn [negb] in *.
  - left. cbn [fst snd]. split; [exact P|]. rewrite (c_after _ _ _ C m (le_n m) Hm) in F. apply (flow_entry m Hm) in F. destruct F as (k & J & F). exists ((k, flow_on k) :: l).
    apply covers_add with fs; try assumption.
    + cbn. auto.
    + intros I. destruct (c_flow _ _ _ C k I) as (b & Hb & J'). assert (b = m) by (apply (same_up k b m); [lia|exact Hm|exact J'|exact J]). lia.
    + intros b N. rewrite set2_other; [reflexivity|]. left. exact N.
    + intros x T. destruct (Nat.eq_dec x m) as [->|N]; [rewrite set2_at in T; discriminate|]. rewrite set2_other in T by lia. repeat split; [exact N|exact T|discriminate].
    + intros k' E. congruence.
  - destruct (fs m m) eqn:F1; [|destruct (fs (up m) (up m)) eqn:F2].
    + left. cbn [fst snd]. split; [exact P|]. destruct (c_diag _ _ _ C m ltac:(lia) F1) as [I N]. exists ((k0, injection_at m) :: l). apply covers_add with fs; try assumption.
      * cbn. split; [lia|]. split; [exact I|]. exists (up m). exact J0.
      * intros b Nb. rewrite !set2_other; [reflexivity|left; exact Nb..].
      * intros x T. destruct (Nat.eq_dec x m) as [->|Nx]; [rewrite set2_at in T; discriminate|]. rewrite !set2_other in T by lia. repeat split; [exact Nx|exact T|congruence].
      * discriminate.
    + left. cbn [fst snd]. split; [exact P|]. destruct (c_diag _ _ _ C (up m) ltac:(lia) F2) as [I N]. exists ((k0, injection_at (up m)) :: l). apply covers_add with fs; try assumption.
      * cbn. split; [lia|]. split; [exact I|]. exists m. apply joins_sym, J0.
      * intros b Nb. assert (D : S b < n \/ ~ S b < n) by lia. destruct D as [D|D].
        -- destruct (up_spec b D). rewrite !set2_other; [reflexivity|lia..].
        -- rewrite !set2_other; [reflexivity|left; exact Nb| |left; exact Nb]. destruct (Nat.eq_dec b (up m)) as [->|]; [|left; assumption]. right. intros E.
           assert (Q : upper (up m) = []) by (destruct (upper (up m)) as [|c r] eqn:U; [reflexivity|]; assert (Ic : In c (upper (up m))) by (rewrite U; left; reflexivity); apply (in_upper n n_branch branch_bus) in Ic; lia).
           unfold up at 1 in E. rewrite Q in E. cbn in E. lia.
      * intros x T. destruct (Nat.eq_dec x m) as [->|Nx]; [rewrite set2_at in T; discriminate|]. rewrite set2_other in T by lia. destruct (Nat.eq_dec x (up m)) as [->|Nu]; [rewrite set2_at in T; discriminate|].
        rewrite !set2_other in T by lia. repeat split; [exact Nx|exact T|congruence].
      * discriminate.
    + destruct (vs m) eqn:V; [|destruct (vs (S m)) eqn:V'].
      * right. cbn [fst snd] in *. split; [|exact CL]. rewrite <- (sum_phasor_ext _ _ P). apply sum_phasor_less; [lia|exact V].
      * right. cbn [fst snd] in *. split; [|exact CL]. rewrite <- (sum_phasor_ext _ _ P). apply sum_phasor_less; [lia|exact V'].
      * left. cbn [fst snd]. split; [exact P|]. exists l. apply covers_keep with fs; try assumption.
        -- rewrite set2_other by lia. exact F.
        -- intros b Nb. rewrite set2_other; [reflexivity|left; exact Nb].
        -- intros x T. destruct (Nat.eq_dec x m) as [->|Nx]; [rewrite set2_at in T; discriminate|]. rewrite set2_other in T by lia. split; [exact Nx|exact T].
Qed.
Lemma sound_all m : m < n -> sound_state m (state m).
Proof.
  induction m as [|m IH]; intros Hm.
  - left. split; [reflexivity|]. exists []. constructor; try (intros; contradiction); try (intros; lia).
    + constructor.
    + reflexivity.
    + intros x Hx T. cbn in T. unfold Observability.flow_sensors in T. rewrite Nat.eqb_refl in T. split; [exact T|intros []].
  - rewrite state_S. apply sound_step; [exact Hm|]. apply IH. lia.
Qed.
Lemma radial_sound : sum_phasor n phasor <= 1 -> radial_ok n n_branch branch_bus flow injection phasor = true -> observable n n_branch branch_bus flow injection phasor.
Proof.
  intros P H. pose proof (ok_some _ _ OK) as Hn. unfold radial_ok, assign_all in H. fold (state (n - 1)) in H. pose proof (sound_all (n - 1) ltac:(lia)) as S0. destruct (state (n - 1)) as [fs vs]. cbn [fst snd] in S0.
  apply negb_true_iff, orb_false_iff in H. destruct H as [H1 H2]. unfold sound_state in S0. cbn [fst snd] in S0. destruct S0 as [[V (l & C)]|[V _]].
  2: { apply andb_false_iff in H2. destruct H2 as [H2|H2]; [apply negb_false_iff, Nat.eqb_eq in H2; lia|apply Nat.ltb_ge in H2; lia]. }
  rewrite sum_final in H1 by (intros b Hb; apply (c_cleared _ _ _ C); lia). apply Nat.ltb_ge in H1.
  assert (A : forall b, S b < n -> exists k s, In (k, s) l /\ joins k b (up b)).
  { intros b Hb. apply (c_before _ _ _ C); [lia|]. pose proof (all_ones (fun b => if fs b (up b) then 1 else 0) (n - 1)) as O. specialize (O ltac:(intros x _; cbv beta; destruct (fs x (up x)); lia) ltac:(lia) b ltac:(lia)). cbv beta in O. destruct (fs b (up b)); [reflexivity|discriminate]. }
  apply (linked_observable n n_branch branch_bus flow injection phasor l (c_det _ _ _ C) (c_nodup _ _ _ C)).
  assert (R : forall d b, n - 1 - b <= d -> b < n -> linked l b (n - 1)).
  { induction d as [|d IH]; intros b Hd Hb; [replace b with (n - 1) by lia; apply rst_refl|]. destruct (Nat.eq_dec b (n - 1)) as [->|N]; [apply rst_refl|]. destruct (A b ltac:(lia)) as (k & s & I & J). destruct (up_spec b ltac:(lia)) as [U _].
    eapply linked_trans; [eapply linked_step; [exact I|exact J]|apply IH; lia]. }
  intros a b Ha Hb. eapply linked_trans; [apply (R (n - 1 - a)); lia|apply linked_sym; apply (R (n - 1 - b)); lia].
Qed.

(** ** Complete *)
Section Complete.
Variable l : list (nat * sensor).
Hypothesis DET : forall k s, In (k, s) l -> determines k s.
Hypothesis ND : NoDup (map snd l).
Hypothesis ALL : forall a b, a < n -> b < n -> linked l a b.
(** whether the way up from a bus passes [b] *)
Fixpoint below (d b x : nat) : bool := (x =? b) || match d with 0 => false | S d => if S x <? n then below d b (up x) else false end.
Lemma below_le d : forall b x, S b < n -> below d b x = true -> x <= b.
Proof.
  induction d as [|d IH]; intros b x Hb H; cbn [below] in H; apply orb_true_iff in H; destruct H as [H|H]; try (apply Nat.eqb_eq in H; lia); [discriminate|].
  destruct (Nat.ltb_spec (S x) n) as [L|]; [|discriminate]. destruct (up_spec x L) as [U _]. specialize (IH b (up x) Hb H). lia.
Qed.
Lemma below_more d b x : below d b x = true -> below (S d) b x = true.
Proof.
  revert x. induction d as [|d IH]; intros x H; cbn [below] in H; apply orb_true_iff in H; destruct H as [H|H].
  - cbn. rewrite H. reflexivity.
  - discriminate.
  - cbn. rewrite H. reflexivity.
  - change (below (S (S d)) b x) with ((x =? b) || if S x <? n then below (S d) b (up x) else false). apply orb_true_iff. right. destruct (S x <? n); [apply IH, H|discriminate].
Qed.
Lemma below_enough d b x : n <= x + d -> x < n -> S b < n -> below (S d) b x = true -> below d b x = true.
Proof.
  revert x. induction d as [|d IH]; intros x H Hx Hb T; [lia|]. cbn [below] in T |- *. apply orb_true_iff in T. apply orb_true_iff. destruct T as [T|T]; [left; exact T|right]. destruct (Nat.ltb_spec (S x) n) as [L|]; [|discriminate].
  destruct (up_spec x L) as [U _]. apply IH; [lia|lia|exact Hb|exact T].
Qed.
Lemma crossed b : S b < n -> exists k s, In (k, s) l /\ joins k b (up b).
Proof.
  intros Hb. pose proof (ALL b (n - 1) ltac:(lia) ltac:(lia)) as P. apply (crossing _ (below n b)) in P.
  - destruct P as (x & y & J & Bx & By).
    assert (E : exists k s, In (k, s) l /\ joins k x y) by (destruct J as [(k & s & I & J)|(k & s & I & J)]; exists k, s; (split; [exact I|]); [exact J|apply joins_sym, J]). destruct E as (k & s & I & J').
    exists k, s. split; [exact I|]. destruct (joins_lt n n_branch branch_bus OK _ _ _ J') as (Hx & Hy & D). destruct (Nat.lt_total x y) as [L|[E|L]]; [|contradiction|].
    + destruct (joins_up _ _ _ J' L) as [E Sx]. subst y. destruct (Nat.eq_dec x b) as [->|N]; [exact J'|]. exfalso.
      assert (T : below (n - 1) b (up x) = true). { replace n with (S (n - 1)) in Bx at 1 by lia. cbn [below] in Bx. apply orb_true_iff in Bx. destruct Bx as [Bx|Bx]; [apply Nat.eqb_eq in Bx; contradiction|]. destruct (S x <? n); [exact Bx|discriminate]. }
      apply below_more in T. replace (S (n - 1)) with n in T by lia. congruence.
    + exfalso. destruct (joins_up _ _ _ (joins_sym _ _ _ _ _ J') L) as [E Sy]. subst x. assert (T : below (S n) b y = true). { cbn [below]. apply orb_true_iff. right. destruct (Nat.ltb_spec (S y) n); [exact Bx|lia]. }
      apply below_enough in T; [congruence|lia|lia|exact Hb].
  - pose proof (ok_some _ _ OK). destruct n; [lia|]. cbn. rewrite Nat.eqb_refl. reflexivity.
  - destruct (below n b (n - 1)) eqn:E; [|reflexivity]. apply below_le in E; [lia|exact Hb].
Qed.
Definition chosen (b : nat) : nat * sensor := match find (fun e => between branch_bus b (up b) (fst e) && (fst e <? n_branch)) l with Some e => e | None => (0, flow_on 0) end.
Lemma chosen_spec b : S b < n -> In (chosen b) l /\ joins (fst (chosen b)) b (up b).
Proof.
  intros Hb. unfold chosen. assert (BJ : forall k, between branch_bus b (up b) k && (k <? n_branch) = true <-> joins k b (up b)).
  { intros k. rewrite <- (in_entry n_branch branch_bus). unfold Observability.entry. rewrite filter_In, in_seq, andb_true_iff, Nat.ltb_lt. split; intros [A B]; (split; [|try exact A; try exact B]); try lia; try exact B; try exact A. }
  destruct (find _ l) as [e|] eqn:E.
  - apply find_some in E. destruct E as [I E]. split; [exact I|apply BJ, E].
  - destruct (crossed b Hb) as (k & s & I & J). apply BJ in J. pose proof (find_none _ _ E _ I) as X. cbn [fst] in X. congruence.
Qed.
Lemma nodup_snd e e' : In e l -> In e' l -> snd e = snd e' -> e = e'.
Proof.
  clear - ND. induction l as [|x r IH]; intros I I' E; [destruct I|]. cbn in ND. inversion ND as [|? ? N ND']; subst. destruct I as [<-|I], I' as [<-|I'].
  - reflexivity.
  - destruct N. rewrite E. apply in_map, I'.
  - destruct N. rewrite <- E. apply in_map, I.
  - exact (IH ND' I I' E).
Qed.
Lemma chosen_distinct b c : S b < n -> S c < n -> snd (chosen b) = snd (chosen c) -> b = c.
Proof.
  intros Hb Hc E. destruct (chosen_spec b Hb) as [I J]. destruct (chosen_spec c Hc) as [I' J']. rewrite (nodup_snd _ _ I I' E) in J. exact (same_up _ _ _ Hb Hc J J').
Qed.
Lemma chosen_bus b x : S b < n -> snd (chosen b) = injection_at x -> x < n /\ injection x = true /\ (x = b \/ x = up b).
Proof.
  intros Hb E. destruct (chosen_spec b Hb) as [I J]. pose proof (DET (fst (chosen b)) (snd (chosen b))) as D. rewrite <- surjective_pairing in D. specialize (D I). rewrite E in D. destruct D as (Hx & Ix & (c & Jc)).
  split; [exact Hx|]. split; [exact Ix|]. destruct (joins_ends _ _ _ _ _ Jc J) as [[A _]|[A _]]; auto.
Qed.
Record greedy (m : nat) (fs : nat -> nat -> bool) (vs : nat -> bool) : Prop := {
  g_vs : forall b, vs b = phasor b;
  g_before : forall b, b < m -> fs b (up b) = true;
  g_after : forall b, m <= b -> S b < n -> fs b (up b) = flow_sensors b (up b);
  g_cleared : forall b, b < m -> fs b b = false;
  g_left : forall b x, m <= b -> S b < n -> snd (chosen b) = injection_at x -> fs x x = true }.
Lemma greedy_step m fs vs : S m < n -> greedy m fs vs -> let s := assign_bus (fs, vs) m in greedy (S m) (fst s) (snd s).
Proof.
  intros Hm G. destruct (up_spec m Hm) as [L _]. unfold Observability.assign_bus. fold (up m).
  assert (K : forall fs', fs' m (up m) = true -> (forall b, b <> m -> S b < n -> fs' b (up b) = fs b (up b)) -> (forall x, x <> m -> fs' x x = fs x x \/ (forall b, m < b -> S b < n -> snd (chosen b) <> injection_at x) /\ m < x) ->
    greedy (S m) (set2 fs' m m false) vs).
  { intros fs' U E D. constructor.
    - exact (g_vs _ _ _ G).
    - intros b Hb. rewrite set2_other by (destruct (up_spec b ltac:(lia)); lia). destruct (Nat.eq_dec b m) as [->|N]; [exact U|]. rewrite (E b N) by lia. apply (g_before _ _ _ G). lia.
    - intros b Hb Hn. rewrite set2_other by lia. rewrite E by lia. apply (g_after _ _ _ G); lia.
    - intros b Hb. destruct (Nat.eq_dec b m) as [->|N]; [apply set2_at|]. rewrite set2_other by lia. destruct (D b N) as [->|[_ X]]; [apply (g_cleared _ _ _ G)|]; lia.
    - intros b x Hb Hn C. destruct (chosen_bus b x Hn C) as (_ & _ & Q). destruct (up_spec b Hn) as [Ub _]. rewrite set2_other by lia. destruct (D x ltac:(lia)) as [->|[X _]]; [apply (g_left _ _ _ G b); [lia|exact Hn|exact C]|].
      destruct (X b ltac:(lia) Hn C). }
  destruct (fs m (up m)) eqn:F; cbn [negb].
  - apply K; [exact F|reflexivity|]. intros x _. left. reflexivity.
  - pose proof F as F'. rewrite (g_after _ _ _ G m (le_n m) Hm) in F'. destruct (snd (chosen m)) as [k|x] eqn:C.
    { exfalso. destruct (chosen_spec m Hm) as [I J]. pose proof (DET (fst (chosen m)) (snd (chosen m))) as D. rewrite <- surjective_pairing in D. specialize (D I). rewrite C in D. destruct D as [_ D].
      assert (T : flow_sensors m (up m) = true) by (apply (flow_entry m Hm); exists (fst (chosen m)); split; assumption). congruence. }
    pose proof (g_left _ _ _ G m x (le_n m) Hm C) as T. destruct (chosen_bus m x Hm C) as (_ & _ & Q). destruct (fs m m) eqn:F1.
    + cbn [fst snd]. apply K.
      * rewrite set2_other by lia. apply set2_at.
      * intros b N Hb. rewrite !set2_other; [reflexivity|left; exact N..].
      * intros y N. left. rewrite !set2_other; [reflexivity|left; exact N..].
    + destruct Q as [-> | ->]; [congruence|]. rewrite T. cbn [fst snd]. apply K.
      * rewrite set2_other by lia. apply set2_at.
      * intros b N Hb. destruct (up_spec b Hb) as [Ub _]. rewrite !set2_other; [reflexivity|left; exact N|lia].
      * intros y N. destruct (Nat.eq_dec y (up m)) as [->|Ny]; [right; split; [|lia]|left; rewrite !set2_other; [reflexivity|left; assumption..]].
        intros b Hb Hn E. assert (b = m) by (apply (chosen_distinct b m Hn Hm); congruence). lia.
Qed.
Lemma greedy_all m : m < n -> greedy m (fst (state m)) (snd (state m)).
Proof.
  induction m as [|m IH]; intros Hm.
  - constructor; try (intros; lia); [reflexivity|reflexivity|]. intros b x _ Hb C. cbn. unfold Observability.flow_sensors. rewrite Nat.eqb_refl. apply (chosen_bus b x Hb C).
  - rewrite state_S. specialize (IH ltac:(lia)). destruct (state m) as [fs vs]. exact (greedy_step m fs vs Hm IH).
Qed.
Lemma radial_complete_linked : radial_ok n n_branch branch_bus flow injection phasor = true.
Proof.
  pose proof (ok_some _ _ OK) as Hn. unfold radial_ok, assign_all. fold (state (n - 1)). pose proof (greedy_all (n - 1) ltac:(lia)) as G. destruct (state (n - 1)) as [fs vs]. cbn [fst snd] in G.
  rewrite sum_final by (intros b Hb; apply (g_cleared _ _ _ G); lia). rewrite sum_ones by (intros b Hb; rewrite (g_before _ _ _ G b Hb); reflexivity). apply negb_true_iff, orb_false_iff. split; [apply Nat.ltb_ge; lia|].
  rewrite (sum_phasor_ext _ _ (g_vs _ _ _ G)). destruct (sum_phasor n phasor) as [|p]; reflexivity.
Qed.
End Complete.
(** one measured angle, or none: all buses are linked *)
Lemma observable_linked : sum_phasor n phasor <= 1 -> observable n n_branch branch_bus flow injection phasor ->
  exists l, (forall k s, In (k, s) l -> determines k s) /\ NoDup (map snd l) /\ forall a b, a < n -> b < n -> linked l a b.
Proof.
  intros P (l & D & N & A). exists l. split; [exact D|]. split; [exact N|]. destruct A as [A|[_ A]]; [|exact A]. intros a b Ha Hb. destruct (A a Ha) as (c & Hc & Pc & Lc). destruct (A b Hb) as (d & Hd & Pd & Ld).
  assert (E : c = d). { unfold sum_phasor, count in P. assert (Ic : In c (filter phasor (seq 0 n))) by (apply filter_In; split; [apply in_seq; lia|exact Pc]). assert (Id : In d (filter phasor (seq 0 n))) by (apply filter_In; split; [apply in_seq; lia|exact Pd]).
    destruct (filter phasor (seq 0 n)) as [|x [|y r]]; [destruct Ic| |cbn in P; lia]. destruct Ic as [<-|[]], Id as [<-|[]]. reflexivity. }
  subst d. eapply linked_trans; [exact Lc|apply linked_sym, Ld].
Qed.
Lemma radial_complete : sum_phasor n phasor <= 1 -> observable n n_branch branch_bus flow injection phasor -> radial_ok n n_branch branch_bus flow injection phasor = true.
Proof. intros P O. destruct (observable_linked P O) as (l & D & N & A). exact (radial_complete_linked l D N A). Qed.
End Radial.
