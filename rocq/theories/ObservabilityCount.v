(** The numbers of sensors: too few sensors cannot make a grid observable, injections at all buses but one do. *)
From Coq Require Import Relations ZArith FinFun.
From Verif Require Import Common Observability ObservabilitySpec ObservabilityFacts.

Section Count.
Variables (n n_branch : nat) (branch_bus : nat -> bool -> option nat) (flow injection phasor : nat -> bool).
Hypothesis OK : grid_ok n branch_bus.
Local Notation joins := (ObservabilitySpec.joins n_branch branch_bus).
Local Notation determines := (ObservabilitySpec.determines n n_branch branch_bus flow injection).
Local Notation linked := (ObservabilitySpec.linked n_branch branch_bus).
Local Notation entry := (Observability.entry n_branch branch_bus).
Local Notation upper := (Observability.upper n n_branch branch_bus).
Local Notation flow_sensors := (Observability.flow_sensors n_branch branch_bus flow injection).
Local Notation sum_flow := (Observability.sum_flow n n_branch branch_bus).

Lemma in_entry b c k : In k (entry b c) <-> joins k b c.
Proof.
  clear OK n flow injection phasor. unfold Observability.entry, ObservabilitySpec.joins, between, is_end. rewrite filter_In, in_seq, orb_true_iff, !andb_true_iff.
  destruct (branch_bus k false) as [x|], (branch_bus k true) as [y|]; rewrite ?Nat.eqb_eq; intuition; try discriminate; try congruence;
    repeat match goal with H : Some _ = Some _ |- _ => injection H as H end; subst; auto; try lia.
Qed.
Lemma in_upper b c : In c (upper b) <-> b < c < n /\ exists k, joins k b c.
Proof.
  clear OK flow injection phasor. unfold Observability.upper. rewrite filter_In, in_seq, negb_true_iff, Nat.eqb_neq. split.
  - intros [H L]. split; [lia|]. destruct (entry b c) as [|k r] eqn:E; [cbn in L; lia|]. exists k. apply in_entry. rewrite E. left. reflexivity.
  - intros [H (k & J)]. split; [lia|]. apply in_entry in J. destruct (entry b c); [destruct J|cbn; lia].
Qed.
Lemma joins_lt k a b : joins k a b -> a < n /\ b < n /\ a <> b.
Proof.
  intros [_ J]. assert (H : forall x y, branch_bus k false = Some x -> branch_bus k true = Some y -> x < n /\ y < n /\ x <> y).
  { intros x y A B. split; [exact (ok_bus _ _ OK _ _ _ A)|]. split; [exact (ok_bus _ _ OK _ _ _ B)|]. intros <-. exact (ok_ends _ _ OK _ _ A B). }
  destruct J as [[A B]|[A B]]; destruct (H _ _ A B) as (P & Q & R); auto.
Qed.

(** ** Classes of linked buses *)
Definition merge (u v y : nat) : nat := if y =? u then v else y.
Lemma merge_count u v l : length (nodup Nat.eq_dec l) <= S (length (nodup Nat.eq_dec (map (merge u v) l))).
Proof.
  assert (I : incl (remove Nat.eq_dec u (nodup Nat.eq_dec l)) (nodup Nat.eq_dec (map (merge u v) l))).
  { intros y H. apply in_remove in H. destruct H as [H D]. apply nodup_In in H. apply nodup_In. apply in_map_iff. exists y. split; [|exact H]. unfold merge. destruct (Nat.eqb_spec y u); [contradiction|reflexivity]. }
  apply NoDup_incl_length in I.
  - assert (L : forall m, NoDup m -> length m <= S (length (remove Nat.eq_dec u m))).
    { induction m as [|a m IH]; intros N; cbn; [lia|]. inversion N as [|? ? Na Nm]; subst. destruct (Nat.eq_dec u a) as [<-|D]; [|cbn; specialize (IH Nm); lia].
      rewrite notin_remove by exact Na. lia. }
    specialize (L (nodup Nat.eq_dec l) (NoDup_nodup _ _)). lia.
  - clear I. assert (P : forall m, NoDup m -> NoDup (remove Nat.eq_dec u m)); [|apply P, NoDup_nodup].
    induction m as [|a m IH]; intros N; cbn; [constructor|]. inversion N as [|? ? Na Nm]; subst. destruct (Nat.eq_dec u a); [exact (IH Nm)|]. constructor; [|exact (IH Nm)].
    intros H. apply in_remove in H. apply Na, H.
Qed.
Lemma classes (P : list (nat * nat)) : exists f : nat -> nat, (forall a b, In (a, b) P -> f a = f b) /\ n <= length P + length (nodup Nat.eq_dec (map f (seq 0 n))).
Proof.
  induction P as [|[a b] P (f & E & L)].
  - exists (fun x => x). split; [intros a b []|]. rewrite map_id, nodup_fixed_point by apply seq_NoDup. rewrite seq_length. cbn. lia.
  - exists (fun x => merge (f a) (f b) (f x)). split.
    + intros x y [H|H]; [injection H as <- <-; unfold merge; rewrite Nat.eqb_refl; destruct (f b =? f a) eqn:D; reflexivity|]. rewrite (E _ _ H). reflexivity.
    + pose proof (merge_count (f a) (f b) (map f (seq 0 n))) as M. rewrite map_map in M. cbn [length]. lia.
Qed.

(** ** The necessary condition *)
Definition flow_pairs : list (nat * nat) := flat_map (fun b => map (fun c => (b, c)) (filter (flow_sensors b) (upper b))) (seq 0 n).
Definition n_injections : nat := count injection (seq 0 n).
Lemma count_cons {A} (f : A -> bool) x l : count f (x :: l) = (if f x then 1 else 0) + count f l. Proof. unfold count. cbn. destruct (f x); reflexivity. Qed.
Lemma sum_is : sum_flow flow_sensors = n_injections + length flow_pairs.
Proof.
  unfold Observability.sum_flow, n_injections, flow_pairs. induction (seq 0 n) as [|b l IH]; [reflexivity|].
  cbn [map list_sum fold_right flat_map]. rewrite app_length, map_length, !count_cons. change (fold_right Init.Nat.add 0 (map (fun b => count (flow_sensors b) (b :: upper b)) l)) with (list_sum (map (fun b => count (flow_sensors b) (b :: upper b)) l)).
  rewrite IH. unfold Observability.flow_sensors at 1. rewrite Nat.eqb_refl. unfold count. destruct (injection b); lia.
Qed.
Definition ends (k : nat) : nat * nat := (match branch_bus k false with Some a => a | None => 0 end, match branch_bus k true with Some a => a | None => 0 end).
Lemma ends_joins k a b : joins k a b -> ends k = (a, b) \/ ends k = (b, a).
Proof. unfold ends. intros [_ [[-> ->]|[-> ->]]]; auto. Qed.
Definition by_injection (e : nat * sensor) : bool := match snd e with injection_at _ => true | flow_on _ => false end.
Definition bus_of (e : nat * sensor) : nat := match snd e with injection_at b => b | flow_on _ => 0 end.
Definition pairs_of (l : list (nat * sensor)) : list (nat * nat) := flow_pairs ++ map (fun e => ends (fst e)) (filter by_injection l).
Lemma in_pairs l : (forall k s, In (k, s) l -> determines k s) -> forall k s a b, In (k, s) l -> joins k a b -> In (a, b) (pairs_of l) \/ In (b, a) (pairs_of l).
Proof.
  intros D k s a b I J. pose proof (D k s I) as Ds. destruct s as [k'|c].
  - destruct Ds as [-> F]. destruct (joins_lt _ _ _ J) as (Ha & Hb & N).
    assert (X : forall a b, joins k a b -> a < b -> b < n -> In (a, b) (pairs_of l)).
    { intros x y Jx Lt Hy. apply in_or_app. left. unfold flow_pairs. apply in_flat_map. exists x. split; [apply in_seq; lia|]. apply in_map. apply filter_In. split; [apply in_upper; split; [lia|exists k; exact Jx]|].
      unfold Observability.flow_sensors. destruct (Nat.eqb_spec x y); [lia|]. apply existsb_exists. exists k. split; [apply in_entry; exact Jx|exact F]. }
    destruct (Nat.lt_total a b) as [L|[E|L]]; [left; apply X; assumption|contradiction|right; apply X; [apply joins_sym|exact L|]; assumption].
  - assert (X : In (ends k) (pairs_of l)) by (apply in_or_app; right; apply in_map_iff; exists (k, injection_at c); split; [reflexivity|apply filter_In; split; [exact I|reflexivity]]).
    destruct (ends_joins _ _ _ J) as [E|E]; rewrite E in X; auto.
Qed.
Lemma pairs_length l : (forall k s, In (k, s) l -> determines k s) -> NoDup (map snd l) -> length (pairs_of l) <= sum_flow flow_sensors.
Proof.
  intros D N. rewrite sum_is. unfold pairs_of. rewrite app_length, map_length.
  assert (H : length (filter by_injection l) <= n_injections); [|lia].
  assert (NB : NoDup (map bus_of (filter by_injection l))).
  { clear D. induction l as [|[k s] l IH]; [constructor|]. cbn in N. inversion N as [|? ? Na Nl]; subst. cbn [filter by_injection snd]. destruct s as [k'|b]; cbn [by_injection snd filter map bus_of]; [exact (IH Nl)|].
    constructor; [|exact (IH Nl)]. intros I. apply Na. apply in_map_iff in I. destruct I as ([k' s'] & E & I). apply filter_In in I. destruct I as [I B]. destruct s' as [k''|b']; [discriminate|]. cbn in E. subst b'.
    apply in_map_iff. exists (k', injection_at b). auto. }
  rewrite <- (map_length bus_of). unfold n_injections, count. apply NoDup_incl_length; [exact NB|]. intros b I. apply in_map_iff in I. destruct I as ([k s] & E & I). apply filter_In in I. destruct I as [I B].
  destruct s as [k'|b']; [discriminate|]. cbn in E. subst b'. destruct (D _ _ I) as (Hb & J & _). apply filter_In. split; [apply in_seq; lia|exact J].
Qed.
Lemma linked_class l f : (forall a b, In (a, b) (pairs_of l) -> f a = f b) -> (forall k s, In (k, s) l -> determines k s) -> forall a b, linked l a b -> f a = f b :> nat.
Proof.
  intros E D a b H. induction H as [a b (k & s & I & J)|a|a b _ IH|a b c _ IH1 _ IH2]; [|reflexivity|congruence|congruence].
  destruct (in_pairs l D k s a b I J) as [P|P]; [|symmetry]; exact (E _ _ P).
Qed.
Lemma enough_sensors : observable n n_branch branch_bus flow injection phasor -> n <= sum_flow flow_sensors + Nat.max 1 (sum_phasor n phasor).
Proof.
  intros (l & D & N & A). destruct (classes (pairs_of l)) as (f & E & L). pose proof (pairs_length l D N) as P. pose proof (linked_class l f E D) as C.
  assert (M : length (nodup Nat.eq_dec (map f (seq 0 n))) <= Nat.max 1 (sum_phasor n phasor)); [|lia].
  destruct A as [A|[_ A]].
  - apply Nat.le_trans with (sum_phasor n phasor); [|lia]. unfold sum_phasor, count. rewrite <- (map_length f (filter phasor (seq 0 n))). apply NoDup_incl_length; [apply NoDup_nodup|]. intros y I. apply nodup_In in I. apply in_map_iff in I. destruct I as (b & <- & I). apply in_seq in I.
    destruct (A b) as (c & Hc & Pc & Lc); [lia|]. rewrite (C _ _ Lc). apply in_map. apply filter_In. split; [apply in_seq; lia|exact Pc].
  - apply Nat.le_trans with 1; [|lia]. change 1 with (length [f 0]). apply NoDup_incl_length; [apply NoDup_nodup|]. intros y I. apply nodup_In in I. apply in_map_iff in I. destruct I as (b & <- & I). apply in_seq in I.
    left. apply C, A; lia.
Qed.

(** ** Injections at all buses but one *)
Lemma wrap_le z : (0 <= z)%Z -> (wrap8 z <= z)%Z.
Proof. intros H. unfold wrap8. pose proof (Z.mod_le (z + 128) 256). lia. Qed.
Lemma wrap_total_le l : (fold_left (fun t b => if injection b then wrap8 (t + 1) else t) l 0 <= Z.of_nat (count injection l))%Z.
Proof.
  assert (G : forall t, (-128 <= t)%Z -> (fold_left (fun t b => if injection b then wrap8 (t + 1) else t) l t <= t + Z.of_nat (count injection l))%Z).
  { induction l as [|b l IH]; intros t Ht; [cbn; lia|]. rewrite count_cons. cbn [fold_left]. destruct (injection b); [|specialize (IH t Ht); lia].
    assert (W : (-128 <= wrap8 (t + 1) <= t + 1)%Z) by (unfold wrap8; pose proof (Z.mod_le (t + 1 + 128) 256); pose proof (Z.mod_pos_bound (t + 1 + 128) 256); lia).
    specialize (IH (wrap8 (t + 1)) ltac:(lia)). lia. }
  specialize (G 0%Z). lia.
Qed.
Lemma all_but_one : (Z.of_nat n - 2 < total_injections n injection)%Z -> exists start, start < n /\ forall b, b < n -> b <> start -> injection b = true.
Proof.
  intros H. pose proof (wrap_total_le (seq 0 n)) as W. unfold total_injections in H. assert (C : n <= S (count injection (seq 0 n))) by lia. clear H W.
  assert (S0 : count injection (seq 0 n) + count (fun b => negb (injection b)) (seq 0 n) = n).
  { transitivity (length (seq 0 n)); [|apply seq_length]. clear C. induction (seq 0 n) as [|b l IH]; [reflexivity|]. rewrite !count_cons. cbn [length]. destruct (injection b); cbn; lia. }
  destruct (filter (fun b => negb (injection b)) (seq 0 n)) as [|a r] eqn:E.
  - exists 0. split; [exact (ok_some _ _ OK)|]. intros b Hb _. destruct (injection b) eqn:J; [reflexivity|]. assert (I : In b (filter (fun b => negb (injection b)) (seq 0 n))) by (apply filter_In; split; [apply in_seq; lia|rewrite J; reflexivity]).
    rewrite E in I. destruct I.
  - assert (r = []). { assert (Q : count (fun b => negb (injection b)) (seq 0 n) = length (a :: r)) by (unfold count; rewrite E; reflexivity). destruct r; [reflexivity|cbn [length] in Q; lia]. } subst r.
    assert (I : In a (filter (fun b => negb (injection b)) (seq 0 n))) by (rewrite E; left; reflexivity). apply filter_In in I. destruct I as [I _]. apply in_seq in I. exists a. split; [lia|].
    intros b Hb D. destruct (injection b) eqn:J; [reflexivity|]. assert (Ib : In b (filter (fun b => negb (injection b)) (seq 0 n))) by (apply filter_In; split; [apply in_seq; lia|rewrite J; reflexivity]).
    rewrite E in Ib. destruct Ib as [F|[]]. congruence.
Qed.
Lemma injections_observe : ObservabilitySpec.connected n n_branch branch_bus -> (Z.of_nat n - 2 < total_injections n injection)%Z -> observable n n_branch branch_bus flow injection phasor.
Proof.
  intros C H. destruct (all_but_one H) as (start & Hs & A). destruct (grow n n_branch branch_bus flow injection phasor start (n - 1) OK C Hs) as (t & T & L & B & S0); [lia|].
  apply (linked_observable n n_branch branch_bus flow injection phasor (used t)).
  - intros k s I. apply in_map_iff in I. destruct I as (e & E & I). injection E as <- <-. rewrite (S0 e I). cbn. assert (Hc : In (child e) (children t)) by apply in_map, I.
    split; [apply B, in_or_app; left; exact Hc|]. split.
    + apply A; [apply B, in_or_app; left; exact Hc|]. intros D. pose proof (tree_nodup _ _ _ _ T) as N. rewrite D in Hc. apply NoDup_remove_2 in N. apply N. rewrite app_nil_r. exact Hc.
    + exists (parent e). apply joins_sym. exact (proj2 (tree_parent _ _ _ _ _ T I)).
  - pose proof (tree_nodup _ _ _ _ T) as N. apply NoDup_remove_1 in N; rewrite app_nil_r in N. unfold used. rewrite map_map. cbn [snd].
    assert (E : map (fun e => source e) t = map injection_at (children t)) by (unfold children; rewrite map_map; apply map_ext_in; exact S0). rewrite E.
    apply FinFun.Injective_map_NoDup; [intros x y F; congruence|exact N].
  - apply (all_linked n n_branch branch_bus flow injection phasor start t T B). lia.
Qed.
End Count.
