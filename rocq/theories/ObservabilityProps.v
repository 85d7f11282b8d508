(** C58: the observability check accepts only grids whose sensors determine all voltages. *)
From Coq Require Import Relations ZArith.
From Verif Require Import Common Observability ObservabilitySpec ObservabilityFacts ObservabilityCount ObservabilityRadial ObservabilitySearch.

Section Props.
Variables (n n_branch : nat) (branch_bus : nat -> bool -> option nat) (flow injection phasor : nat -> bool) (has_voltage has_global_current is_radial : bool).
Hypothesis OK : grid_ok n branch_bus.
Local Notation check := (observability_check n n_branch branch_bus flow injection phasor has_voltage has_global_current is_radial).
Local Notation observable := (ObservabilitySpec.observable n n_branch branch_bus flow injection phasor).
Local Notation connected := (ObservabilitySpec.connected n n_branch branch_bus).
Local Notation radial := (ObservabilitySpec.radial n n_branch branch_bus).
(** at most one bus has a measured angle *)
Definition one_angle : Prop := forall a b, a < n -> b < n -> phasor a = true -> phasor b = true -> a = b.

Lemma one_angle_sum : one_angle -> sum_phasor n phasor <= 1.
Proof.
  intros H. unfold sum_phasor, count. pose proof (NoDup_filter phasor (seq_NoDup n 0)) as N. assert (I : forall b, In b (filter phasor (seq 0 n)) -> b < n /\ phasor b = true) by (intros b Hb; apply filter_In in Hb; destruct Hb as [Hb P]; apply in_seq in Hb; split; [lia|exact P]).
  destruct (filter phasor (seq 0 n)) as [|a [|b l]]; cbn; try lia. exfalso. inversion N as [|? ? Na _]; subst. apply Na. left. symmetry. destruct (I a (or_introl eq_refl)), (I b (or_intror (or_introl eq_refl))). apply H; assumption.
Qed.
Lemma radial_connected : radial -> connected.
Proof.
  intros R. pose proof (ok_some _ _ OK) as P. assert (D : forall m b, b + m = n - 1 -> forall b', b <= b' -> b' < n -> clos_refl_sym_trans nat (fun a b => exists k, ObservabilitySpec.joins n_branch branch_bus k a b) b' (n - 1)).
  { induction m as [|m IH]; intros b E b' L Hb.
    - replace b' with (n - 1) by lia. apply rst_refl.
    - destruct (Nat.eq_dec b' b) as [->|]; [|apply (IH (S b)); lia]. destruct (R b ltac:(lia)) as (up & L' & (k & J) & _). pose proof (joins_lt n n_branch branch_bus OK _ _ _ J) as (_ & Hu & _).
      apply rst_trans with up; [apply rst_step; exists k; exact J|]. apply (IH (S b)); lia. }
  intros a b Ha Hb. apply rst_trans with (n - 1); [apply (D (n - 1) 0); lia|apply rst_sym; apply (D (n - 1) 0); lia].
Qed.

(** What is accepted is observable. Missing: a radial grid with several measured angles, see [C58_several_angles_refuted]. *)
Theorem C58_accepted_is_observable_partial : connected -> (is_radial = true -> radial) -> (is_radial = true -> one_angle) ->
  forall ill, check = answer true ill -> observable.
Proof.
  intros C R A ill H. unfold observability_check in H. destruct has_voltage; [|discriminate]. cbn [negb] in H. destruct (necessary _ _ _ _ _ _ _); [discriminate|].
  destruct ((1 <? sum_phasor n phasor) && negb is_radial) eqn:E1; [discriminate|]. destruct (Z.ltb_spec (Z.of_nat n - 2) (total_injections n injection)) as [L|_].
  - apply injections_observe; assumption.
  - destruct is_radial.
    + destruct (radial_ok n n_branch branch_bus flow injection phasor) eqn:Ro; [|discriminate]. apply radial_sound; [exact OK|exact (R eq_refl)|apply one_angle_sum, (A eq_refl)|exact Ro].
    + destruct (meshed_ok n n_branch branch_bus flow injection) eqn:M; [|discriminate]. apply meshed_sound; [exact OK|exact M].
Qed.
(** A grid that is refused because it has too few sensors is not observable. *)
Theorem C58_too_few_is_not_observable : check = refused few_flow_sensors \/ check = refused few_sensors -> ~ observable.
Proof.
  intros H O. pose proof (enough_sensors n n_branch branch_bus flow injection phasor OK O) as E. assert (N : necessary n n_branch branch_bus flow injection phasor has_global_current = Some few_flow_sensors \/ necessary n n_branch branch_bus flow injection phasor has_global_current = Some few_sensors).
  { unfold observability_check in H. destruct has_voltage; [|destruct H; discriminate]. cbn [negb] in H. destruct (necessary _ _ _ _ _ _ _) as [r|].
    - destruct H as [H|H]; injection H as ->; auto.
    - exfalso. destruct ((1 <? sum_phasor n phasor) && negb is_radial); [destruct H; discriminate|]. destruct (Z.of_nat n - 2 <? total_injections n injection)%Z; [destruct H; discriminate|].
      destruct is_radial; [destruct (radial_ok _ _ _ _ _ _)|destruct (meshed_ok _ _ _ _ _)]; destruct H; discriminate. }
  unfold necessary in N. destruct (Nat.eqb_spec (sum_phasor n phasor) 0) as [Z|Z]; cbn [negb andb] in N.
  - rewrite Z in E. destruct (Nat.ltb_spec (sum_flow n n_branch branch_bus (flow_sensors n_branch branch_bus flow injection) + 1) n); [cbn [Nat.max] in E; lia|]. destruct has_global_current; destruct N; discriminate.
  - destruct (Nat.ltb_spec (sum_flow n n_branch branch_bus (flow_sensors n_branch branch_bus flow injection) + sum_phasor n phasor) n); [lia|]. destruct has_global_current; destruct N; discriminate.
Qed.
(** In a radial grid with at most one measured angle the check is exact. *)
Theorem C58_radial_is_exact : radial -> is_radial = true -> one_angle -> has_voltage = true -> (has_global_current = true -> exists b, b < n /\ phasor b = true) ->
  (exists ill, check = answer true ill) <-> observable.
Proof.
  intros R Er A V Gc. split.
  - intros (ill & H). exact (C58_accepted_is_observable_partial (radial_connected R) (fun _ => R) (fun _ => A) ill H).
  - intros O. pose proof (enough_sensors n n_branch branch_bus flow injection phasor OK O) as E. pose proof (one_angle_sum A) as A1. pose proof (radial_complete n n_branch branch_bus flow injection phasor OK R A1 O) as Ro.
    unfold observability_check. rewrite V, Er, Ro. cbn [negb]. assert (N : necessary n n_branch branch_bus flow injection phasor has_global_current = None).
    { unfold necessary. destruct (Nat.eqb_spec (sum_phasor n phasor) 0) as [Z|Z]; cbn [negb andb].
      - rewrite Z in E. destruct (Nat.ltb_spec (sum_flow n n_branch branch_bus (flow_sensors n_branch branch_bus flow injection) + 1) n); [cbn [Nat.max] in E; lia|]. destruct has_global_current; [|reflexivity]. exfalso.
        destruct (Gc eq_refl) as (b & Hb & P). unfold sum_phasor, count in Z. apply length_zero_iff_nil in Z. assert (I : In b (filter phasor (seq 0 n))) by (apply filter_In; split; [apply in_seq; lia|exact P]). rewrite Z in I. destruct I.
      - destruct (Nat.ltb_spec (sum_flow n n_branch branch_bus (flow_sensors n_branch branch_bus flow injection) + sum_phasor n phasor) n); [lia|]. rewrite andb_false_r. reflexivity. }
    rewrite N, andb_false_r. destruct (Z.of_nat n - 2 <? total_injections n injection)%Z; eexists; reflexivity.
Qed.
(** A meshed grid with several measured angles is never accepted. *)
Theorem C58_several_angles_meshed : is_radial = false -> ~ one_angle -> forall ill, check <> answer true ill.
Proof.
  intros Er A ill H. unfold observability_check in H. destruct has_voltage; [|discriminate]. cbn [negb] in H. destruct (necessary _ _ _ _ _ _ _); [discriminate|]. rewrite Er in H. cbn [negb] in H. rewrite andb_true_r in H.
  destruct (Nat.ltb_spec 1 (sum_phasor n phasor)) as [|L]; [discriminate|]. apply A. intros a b Ha Hb Pa Pb. unfold sum_phasor, count in L.
  assert (I : forall c, c < n -> phasor c = true -> In c (filter phasor (seq 0 n))) by (intros c Hc Pc; apply filter_In; split; [apply in_seq; lia|exact Pc]). pose proof (I a Ha Pa) as Ia. pose proof (I b Hb Pb) as Ib.
  destruct (filter phasor (seq 0 n)) as [|x [|y l]]; cbn in L; [destruct Ia| |lia]. destruct Ia as [<-|[]], Ib as [<-|[]]. reflexivity.
Qed.
End Props.

(** ** Cases *)
Definition ends_of (l : list (nat * nat)) (k : nat) (side : bool) : option nat := option_map (fun p => if side then snd p else fst p : nat) (nth_error l k).
Definition flag (l : list bool) (k : nat) : bool := nth k l false.
Definition checked (n : nat) (l : list (nat * nat)) (f i p : list bool) (rad : bool) : verdict := observability_check n (length l) (ends_of l) (flag f) (flag i) (flag p) true false rad.
Definition truly (n : nat) (l : list (nat * nat)) (f i p : list bool) : Prop := observable n (length l) (ends_of l) (flag f) (flag i) (flag p).
(** the hypotheses are decidable *)
Lemma ends_ok n l : 0 < n -> forallb (fun p => (fst p <? n) && (snd p <? n) && negb (fst p =? snd p)) l = true -> grid_ok n (ends_of l).
Proof.
  intros P H. rewrite forallb_forall in H. assert (E : forall k side b, ends_of l k side = Some b -> exists p, In p l /\ nth_error l k = Some p /\ b = if side then snd p else fst p).
  { intros k side b E. unfold ends_of in E. destruct (nth_error l k) as [p|] eqn:Q; [|discriminate]. injection E as <-. exists p. split; [exact (nth_error_In _ _ Q)|split; reflexivity]. }
  constructor; [| |exact P].
  - intros k side b Hb. destruct (E _ _ _ Hb) as (p & I & _ & ->). specialize (H p I). destruct side; lia.
  - intros k b H1 H2. destruct (E _ _ _ H1) as (p & I & Q & Ep). destruct (E _ _ _ H2) as (p' & _ & Q' & Ep'). specialize (H p I). assert (p' = p) by congruence. subst p'. lia.
Qed.
Lemma link l u k a b : In k (map fst u) -> nth_error l k = Some (a, b) -> linked (length l) (ends_of l) u a b.
Proof.
  intros I N. apply in_map_iff in I. destruct I as ([k' s] & E & I). cbn in E. subst k'. apply (linked_step (length l) (ends_of l)) with k s; [exact I|]. split; [apply nth_error_Some; congruence|]. left. unfold ends_of. rewrite N. split; reflexivity.
Qed.
(** all buses are reached from the first with the branches of [ks], in this order *)
Fixpoint spans (l : list (nat * nat)) (seen : list nat) (ks : list nat) : list nat :=
  match ks with
  | [] => seen
  | k :: r => match nth_error l k with
              | Some (a, b) => spans l (if existsb (Nat.eqb a) seen then b :: seen else if existsb (Nat.eqb b) seen then a :: seen else seen) r
              | None => spans l seen r
              end
  end.
Lemma spans_linked l u s ks : (forall k, In k ks -> In k (map fst u)) -> forall seen, (forall b, In b seen -> linked (length l) (ends_of l) u b s) -> forall b, In b (spans l seen ks) -> linked (length l) (ends_of l) u b s.
Proof.
  induction ks as [|k ks IH]; intros Hk seen Hs b I; [exact (Hs b I)|]. cbn [spans] in I. assert (Hk' : forall k', In k' ks -> In k' (map fst u)) by (intros k' I'; apply Hk; right; exact I').
  destruct (nth_error l k) as [[x y]|] eqn:N; [|exact (IH Hk' seen Hs b I)]. pose proof (link l u k x y (Hk k (or_introl eq_refl)) N) as L. refine (IH Hk' _ _ b I). clear I b IH.
  assert (M : forall c, existsb (Nat.eqb c) seen = true -> In c seen) by (intros c E; apply existsb_exists in E; destruct E as (d & I & E); apply Nat.eqb_eq in E; subst; exact I).
  destruct (existsb (Nat.eqb x) seen) eqn:E1; [|destruct (existsb (Nat.eqb y) seen) eqn:E2; [|exact Hs]].
  - intros b [<-|I]; [|exact (Hs b I)]. apply linked_trans with x; [apply linked_sym, L|apply Hs, M, E1].
  - intros b [<-|I]; [|exact (Hs b I)]. apply linked_trans with y; [exact L|apply Hs, M, E2].
Qed.
(** a list of branches and sensors shows that the grid is observable *)
Definition eq_sensor (s s' : sensor) : bool := match s, s' with flow_on a, flow_on b | injection_at a, injection_at b => a =? b | _, _ => false end.
Fixpoint distinct (u : list sensor) : bool := match u with [] => true | s :: r => negb (existsb (eq_sensor s) r) && distinct r end.
Definition right_sensor (n : nat) (l : list (nat * nat)) (f i : list bool) (e : nat * sensor) : bool :=
  match nth_error l (fst e) with
  | None => false
  | Some (a, b) => match snd e with flow_on k => (k =? fst e) && flag f k | injection_at c => (c <? n) && flag i c && ((c =? a) || (c =? b)) end
  end.
Lemma distinct_nodup u : distinct u = true -> NoDup u.
Proof.
  induction u as [|s u IH]; intros H; [constructor|]. cbn in H. apply andb_true_iff in H. destruct H as [A B]. constructor; [|exact (IH B)]. intros I. apply negb_true_iff in A. assert (T : existsb (eq_sensor s) u = true); [|congruence].
  apply existsb_exists. exists s. split; [exact I|]. destruct s; apply Nat.eqb_refl.
Qed.
Lemma shown n l f i (u : list (nat * sensor)) : forallb (right_sensor n l f i) u = true -> distinct (map snd u) = true ->
  (forall k s, In (k, s) u -> determines n (length l) (ends_of l) (flag f) (flag i) k s) /\ NoDup (map snd u).
Proof.
  intros H D. split; [|apply distinct_nodup, D]. rewrite forallb_forall in H. intros k s I. specialize (H _ I). unfold right_sensor in H. cbn [fst snd] in H. destruct (nth_error l k) as [[a b]|] eqn:N; [|discriminate]. destruct s as [k'|c]; cbn.
  - apply andb_true_iff in H. destruct H as [E F]. apply Nat.eqb_eq in E. subst k'. split; [reflexivity|exact F].
  - apply andb_true_iff in H. destruct H as [H E]. apply andb_true_iff in H. destruct H as [L F]. apply Nat.ltb_lt in L. split; [exact L|]. split; [exact F|]. assert (Hk : k < length l) by (apply nth_error_Some; congruence).
    apply orb_true_iff in E. destruct E as [E|E]; apply Nat.eqb_eq in E; subst c; [exists b|exists a]; (split; [exact Hk|]); unfold ends_of; rewrite N; cbn; auto.
Qed.
Lemma show_observable n l f i p u : forallb (right_sensor n l f i) u = true -> distinct (map snd u) = true -> forallb (fun b => existsb (Nat.eqb b) (spans l [0] (map fst u))) (seq 0 n) = true -> truly n l f i p.
Proof.
  intros H D S. destruct (shown n l f i u H D) as [A N]. apply (linked_observable _ _ _ _ _ _ u A N). rewrite forallb_forall in S.
  assert (Z : forall b, b < n -> linked (length l) (ends_of l) u b 0).
  { intros b Hb. specialize (S b ltac:(apply in_seq; lia)). apply existsb_exists in S. destruct S as (c & I & E). apply Nat.eqb_eq in E. subst c. apply (spans_linked l u 0 (map fst u) (fun k I => I) [0]); [|exact I]. intros c [<-|[]]. apply rst_refl. }
  intros a b Ha Hb. apply linked_trans with 0; [exact (Z a Ha)|apply linked_sym; exact (Z b Hb)].
Qed.
Lemma ends_connected n l : 0 < n -> forallb (fun b => existsb (Nat.eqb b) (spans l [0] (seq 0 (length l)))) (seq 0 n) = true -> connected n (length l) (ends_of l).
Proof.
  intros P S. rewrite forallb_forall in S. set (u := map (fun k => (k, flow_on k)) (seq 0 (length l))). assert (Eu : map fst u = seq 0 (length l)) by (unfold u; rewrite map_map; cbn; apply map_id).
  assert (Z : forall b, b < n -> linked (length l) (ends_of l) u b 0).
  { intros b Hb. specialize (S b ltac:(apply in_seq; lia)). apply existsb_exists in S. destruct S as (c & I & E). apply Nat.eqb_eq in E. subst c. apply (spans_linked l u 0 (seq 0 (length l))) with [0]; [intros k I'; rewrite Eu; exact I'| |exact I]. intros c [<-|[]]. apply rst_refl. }
  assert (W : forall a b, linked (length l) (ends_of l) u a b -> clos_refl_sym_trans nat (fun a b => exists k, joins (length l) (ends_of l) k a b) a b).
  { intros a b H. induction H as [a b (k & s & _ & J)|a|a b _ IH|a b c _ IH1 _ IH2]; [apply rst_step; exists k; exact J|apply rst_refl|apply rst_sym, IH|exact (rst_trans _ _ _ _ _ IH1 IH2)]. }
  intros a b Ha Hb. apply W. apply linked_trans with 0; [exact (Z a Ha)|apply linked_sym; exact (Z b Hb)].
Qed.

(** a meshed grid of five buses: three flows and an injection; it is accepted *)
Definition ring : list (nat * nat) := [(0, 1); (1, 2); (2, 3); (3, 4); (4, 0); (1, 3)].
Example ring_hypotheses : grid_ok 5 (ends_of ring) /\ connected 5 6 (ends_of ring) /\ one_angle 5 (flag [false; true]).
Proof.
  split; [apply ends_ok; [lia|reflexivity]|]. split; [apply (ends_connected 5 ring); [lia|reflexivity]|]. intros a b Ha Hb Pa Pb. do 5 (destruct a as [|a]; [do 5 (destruct b as [|b]; [try reflexivity; discriminate|]); lia|]). lia.
Qed.
Example ring_accepted : checked 5 ring [true; true; false; true] [false; false; false; false; true] [false; true] false = answer true true. Proof. vm_compute. reflexivity. Qed.
Example ring_observable : truly 5 ring [true; true; false; true] [false; false; false; false; true] [false; true].
Proof. destruct ring_hypotheses as (A & B & C). exact (C58_accepted_is_observable_partial 5 6 (ends_of ring) _ _ _ true false false A B ltac:(discriminate) ltac:(discriminate) _ ring_accepted). Qed.
Example ring_too_few : ~ truly 5 ring [true; true] [false; false; false; false; true] [].
Proof. destruct ring_hypotheses as (A & _ & _). apply (C58_too_few_is_not_observable 5 6 (ends_of ring) _ _ _ true false false A). left. vm_compute. reflexivity. Qed.
(** a radial grid *)
Definition star : list (nat * nat) := [(0, 3); (1, 3); (2, 4); (3, 4)].
Lemma star_radial : radial 5 4 (ends_of star).
Proof.
  assert (Q : forall k b c, joins 4 (ends_of star) k b c -> In (b, c) star \/ In (c, b) star).
  { intros k b c [L J]. do 4 (destruct k as [|k]; [cbn in J; destruct J as [[E1 E2]|[E1 E2]]; injection E1 as <-; injection E2 as <-; cbn; tauto|]). lia. }
  intros b Hb. exists (nth b [3; 3; 4; 4] 0).
  assert (K : joins 4 (ends_of star) b b (nth b [3; 3; 4; 4] 0)) by (do 4 (destruct b as [|b]; [split; [lia|left; split; reflexivity]|]); lia).
  split; [do 4 (destruct b as [|b]; [cbn; lia|]); lia|]. split; [exists b; exact K|].
  intros c k L J. apply Q in J. cbn in J. do 4 (destruct b as [|b]; [cbn; destruct J as [J|J]; repeat (destruct J as [J|J]; [injection J; intros; lia|]); destruct J|]). lia.
Qed.
Example star_exact i : (exists ill, checked 5 star [true; false; false; true] i [true] true = answer true ill) <-> truly 5 star [true; false; false; true] i [true].
Proof.
  apply C58_radial_is_exact; [apply ends_ok; [lia|reflexivity]|exact star_radial|reflexivity| |reflexivity|discriminate].
  intros a b Ha Hb Pa Pb. destruct a as [|a]; [|destruct a; discriminate]. destruct b as [|b]; [reflexivity|destruct b; discriminate].
Qed.
Example star_accepted : checked 5 star [true; false; false; true] [false; false; false; true; true] [true] true = answer true true. Proof. vm_compute. reflexivity. Qed.
Example star_refused : checked 5 star [true; false; false; true] [true; false; false; true; false] [true] true = refused not_independent. Proof. vm_compute. reflexivity. Qed.

(** ** What fails *)
(** A radial grid of three buses with two measured angles is accepted although no sensor sees the first branch. *)
Theorem C58_several_angles_refuted : exists n l f i p, grid_ok n (ends_of l) /\ radial n (length l) (ends_of l) /\ checked n l f i p true = answer true true /\ ~ truly n l f i p.
Proof.
  exists 3, [(0, 1); (1, 2)], [false; true], [], [false; true; true]. split; [apply ends_ok; [lia|reflexivity]|].
  assert (Q : forall k b c, joins 2 (ends_of [(0, 1); (1, 2)]) k b c -> (k = 0 /\ (b = 0 /\ c = 1 \/ b = 1 /\ c = 0)) \/ (k = 1 /\ (b = 1 /\ c = 2 \/ b = 2 /\ c = 1))).
  { intros k b c [L J]. do 2 (destruct k as [|k]; [cbn in J; destruct J as [[E1 E2]|[E1 E2]]; injection E1 as <-; injection E2 as <-; lia|]). lia. }
  split; [|split; [vm_compute; reflexivity|]].
  - intros b Hb. exists (S b). split; [lia|]. split; [exists b; do 2 (destruct b as [|b]; [split; [cbn; lia|left; split; reflexivity]|]); lia|]. intros c k L J. apply Q in J. lia.
  - intros (u & D & _ & [A|[A _]]); [|specialize (A 1 ltac:(lia)); discriminate]. destruct (A 0 ltac:(lia)) as (c & Hc & Pc & L). apply (crossing _ (Nat.eqb 0)) in L; [|reflexivity|destruct c as [|c]; [discriminate|reflexivity]].
    destruct L as (x & y & R & Hx & Hy). apply Nat.eqb_eq in Hx. subst x. assert (E : exists k s, In (k, s) u /\ k = 0) by (destruct R as [(k & s & I & J)|(k & s & I & J)]; exists k, s; (split; [exact I|]); apply Q in J; lia).
    destruct E as (k & s & I & ->). specialize (D _ _ I). destruct s as [k'|b]; cbn in D; [destruct D as [_ D]; discriminate|]. destruct D as (_ & D & _). unfold flag in D. destruct b; discriminate.
Qed.
(** A radial grid with two measured angles is refused although it is observable. *)
Theorem C58_several_angles_complete_refuted : exists n l f i p, grid_ok n (ends_of l) /\ radial n (length l) (ends_of l) /\ checked n l f i p true = refused not_independent /\ truly n l f i p.
Proof.
  exists 4, [(0, 1); (1, 2); (2, 3)], [true; false; true], [], [true; false; false; true]. split; [apply ends_ok; [lia|reflexivity]|].
  assert (Q : forall k b c, joins 3 (ends_of [(0, 1); (1, 2); (2, 3)]) k b c -> c = S b \/ b = S c).
  { intros k b c [L J]. do 3 (destruct k as [|k]; [cbn in J; destruct J as [[E1 E2]|[E1 E2]]; injection E1 as <-; injection E2 as <-; lia|]). lia. }
  split; [|split; [vm_compute; reflexivity|]].
  - intros b Hb. exists (S b). split; [lia|]. split; [exists b; do 3 (destruct b as [|b]; [split; [cbn; lia|left; split; reflexivity]|]); lia|]. intros c k L J. apply Q in J. lia.
  - set (l := [(0, 1); (1, 2); (2, 3)]). set (u := [(0, flow_on 0); (2, flow_on 2)]). destruct (shown 4 l [true; false; true] [] u eq_refl eq_refl) as [A N]. exists u. split; [exact A|]. split; [exact N|]. left.
    pose proof (link l u 0 0 1 ltac:(cbn; tauto) eq_refl) as L0. pose proof (link l u 2 2 3 ltac:(cbn; tauto) eq_refl) as L2. intros b Hb. destruct b as [|[|[|[|b]]]]; [exists 0|exists 0|exists 3|exists 3|lia]; (split; [lia|]); (split; [reflexivity|]).
    + apply rst_refl.
    + apply linked_sym, L0.
    + exact L2.
    + apply rst_refl.
Qed.
(** A meshed grid without measured angles is refused although it is observable. *)
Theorem C58_meshed_complete_refuted : exists n l f i, grid_ok n (ends_of l) /\ connected n (length l) (ends_of l) /\ checked n l f i [] false = refused meshed /\ truly n l f i [].
Proof.
  exists 5, [(0, 3); (0, 1); (1, 4); (2, 3); (0, 4)], [false; true; false; true; false], [true; true; false; false; false].
  split; [apply ends_ok; [lia|reflexivity]|]. split; [apply (ends_connected 5 [(0, 3); (0, 1); (1, 4); (2, 3); (0, 4)]); [lia|reflexivity]|]. split; [vm_compute; reflexivity|].
  apply (show_observable _ _ _ _ _ [(0, injection_at 0); (1, flow_on 1); (2, injection_at 1); (3, flow_on 3)]); reflexivity.
Qed.
(** The statuses are restored from the first modification to the last, so that one that was modified twice keeps its second value: with the last to the first, this grid is accepted. *)
Definition rollback_last_first (x : search) : grid := fold_right (fun m g => put g (fst m) (snd m)) (s_grid x) (mods x).
Fixpoint try_restored (n : nat) (g : grid) (l : list nat) : bool := match l with [] => false | b :: r => let x := search_from n g b in if s_count x =? n then true else try_restored n (rollback_last_first x) r end.
Theorem C58_restored_refuted : exists n l f i, grid_ok n (ends_of l) /\ connected n (length l) (ends_of l) /\ checked n l f i [] false = refused meshed /\
  (let g := complete n (scan_grid n (length l) (ends_of l) (flag f) (flag i)) in try_restored n g (starting_nodes n g) = true) /\ truly n l f i [].
Proof.
  exists 5, [(1, 4); (0, 4); (2, 4); (0, 1); (0, 3)], [false; true; false; false; false], [true; false; false; true; true].
  split; [apply ends_ok; [lia|reflexivity]|]. split; [apply (ends_connected 5 [(1, 4); (0, 4); (2, 4); (0, 1); (0, 3)]); [lia|reflexivity]|]. split; [vm_compute; reflexivity|]. split; [vm_compute; reflexivity|].
  apply (show_observable _ _ _ _ _ [(1, flow_on 1); (4, injection_at 3); (3, injection_at 0); (2, injection_at 4)]); reflexivity.
Qed.
Print Assumptions C58_accepted_is_observable_partial.
Print Assumptions C58_radial_is_exact.
Print Assumptions C58_several_angles_refuted.
