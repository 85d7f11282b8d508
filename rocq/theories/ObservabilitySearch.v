(** The search of a spanning tree in a meshed grid: the tree that is found has a sensor of its own for each branch. *)
From Coq Require Import Relations ZArith.
From Verif Require Import Common Observability ObservabilitySpec ObservabilityFacts ObservabilityCount ObservabilityRadial.

Section Search.
Variables (n n_branch : nat) (branch_bus : nat -> bool -> option nat) (flow injection : nat -> bool).
Hypothesis OK : grid_ok n branch_bus.
Local Notation joins := (ObservabilitySpec.joins n_branch branch_bus).
Local Notation determines := (ObservabilitySpec.determines n n_branch branch_bus flow injection).
Local Notation linked := (ObservabilitySpec.linked n_branch branch_bus).
Local Notation tree := (ObservabilityFacts.tree n_branch branch_bus).

(** ** Lists of neighbours *)
Lemma status_eqb_eq a b : status_eqb a b = true <-> a = b. Proof. destruct a, b; cbn; split; congruence. Qed.
Lemma find_entry_spec f l : forall i j e, find_entry f l i = Some (j, e) -> exists d, j = i + d /\ nth_error l d = Some e /\ f e = true /\ find f l = Some e.
Proof.
  induction l as [|a l IH]; intros i j e H; cbn in H; [discriminate|]. destruct (f a) eqn:F.
  - injection H as <- <-. exists 0. cbn. rewrite F. repeat split; try lia; exact F.
  - destruct (IH _ _ _ H) as (d & E & N & Fe & Fi). exists (S d). cbn. rewrite F. repeat split; try lia; assumption.
Qed.
Lemma find_entry_none f l : forall i, find_entry f l i = None -> forall e, In e l -> f e = false.
Proof. induction l as [|a l IH]; intros i H e I; cbn in H; [destruct I|]. destruct (f a) eqn:F; [discriminate|]. destruct I as [<-|I]; [exact F|exact (IH _ H e I)]. Qed.
Lemma set_nth_fst l : forall i s, map fst (set_nth l i s) = map fst l. Proof. induction l as [|[b s0] l IH]; intros [|i] s; cbn; try reflexivity. rewrite IH. reflexivity. Qed.
Lemma set_nth_nth l : forall i s j d, snd (nth j (set_nth l i s) d) = if (i =? j) && (j <? length l) then s else snd (nth j l d).
Proof.
  induction l as [|[b s0] l IH]; intros i s j d; [cbn; destruct i, j; rewrite ?andb_false_r; reflexivity|]. destruct i, j; cbn [set_nth nth Nat.eqb andb]; try reflexivity.
  rewrite IH. reflexivity.
Qed.
Definition toward (c : nat) (e : nat * status) : bool := fst e =? c.
Lemma set_nth_find l : forall i s c e, nth_error l i = Some e -> fst e <> c -> find (toward c) (set_nth l i s) = find (toward c) l.
Proof.
  induction l as [|[b s0] l IH]; intros [|i] s c e N D; cbn in N |- *; try discriminate.
  - injection N as <-. cbn in D. unfold toward. cbn. destruct (Nat.eqb_spec b c); [contradiction|reflexivity].
  - destruct (b =? c); [reflexivity|exact (IH i s c e N D)].
Qed.
Lemma set_nth_first l c s : forall i j e, find_entry (toward c) l i = Some (j, e) -> find (toward c) (set_nth l (j - i) s) = Some (c, s).
Proof.
  induction l as [|[b s0] l IH]; intros i j e H; cbn in H; [discriminate|]. destruct (b =? c) eqn:F.
  - injection H as <- <-. rewrite Nat.sub_diag. cbn. rewrite F. apply Nat.eqb_eq in F. subst. reflexivity.
  - pose proof (find_entry_spec _ _ _ _ _ H) as (d & E & _). replace (j - i) with (S (j - S i)) by lia. cbn. rewrite F. exact (IH _ _ _ H).
Qed.

(** ** Grids whose neighbours are those of [sk] *)
Variable sk : nat -> list nat.
Hypothesis SK : forall b c, In c (sk b) -> exists k, joins k b c.
Hypothesis SYM : forall b c, In c (sk b) -> In b (sk c).
Definition good_at (p : place) (s : status) : Prop :=
  match p with
  | at_node b => (s = node_measured /\ injection b = true) \/ s = no_measurement
  | at_entry b i => s = native_unused -> forall c, nth_error (sk b) i = Some c -> exists k, joins k b c /\ flow k = true
  end.
Definition good (g : grid) : Prop := (forall b, map fst (near g b) = sk b) /\ forall p, good_at p (status_at g p).
Lemma put_good g p s : good g -> good_at p s -> good (put g p s).
Proof.
  intros [F G] H. destruct p as [b|b i]; (split; [|intros p'; specialize (G p'); destruct p' as [b'|b' i']]); cbn in *.
  - exact F.
  - destruct (Nat.eqb_spec b' b) as [->|]; [exact H|exact G].
  - exact G.
  - intros b'. destruct (Nat.eqb_spec b' b) as [->|]; [rewrite set_nth_fst; apply F|apply F].
  - exact G.
  - destruct (Nat.eqb_spec b' b) as [->|]; [|exact G]. rewrite set_nth_nth. destruct (Nat.eqb_spec i i') as [->|]; [|exact G]. cbn [andb]. destruct (i' <? length (near g b)); [exact H|exact G].
Qed.
Definition first (g : grid) (b c : nat) : option (nat * status) := find (toward c) (near g b).
Lemma good_entry g b i e : good g -> nth_error (near g b) i = Some e -> nth_error (sk b) i = Some (fst e) /\ In (fst e) (sk b).
Proof. intros [F _] N. assert (M : nth_error (sk b) i = Some (fst e)) by (rewrite <- F; apply map_nth_error, N). split; [exact M|exact (nth_error_In _ _ M)]. Qed.
Lemma good_native g b i c : good g -> nth_error (near g b) i = Some (c, native_unused) -> exists k, joins k b c /\ flow k = true.
Proof.
  intros G N. destruct (good_entry g b i _ G N) as [M _]. destruct G as [_ G]. specialize (G (at_entry b i)). cbn in G. erewrite nth_error_nth in G by exact N. exact (G eq_refl c M).
Qed.
Lemma good_node g b : good g -> node g b = no_measurement \/ (node g b = node_measured /\ injection b = true). Proof. intros [_ G]. specialize (G (at_node b)). cbn in G. tauto. Qed.

(** ** Changes of statuses *)
Record same (x y : search) : Prop := { e_visited : visited y = visited x; e_count : s_count y = s_count x; e_track : track y = track x; e_current : current y = current x; e_downwind : downwind y = downwind x }.
Lemma same_refl x : same x x. Proof. constructor; reflexivity. Qed.
Lemma same_trans x y z : same x y -> same y z -> same x z. Proof. intros [] []. constructor; congruence. Qed.
Definition good_mods (x : search) : Prop := forall p s, In (p, s) (mods x) -> good_at p s.
Definition fine (x : search) : Prop := good (s_grid x) /\ good_mods x.
Lemma modify_fine x p s : fine x -> good_at p s -> fine (modify x p s) /\ same x (modify x p s).
Proof.
  intros [G M] H. unfold modify. destruct (status_eqb (status_at (s_grid x) p) s) eqn:E; [split; [split; assumption|apply same_refl]|].
  split; [|constructor; reflexivity]. split; cbn; [apply put_good; assumption|]. intros p' s' I. cbn in I. apply in_app_or in I. destruct I as [I|[I|[]]]; [exact (M p' s' I)|]. injection I as <- <-. apply G.
Qed.
Lemma modify_node x b s : (forall b', node (s_grid (modify x (at_node b) s)) b' = if b' =? b then s else node (s_grid x) b') /\ near (s_grid (modify x (at_node b) s)) = near (s_grid x).
Proof.
  unfold modify. cbn [status_at put]. destruct (status_eqb (node (s_grid x) b) s) eqn:E; cbn; (split; [intros b'|reflexivity]); [|reflexivity].
  destruct (Nat.eqb_spec b' b) as [->|]; [apply status_eqb_eq; exact E|reflexivity].
Qed.
Lemma modify_at x b i s e : nth_error (near (s_grid x) b) i = Some e ->
  node (s_grid (modify x (at_entry b i) s)) = node (s_grid x) /\ forall b' c', (b' <> b \/ c' <> fst e) -> first (s_grid (modify x (at_entry b i) s)) b' c' = first (s_grid x) b' c'.
Proof.
  intros N. unfold modify. destruct (status_eqb (status_at (s_grid x) (at_entry b i)) s); cbn; (split; [reflexivity|]); [reflexivity|].
  intros b' c' D. unfold first. cbn. destruct (Nat.eqb_spec b' b) as [->|]; [|reflexivity]. apply set_nth_find with e; [exact N|]. destruct D as [D|D]; congruence.
Qed.
Lemma modify_entry_spec x b c s : fine x -> s <> native_unused ->
  let y := modify_entry x b c s in fine y /\ same x y /\ node (s_grid y) = node (s_grid x) /\ (forall b' c', (b' <> b \/ c' <> c) -> first (s_grid y) b' c' = first (s_grid x) b' c') /\
  (In c (sk b) -> first (s_grid y) b c = Some (c, s)).
Proof.
  intros F Ns y. unfold y, modify_entry. fold (toward c). change (fun e : nat * status => fst e =? c) with (toward c). destruct (find_entry (toward c) (near (s_grid x) b) 0) as [[i e]|] eqn:E.
  - destruct (find_entry_spec _ _ _ _ _ E) as (d & Ei & N & T & Fi). cbn in Ei. subst d. destruct (modify_fine x (at_entry b i) s F) as [F' S']; [cbn; intros; contradiction|].
    destruct (modify_at x b i s e N) as [A B]. apply Nat.eqb_eq in T. split; [exact F'|]. split; [exact S'|]. split; [exact A|]. split; [intros b' c' D; apply B; rewrite T; exact D|].
    intros _. pose proof (set_nth_first _ _ s _ _ _ E) as Q. rewrite Nat.sub_0_r in Q. unfold modify, first. destruct (status_eqb (status_at (s_grid x) (at_entry b i)) s) eqn:Es; [|cbn; rewrite Nat.eqb_refl; exact Q].
    apply status_eqb_eq in Es. cbn in Es. erewrite nth_error_nth in Es by exact N. rewrite Fi. destruct e as [c' s']. cbn in T, Es. congruence.
  - split; [exact F|]. split; [apply same_refl|]. split; [reflexivity|]. split; [reflexivity|]. intros I. exfalso. destruct F as [[F _] _]. rewrite <- F in I. apply in_map_iff in I. destruct I as ([c' s'] & Ec & I).
    pose proof (find_entry_none _ _ _ E _ I) as X. unfold toward in X. cbn in X, Ec. subst. rewrite Nat.eqb_refl in X. discriminate.
Qed.

(** ** The invariant *)
Variable start : nat.
Hypothesis START : start < n.
Fixpoint path (cur : nat) (tr : list (nat * nat)) (t : list edge) : Prop :=
  match tr with [] => cur = start | (a, c) :: r => c = cur /\ (exists e, In e t /\ parent e = a /\ child e = c) /\ path a r t end.
Record inv (x : search) (t : list edge) : Prop := {
  i_fine : fine x;
  i_tree : tree start t;
  i_det : forall e, In e t -> determines (branch e) (source e);
  i_nodup : NoDup (map source t);
  i_free : forall b, node (s_grid x) b = node_measured -> ~ In (injection_at b) (map source t);
  i_flow : forall e k, In e t -> source e = flow_on k -> first (s_grid x) (child e) (parent e) = Some (parent e, native_consumed);
  i_visited : forall b, visited x b = true <-> In b (children t ++ [start]);
  i_count : s_count x = S (length t);
  i_path : path (current x) (track x) t;
  i_current : In (current x) (children t ++ [start]) }.
Lemma path_more cur tr t t' : (forall e, In e t -> exists e', In e' t' /\ parent e' = parent e /\ child e' = child e) -> path cur tr t -> path cur tr t'.
Proof.
  intros H. revert cur. induction tr as [|[a c] r IH]; intros cur P; [exact P|]. destruct P as (E & (e & I & Pe & Ce) & P). split; [exact E|]. split; [|exact (IH _ P)].
  destruct (H e I) as (e' & I' & A & B). exists e'. repeat split; [exact I'|congruence|congruence].
Qed.
(** what the changes of a step do to the statuses, when the branch to the bus [c] is added to the tree *)
Lemma inv_add x y t c k s : inv x t -> ~ In c (children t ++ [start]) -> joins k (current x) c -> determines k s -> ~ In s (map source t) ->
  fine y -> (forall b, node (s_grid y) b = node_measured -> node (s_grid x) b = node_measured /\ s <> injection_at b) ->
  (forall b' c', (b' <> current x \/ c' <> c) -> (b' <> c \/ c' <> current x) -> first (s_grid y) b' c' = first (s_grid x) b' c') ->
  (forall k', s = flow_on k' -> first (s_grid y) c (current x) = Some (current x, native_consumed)) ->
  (forall b, visited y b = true <-> visited x b = true \/ b = c) -> s_count y = S (s_count x) -> track y = (current x, c) :: track x -> current y = c ->
  inv y (mkEdge (current x) c k s :: t).
Proof.
  intros I Nc J D Ns F Nd Fi Fl V C T Cu. constructor.
  - exact F.
  - constructor; [exact (i_tree _ _ I)|exact (i_current _ _ I)|exact Nc|exact J].
  - intros e [<-|H]; [exact D|exact (i_det _ _ I e H)].
  - cbn. constructor; [exact Ns|exact (i_nodup _ _ I)].
  - intros b H. destruct (Nd b H) as [A B]. cbn. intros [G|G]; [exact (B G)|exact (i_free _ _ I b A G)].
  - intros e k' [<-|H] E; cbn in *; [exact (Fl k' E)|]. rewrite Fi; [exact (i_flow _ _ I e k' H E)| |].
    + right. intros Ec. apply Nc. rewrite <- Ec. apply (tree_parent _ _ _ _ _ (i_tree _ _ I) H).
    + left. intros Ec. apply Nc. apply in_or_app. left. rewrite <- Ec. apply in_map, H.
  - intros b. rewrite V, (i_visited _ _ I). cbn. split; [intros [H|H]; auto|intros [H|H]; auto].
  - rewrite C, (i_count _ _ I). reflexivity.
  - rewrite T, Cu. cbn. split; [reflexivity|]. split; [eexists; split; [left; reflexivity|split; reflexivity]|]. apply path_more with t; [|exact (i_path _ _ I)]. intros e H. exists e. split; [right; exact H|split; reflexivity].
  - rewrite Cu. left. reflexivity.
Qed.
Lemma unvisited x t c : inv x t -> visited x c = false -> ~ In c (children t ++ [start]).
Proof. intros I V H. apply (i_visited _ _ I) in H. congruence. Qed.
Lemma visit_new x c : visited x c = false -> visit x c = mkSearch (s_grid x) (mods x) (set1 (visited x) c true) (S (s_count x)) (track x) (current x) (downwind x). Proof. intros H. unfold visit. rewrite H. reflexivity. Qed.
Lemma visit_old x c : visited x c = true -> visit x c = x. Proof. intros H. unfold visit. rewrite H. reflexivity. Qed.
Lemma set1_iff (f : nat -> bool) c b : set1 f c true b = true <-> f b = true \/ b = c.
Proof. unfold set1. destruct (Nat.eqb_spec b c); intuition. Qed.

Lemma native_step x t y ok : inv x t -> try_native x = (y, ok) -> if ok then exists t', inv y t' else y = x.
Proof.
  intros I H. unfold try_native in H. assert (Vc : visited x (current x) = true) by (apply (i_visited _ _ I), (i_current _ _ I)). rewrite (visit_old _ _ Vc) in H.
  destruct (find_entry _ (near (s_grid x) (current x)) 0) as [[i [c s]]|] eqn:E; [|injection H as <- <-; reflexivity]. injection H as <- <-.
  destruct (find_entry_spec _ _ _ _ _ E) as (d & Ei & N & T & _). cbn in Ei. subst d. apply andb_true_iff in T. destruct T as [Ts Tv]. cbn [fst snd] in *. apply status_eqb_eq in Ts. subst s. apply negb_true_iff in Tv.
  set (b := current x) in *. destruct (i_fine _ _ I) as [G M]. destruct (good_native _ _ _ _ G N) as (k & J & Fk). destruct (good_entry _ _ _ _ G N) as [_ Isk]. cbn in Isk.
  pose proof (unvisited x t c I Tv) as Nc. set (x1 := visit (push x b c) c). assert (E1 : x1 = mkSearch (s_grid x) (mods x) (set1 (visited x) c true) (S (s_count x)) ((b, c) :: track x) b (downwind x)) by (unfold x1; rewrite visit_new; [reflexivity|exact Tv]).
  assert (F1 : fine x1) by (rewrite E1; split; [exact G|exact M]).
  destruct (modify_fine x1 (at_entry b i) native_consumed F1) as [F2 S2]; [cbn; discriminate|].
  assert (N1 : nth_error (near (s_grid x1) b) i = Some (c, native_unused)) by (rewrite E1; exact N). destruct (modify_at x1 b i native_consumed _ N1) as [A2 B2].
  set (x2 := modify x1 (at_entry b i) native_consumed) in *. destruct (modify_entry_spec x2 c b native_consumed F2) as (F3 & S3 & A3 & B3 & C3); [discriminate|]. set (x3 := modify_entry x2 c b native_consumed) in *.
  pose proof (same_trans _ _ _ S2 S3) as S13. exists (mkEdge b c k (flow_on k) :: t). apply inv_add; fold b; try assumption.
  - cbn. auto.
  - intros H. apply in_map_iff in H. destruct H as (e & Ee & He). pose proof (i_det _ _ I e He) as De. rewrite Ee in De. destruct De as [Ek _]. destruct (tree_parent _ _ _ _ _ (i_tree _ _ I) He) as [Pe Je]. rewrite <- Ek in Je.
    destruct (joins_ends _ _ _ _ _ _ _ J Je) as [[_ X]|[_ X]]; apply Nc; rewrite X; [apply in_or_app; left; apply in_map, He|exact Pe].
  - intros b' Hb. cbn in Hb. rewrite A3, A2, E1 in Hb. split; [exact Hb|discriminate].
  - intros b' c' D1 D2. cbn. rewrite B3 by exact D2. rewrite B2 by exact D1. rewrite E1. reflexivity.
  - intros k' _. cbn. apply C3. apply SYM, Isk.
  - intros b'. cbn. rewrite (e_visited _ _ S13), E1. cbn. apply set1_iff.
  - cbn. rewrite (e_count _ _ S13), E1. reflexivity.
  - cbn. rewrite (e_track _ _ S13), E1. reflexivity.
  - reflexivity.
Qed.
Lemma process_step x t i e use : inv x t -> nth_error (near (s_grid x) (current x)) i = Some e -> visited x (fst e) = false -> node (s_grid x) (if use : bool then current x else fst e) = node_measured ->
  exists t', inv (process_edge x i (fst e) use) t'.
Proof.
  intros I N Tv Nm. unfold process_edge. assert (Vc : visited x (current x) = true) by (apply (i_visited _ _ I), (i_current _ _ I)). set (b := current x) in *. set (c := fst e) in *. destruct (i_fine _ _ I) as [G M].
  destruct (good_entry _ _ _ _ G N) as [_ Isk]. fold c in Isk. destruct (SK _ _ Isk) as (k & J). pose proof (unvisited x t c I Tv) as Nc.
  set (z := if use then b else c) in *. assert (Iz : injection z = true) by (destruct (good_node _ z G) as [H|[_ H]]; [congruence|exact H]).
  rewrite (visit_old (push x b c) b) by exact Vc. set (x1 := visit (push x b c) c). assert (E1 : x1 = mkSearch (s_grid x) (mods x) (set1 (visited x) c true) (S (s_count x)) ((b, c) :: track x) b (downwind x)) by (unfold x1; rewrite visit_new; [reflexivity|exact Tv]).
  assert (F1 : fine x1) by (rewrite E1; split; [exact G|exact M]).
  destruct (modify_fine x1 (at_entry b i) with_from_sensor F1) as [F2 S2]; [cbn; discriminate|].
  assert (N1 : nth_error (near (s_grid x1) b) i = Some e) by (rewrite E1; exact N). destruct (modify_at x1 b i with_from_sensor _ N1) as [A2 B2]. fold c in B2.
  set (x2 := modify x1 (at_entry b i) with_from_sensor) in *. destruct (modify_entry_spec x2 c b with_to_sensor F2) as (F3 & S3 & A3 & B3 & C3); [discriminate|]. set (x3 := modify_entry x2 c b with_to_sensor) in *.
  destruct (modify_fine x3 (at_node z) no_measurement F3) as [F4 S4]; [right; reflexivity|]. destruct (modify_node x3 z no_measurement) as [A4 B4]. set (x4 := modify x3 (at_node z) no_measurement) in *.
  pose proof (same_trans _ _ _ (same_trans _ _ _ S2 S3) S4) as S14. destruct (joins_lt n n_branch branch_bus OK _ _ _ J) as (Hb & Hc & _). exists (mkEdge b c k (injection_at z) :: t). apply inv_add; fold b; try assumption.
  - cbn. split; [unfold z; destruct use; assumption|]. split; [exact Iz|]. unfold z. destruct use; [exists c; exact J|exists b; apply joins_sym, J].
  - exact (i_free _ _ I z Nm).
  - intros b' H. cbn in H. rewrite A4 in H. destruct (Nat.eqb_spec b' z) as [|D]; [discriminate|]. rewrite A3, A2, E1 in H. split; [exact H|congruence].
  - intros b' c' D1 D2. unfold first. cbn. rewrite B4. fold (first (s_grid x3) b' c'). rewrite B3 by exact D2. rewrite B2 by exact D1. rewrite E1. reflexivity.
  - discriminate.
  - intros b'. cbn. rewrite (e_visited _ _ S14), E1. cbn. apply set1_iff.
  - cbn. rewrite (e_count _ _ S14), E1. reflexivity.
  - cbn. rewrite (e_track _ _ S14), E1. reflexivity.
  - reflexivity.
Qed.
Lemma measured_of x t b : inv x t -> unmeasured (s_grid x) b = false -> node (s_grid x) b = node_measured.
Proof. intros I H. destruct (i_fine _ _ I) as [G _]. destruct (good_node _ b G) as [E|[E _]]; [|exact E]. unfold unmeasured in H. rewrite E in H. discriminate. Qed.
Lemma downwind_step x t y ok : inv x t -> try_downwind x (unmeasured (s_grid x) (current x)) = (y, ok) -> if ok then exists t', inv y t' else y = x.
Proof.
  intros I H. unfold try_downwind in H. destruct (negb (unmeasured (s_grid x) (current x)) && downwind x) eqn:U; [|injection H as <- <-; reflexivity].
  destruct (find_entry _ (near (s_grid x) (current x)) 0) as [[i [c s]]|] eqn:E; [|injection H as <- <-; reflexivity]. injection H as <- <-.
  destruct (find_entry_spec _ _ _ _ _ E) as (d & Ei & N & T & _). cbn in Ei. subst d. apply andb_true_iff in T. destruct T as [_ Tv]. apply negb_true_iff in Tv. apply andb_true_iff in U. destruct U as [U _]. apply negb_true_iff in U.
  apply (process_step x t i (c, s) true I N Tv). exact (measured_of x t _ I U).
Qed.
Lemma general_step x t y ok : inv x t -> try_general x (unmeasured (s_grid x) (current x)) = (y, ok) -> if ok then exists t', inv y t' else y = x.
Proof.
  intros I H. unfold try_general in H. destruct (find_entry _ (near (s_grid x) (current x)) 0) as [[i [c s]]|] eqn:E; [|injection H as <- <-; reflexivity]. injection H as <- <-.
  destruct (find_entry_spec _ _ _ _ _ E) as (d & Ei & N & T & _). cbn in Ei. subst d. apply andb_true_iff in T. destruct T as [Tv Tm]. cbn [fst] in *. apply negb_true_iff in Tv.
  apply (process_step x t i (c, s) _ I N Tv). cbn [fst]. destruct (unmeasured (s_grid x) c) eqn:Uc.
  - cbn in Tm. rewrite orb_false_r in Tm. rewrite Tm. cbn. apply (measured_of x t _ I), negb_true_iff, Tm.
  - rewrite andb_false_r. exact (measured_of x t _ I Uc).
Qed.
Lemma nodup_replace t c e a : NoDup (map source t) -> tree start t -> In e t -> child e = c -> source e = injection_at a -> ~ In (injection_at c) (map source t) -> a <> c ->
  NoDup (map source (map (replace c (injection_at c)) t)) /\ ~ In (injection_at a) (map source (map (replace c (injection_at c)) t)).
Proof.
  intros N T I C S Nc D.
  assert (X : forall s, In s (map source (map (replace c (injection_at c)) t)) -> s = injection_at c \/ (In s (map source t) /\ s <> injection_at a)).
  { intros s H. rewrite map_map in H. apply in_map_iff in H. destruct H as (e' & E & I'). unfold replace in E. destruct (Nat.eqb_spec (child e') c) as [Q|Q]; [left; symmetry; exact E|right]. rewrite <- E. split; [apply in_map, I'|].
    intros Z. assert (W : e = e'); [|congruence]. clear - N I I' S Z. induction t as [|e0 t IH]; [destruct I|]. cbn in N. inversion N as [|? ? N0 Nt]; subst. destruct I as [->|I], I' as [->|I'].
    - reflexivity.
    - destruct N0. rewrite S, <- Z. apply in_map, I'.
    - destruct N0. rewrite Z, <- S. apply in_map, I.
    - exact (IH Nt I I'). }
  split.
  - clear X S. clear I. revert N Nc. induction T as [|e0 t T IH P Ce J]; intros N Nc; cbn; [constructor|]. cbn in N. inversion N as [|? ? N0 Nt]; subst.
    assert (Nc' : ~ In (injection_at (child e)) (map source t)) by (intros H; apply Nc; right; exact H). constructor; [|exact (IH Nt Nc')].
    rewrite map_map. intros H. apply in_map_iff in H. destruct H as (e' & E & I'). unfold replace in E. destruct (Nat.eqb_spec (child e') (child e)) as [Q|Q], (Nat.eqb_spec (child e0) (child e)) as [Q0|Q0]; cbn in E.
    + apply Ce. apply in_or_app. left. rewrite Q0, <- Q. apply in_map, I'.
    + apply Nc. left. symmetry. exact E.
    + apply Nc'. rewrite <- E. apply in_map, I'.
    + apply N0. rewrite <- E. apply in_map, I'.
  - intros H. destruct (X _ H) as [E|[_ E]]; [injection E as E; contradiction|apply E; reflexivity].
Qed.
Lemma backtrack_step x t y ok : inv x t -> try_backtrack x = (y, ok) -> if ok then exists t', inv y t' else y = x.
Proof.
  intros I H. unfold try_backtrack in H. pose proof (i_path _ _ I) as P. destruct (track x) as [|[a c] r] eqn:Tr; [injection H as <- <-; reflexivity|]. destruct P as (Ec & (e & Ie & Pe & Ce) & P). subst c.
  assert (Da : a <> current x) by (rewrite <- Pe, <- Ce; exact (tree_distinct _ _ _ _ _ (i_tree _ _ I) Ie)). destruct (Nat.eqb_spec a (current x)) as [|_]; [contradiction|].
  set (x1 := mkSearch (s_grid x) (mods x) (visited x) (s_count x) r (current x) (downwind x)) in *. change (downwind x1) with (downwind x) in H. change (current x1) with (current x) in H. change (s_grid x1) with (s_grid x) in H.
  destruct (tree_parent _ _ _ _ _ (i_tree _ _ I) Ie) as [Pa Ja]. rewrite Pe in Pa.
  assert (MOVE : inv (move x1 a) t). { clear - I P Pa. destruct I. constructor; assumption. }
  destruct (downwind x && status_eqb (node (s_grid x) (current x)) node_measured) eqn:W; [|injection H as <- <-; exists t; exact MOVE].
  apply andb_true_iff in W. destruct W as [_ W]. apply status_eqb_eq in W. unfold reassign in H. change (s_grid x1) with (s_grid x) in H. set (b := current x) in *.
  change (fun e : nat * status => fst e =? a) with (toward a) in H.
  assert (CASE : find_entry (toward a) (near (s_grid x) b) 0 = None \/ exists i s, find_entry (toward a) (near (s_grid x) b) 0 = Some (i, (a, s)) /\ first (s_grid x) b a = Some (a, s)).
  { destruct (find_entry (toward a) (near (s_grid x) b) 0) as [[i [a' s]]|] eqn:E; [right|left; reflexivity]. destruct (find_entry_spec _ _ _ _ _ E) as (d & _ & _ & T & Fi). apply Nat.eqb_eq in T. cbn in T. subst a'. exists i, s. split; [reflexivity|exact Fi]. }
  assert (GO : first (s_grid x) b a <> Some (a, native_consumed) ->
    exists t', inv (move (modify_entry (modify_entry (modify (modify x1 (at_node a) node_measured) (at_node b) no_measurement) b a with_to_sensor) a b with_from_sensor) a) t').
  { intros Nf. destruct (source e) as [k|z] eqn:Se.
    { exfalso. apply Nf. pose proof (i_flow _ _ I e k Ie Se) as Q. rewrite Ce, Pe in Q. exact Q. }
    pose proof (i_det _ _ I e Ie) as De. rewrite Se in De. destruct De as (Hz & Iz & (c' & Jc)). assert (Z : z = a).
    { destruct (joins_ends _ _ _ _ _ _ _ Jc Ja) as [[Q _]|[Q _]]; [congruence|]. exfalso. apply (i_free _ _ I b W). replace (injection_at b) with (source e) by (rewrite Se, Q, Ce; reflexivity). apply in_map, Ie. }
    subst z. destruct (i_fine _ _ I) as [G M]. assert (F1 : fine x1) by (split; [exact G|exact M]).
    destruct (modify_fine x1 (at_node a) node_measured F1) as [F2 S2]; [left; split; [reflexivity|exact Iz]|]. destruct (modify_node x1 a node_measured) as [A2 B2]. set (x2 := modify x1 (at_node a) node_measured) in *.
    destruct (modify_fine x2 (at_node b) no_measurement F2) as [F3 S3]; [right; reflexivity|]. destruct (modify_node x2 b no_measurement) as [A3 B3]. set (x3 := modify x2 (at_node b) no_measurement) in *.
    destruct (modify_entry_spec x3 b a with_to_sensor F3) as (F4 & S4 & A4 & B4 & _); [discriminate|]. set (x4 := modify_entry x3 b a with_to_sensor) in *.
    destruct (modify_entry_spec x4 a b with_from_sensor F4) as (F5 & S5 & A5 & B5 & _); [discriminate|]. set (x5 := modify_entry x4 a b with_from_sensor) in *.
    pose proof (same_trans _ _ _ (same_trans _ _ _ S2 S3) (same_trans _ _ _ S4 S5)) as S15. exists (map (replace b (injection_at b)) t).
    assert (Nb : ~ In (injection_at b) (map source t)) by exact (i_free _ _ I b W).
    destruct (nodup_replace t b e a (i_nodup _ _ I) (i_tree _ _ I) Ie Ce Se Nb Da) as [ND NA].
    assert (NN : forall b', node (s_grid x5) b' = if b' =? b then no_measurement else if b' =? a then node_measured else node (s_grid x) b') by (intros b'; rewrite A5, A4, A3, A2; reflexivity).
    constructor; cbn.
    - exact F5.
    - apply replace_tree, (i_tree _ _ I).
    - intros e' H'. apply in_map_iff in H'. destruct H' as (e0 & <- & I0). unfold replace. destruct (Nat.eqb_spec (child e0) b) as [Q|Q]; [|exact (i_det _ _ I e0 I0)]. cbn.
      destruct (joins_lt n n_branch branch_bus OK _ _ _ (proj2 (tree_parent _ _ _ _ _ (i_tree _ _ I) I0))) as (_ & Hb & _). rewrite Q in Hb. split; [exact Hb|]. split.
      + destruct (good_node _ b G) as [X|[_ X]]; [congruence|exact X].
      + exists (parent e0). apply joins_sym. rewrite <- Q. exact (proj2 (tree_parent _ _ _ _ _ (i_tree _ _ I) I0)).
    - exact ND.
    - intros b' H'. rewrite NN in H'. destruct (Nat.eqb_spec b' b) as [|Db]; [discriminate|]. destruct (Nat.eqb_spec b' a) as [Q0|_]; [rewrite Q0; exact NA|]. intros Q. rewrite map_map in Q. apply in_map_iff in Q. destruct Q as (e0 & E0 & I0). unfold replace in E0.
      destruct (Nat.eqb_spec (child e0) b); [cbn in E0; injection E0 as E0; congruence|]. apply (i_free _ _ I b' H'). rewrite <- E0. apply in_map, I0.
    - intros e' k H' E'. apply in_map_iff in H'. destruct H' as (e0 & <- & I0). destruct (replace_same b (injection_at b) e0) as (R1 & R2 & _). rewrite R1, R2. unfold replace in E'. destruct (Nat.eqb_spec (child e0) b) as [|Q]; [discriminate|].
      rewrite B5, B4.
      + unfold first. rewrite B3, B2. exact (i_flow _ _ I e0 k I0 E').
      + left. exact Q.
      + destruct (Nat.eq_dec (child e0) a) as [Q1|Q1]; [|left; exact Q1]. right. intros Q2. exact (tree_two _ _ _ _ _ _ (i_tree _ _ I) Ie I0 ltac:(congruence) ltac:(congruence)).
    - intros b'. rewrite (e_visited _ _ S15), replace_children. exact (i_visited _ _ I b').
    - rewrite (e_count _ _ S15), map_length. exact (i_count _ _ I).
    - rewrite (e_track _ _ S15). cbn. apply path_more with t; [|exact P]. intros e0 I0. exists (replace b (injection_at b) e0). destruct (replace_same b (injection_at b) e0) as (R1 & R2 & _). split; [apply in_map, I0|split; assumption].
    - rewrite replace_children. exact Pa. }
  destruct CASE as [E|(i & s & E & Fi)]; rewrite E in H.
  - injection H as <- <-. apply GO. intros Q. unfold first in Q. apply find_some in Q. destruct Q as [Q T]. rewrite (find_entry_none _ _ _ E _ Q) in T. discriminate.
  - destruct s; injection H as <- <-; try (apply GO; rewrite Fi; discriminate). exists t. exact MOVE.
Qed.
Lemma inv_step x t y ok : inv x t -> search_step x = (y, ok) -> exists t', inv y t'.
Proof.
  intros I H. unfold search_step in H. destruct (try_native x) as [x1 ok1] eqn:E1. pose proof (native_step x t x1 ok1 I E1) as H1. destruct ok1; [injection H as <- <-; exact H1|]. subst x1.
  destruct (try_downwind x _) as [x2 ok2] eqn:E2. pose proof (downwind_step x t x2 ok2 I E2) as H2. destruct ok2; [injection H as <- <-; exact H2|]. subst x2.
  destruct (try_general x _) as [x3 ok3] eqn:E3. pose proof (general_step x t x3 ok3 I E3) as H3. destruct ok3; [injection H as <- <-; exact H3|]. subst x3.
  pose proof (backtrack_step x t y ok I H) as H4. destruct ok; [exact H4|]. subst y. exists t. exact I.
Qed.
Lemma inv_loop fuel : forall x t, inv x t -> exists t', inv (search_loop n fuel x) t'.
Proof.
  induction fuel as [|fuel IH]; intros x t I; cbn [search_loop]; [exists t; exact I|]. destruct (s_count x <? n); [|exists t; exact I]. destruct (search_step x) as [y ok] eqn:E. destruct (inv_step x t y ok I E) as (t' & I').
  destruct ok; [exact (IH y t' I')|exists t'; exact I'].
Qed.
Lemma search_sound g : good g -> good_mods (search_from n g start) /\ good (s_grid (search_from n g start)) /\ (s_count (search_from n g start) = n -> exists t, tree start t /\ (forall e, In e t -> determines (branch e) (source e)) /\ NoDup (map source t) /\ S (length t) = n).
Proof.
  intros G. unfold search_from. set (x0 := search_start g start). set (x := visit x0 start).
  assert (I : inv x []).
  { constructor; cbn; try (intros; contradiction).
    - split; [exact G|intros p s []].
    - constructor.
    - constructor.
    - intros b _ [].
    - intros b. unfold set1. destruct (Nat.eqb_spec b start); split; intros H; auto; [discriminate|destruct H as [H|[]]; congruence].
    - reflexivity.
    - reflexivity.
    - auto. }
  assert (E : search_step x0 = search_step x).
  { assert (V : visit x (current x) = x) by (apply visit_old; cbn; unfold set1; rewrite Nat.eqb_refl; reflexivity). unfold search_step.
    assert (N : try_native x0 = try_native x) by (unfold try_native; rewrite V; reflexivity). rewrite N. reflexivity. }
  destruct (max_iterations n g) as [|fuel].
  - cbn. split; [intros p s []|]. split; [exact G|]. intros Z. pose proof (ok_some _ _ OK). lia.
  - cbn [search_loop]. destruct (Nat.ltb_spec (s_count x0) n) as [_|L]; [|pose proof (ok_some _ _ OK); cbn in L; lia]. rewrite E. destruct (search_step x) as [y ok] eqn:Es. destruct (inv_step x [] y ok I Es) as (t & It).
    assert (R : exists t', inv (if ok then search_loop n fuel y else y) t') by (destruct ok; [exact (inv_loop fuel y t It)|exists t; exact It]). destruct R as (t' & R). destruct (i_fine _ _ R) as [G' M']. split; [exact M'|]. split; [exact G'|].
    intros C. exists t'. split; [exact (i_tree _ _ R)|]. split; [exact (i_det _ _ R)|]. split; [exact (i_nodup _ _ R)|]. rewrite <- (i_count _ _ R). exact C.
Qed.
Lemma rollback_good x : good (s_grid x) -> good_mods x -> good (rollback x).
Proof.
  unfold rollback, good_mods. intros G. generalize (mods x). intros l. revert G. generalize (s_grid x). induction l as [|[p s] l IH]; intros g G M; [exact G|]. cbn [fold_left fst snd]. apply IH; [apply put_good; [exact G|apply M; left; reflexivity]|].
  intros p' s' I. apply M. right. exact I.
Qed.
End Search.

Section Meshed.
Variables (n n_branch : nat) (branch_bus : nat -> bool -> option nat) (flow injection phasor : nat -> bool).
Hypothesis OK : grid_ok n branch_bus.
Local Notation joins := (ObservabilitySpec.joins n_branch branch_bus).
Local Notation scan_grid := (Observability.scan_grid n n_branch branch_bus flow injection).
Local Notation neighbours g b := (map fst (near g b)).

(** ** The neighbours *)
Definition entry_ok (b : nat) (e : nat * status) : Prop := (exists k, joins k b (fst e)) /\ (snd e = native_unused -> exists k, joins k b (fst e) /\ flow k = true).
Definition entries_ok (g : grid) : Prop := forall b e, In e (near g b) -> entry_ok b e.
Lemma scan_entry_ok b c ks : (forall k, In k ks -> joins k b c) -> forall e, In e (scan_entry flow c ks) -> entry_ok b e.
Proof.
  induction ks as [|k ks IH]; intros H e I; cbn in I; [destruct I|]. pose proof (H k (or_introl eq_refl)) as J. destruct (flow k) eqn:F.
  - destruct I as [<-|[]]. split; [exists k; exact J|intros _; exists k; split; [exact J|exact F]].
  - destruct I as [<-|I]; [split; [exists k; exact J|discriminate]|]. apply IH; [intros k' H'; apply H; right; exact H'|exact I].
Qed.
Lemma scan_ok : entries_ok scan_grid.
Proof.
  intros b e I. cbn in I. unfold scan_row in I. apply in_flat_map in I. destruct I as (c & _ & I). apply (scan_entry_ok b c (entry n_branch branch_bus b c)); [|exact I]. intros k H. apply (in_entry n_branch branch_bus) in H. exact H.
Qed.
Lemma add_reverse_ok b g e : entries_ok g -> entry_ok b e -> entries_ok (add_reverse b g e).
Proof.
  intros G [(k & J) F]. unfold add_reverse. destruct (existsb _ _); [exact G|]. intros b' e' I. cbn in I. destruct (Nat.eqb_spec b' (fst e)) as [->|]; [|exact (G b' e' I)].
  apply in_app_or in I. destruct I as [I|[<-|[]]]; [exact (G _ _ I)|]. split; cbn.
  - exists k. apply joins_sym, J.
  - intros U. destruct (F U) as (k' & J' & F'). exists k'. split; [apply joins_sym, J'|exact F'].
Qed.
Lemma add_reverse_more b g e c d : In d (neighbours g c) -> In d (neighbours (add_reverse b g e) c).
Proof. unfold add_reverse. destruct (existsb _ _); [auto|]. cbn. destruct (Nat.eqb_spec c (fst e)) as [->|]; [|auto]. rewrite map_app. intros I. apply in_or_app. left. exact I. Qed.
Lemma add_reverse_has b g e : In b (neighbours (add_reverse b g e) (fst e)).
Proof.
  unfold add_reverse. destruct (existsb (fun r : nat * status => fst r =? b) (near g (fst e))) eqn:E.
  - apply existsb_exists in E. destruct E as (r & I & Er). apply Nat.eqb_eq in Er. rewrite <- Er. apply in_map, I.
  - cbn. rewrite Nat.eqb_refl, map_app. apply in_or_app. right. left. reflexivity.
Qed.
Lemma add_reverse_only b g e c d : In d (neighbours (add_reverse b g e) c) -> In d (neighbours g c) \/ (c = fst e /\ d = b).
Proof.
  unfold add_reverse. destruct (existsb _ _); [auto|]. cbn. destruct (Nat.eqb_spec c (fst e)) as [->|]; [|auto]. rewrite map_app. intros I. apply in_app_or in I. destruct I as [I|[I|[]]]; [left; exact I|right]. cbn in I. auto.
Qed.
Lemma add_reverse_node b g e : node (add_reverse b g e) = node g. Proof. unfold add_reverse. destruct (existsb _ _); reflexivity. Qed.
(** the buses in [l] are neighbours of their neighbours *)
Definition mutual (l : list nat) (g : grid) : Prop := forall b c, In b l -> In c (neighbours g b) -> In b (neighbours g c).
Lemma complete_bus_spec b es : forall g, entries_ok g -> (forall e, In e es -> entry_ok b e /\ In (fst e) (neighbours g b)) ->
  let g' := fold_left (add_reverse b) es g in entries_ok g' /\ node g' = node g /\ (forall c d, In d (neighbours g c) -> In d (neighbours g' c)) /\
  (forall e, In e es -> In b (neighbours g' (fst e))) /\ (forall c d, In d (neighbours g' c) -> In d (neighbours g c) \/ (d = b /\ In c (neighbours g b))).
Proof.
  induction es as [|e es IH]; intros g G H; cbn [fold_left].
  { split; [exact G|]. split; [reflexivity|]. split; [auto|]. split; [intros e []|auto]. }
  destruct (H e (or_introl eq_refl)) as [E In_e]. destruct (IH (add_reverse b g e)) as (A & B & C & D & F).
  - apply add_reverse_ok; assumption.
  - intros e' I'. destruct (H e' (or_intror I')) as [E' In']. split; [exact E'|apply add_reverse_more, In'].
  - cbv zeta. split; [exact A|]. split; [rewrite B; apply add_reverse_node|]. split; [intros c d I; apply C, add_reverse_more, I|]. split.
    + intros e' [<-|I]; [apply C, add_reverse_has|exact (D e' I)].
    + intros c d I. destruct (F c d I) as [I'|[-> I']].
      * destruct (add_reverse_only _ _ _ _ _ I') as [I''|[-> ->]]; [left; exact I''|right; split; [reflexivity|exact In_e]].
      * destruct (add_reverse_only _ _ _ _ _ I') as [I''|[Q ->]]; [right; split; [reflexivity|exact I'']|]. exfalso. destruct E as [(k & J) _]. rewrite <- Q in J. destruct (joins_lt n n_branch branch_bus OK _ _ _ J) as (_ & _ & X). apply X. reflexivity.
Qed.
Lemma complete_spec l : forall done g, entries_ok g -> mutual done g -> let g' := fold_left complete_bus l g in entries_ok g' /\ node g' = node g /\ mutual (done ++ l) g'.
Proof.
  induction l as [|b l IH]; intros done g G M; cbn [fold_left]; [rewrite app_nil_r; split; [exact G|split; [reflexivity|exact M]]|].
  destruct (complete_bus_spec b (near g b) g G) as (A & B & C & D & F); [intros e I; split; [exact (G b e I)|apply in_map, I]|]. fold (complete_bus g b) in *.
  assert (M' : mutual (done ++ [b]) (complete_bus g b)).
  { intros x c Hx I. destruct (F x c I) as [I'|[-> I']].
    - apply in_app_or in Hx. destruct Hx as [Hx|[<-|[]]]; [apply C; exact (M x c Hx I')|]. apply in_map_iff in I'. destruct I' as (e & <- & Ie). exact (D e Ie).
    - apply C. exact I'. }
  destruct (IH (done ++ [b]) (complete_bus g b) A M') as (A2 & B2 & M2). cbv zeta. split; [exact A2|]. split; [rewrite B2; exact B|]. rewrite <- app_assoc in M2. exact M2.
Qed.
Definition found : grid := complete n scan_grid.
Lemma found_spec : entries_ok found /\ node found = node scan_grid /\ forall b c, In c (neighbours found b) -> In b (neighbours found c).
Proof.
  destruct (complete_spec (seq 0 n) [] scan_grid scan_ok) as (A & B & M); [intros b c []|]. split; [exact A|]. split; [exact B|]. intros b c I. apply M; [|exact I]. cbn. apply in_seq.
  apply in_map_iff in I. destruct I as (e & <- & I). destruct (A b e I) as [(k & J) _]. destruct (joins_lt n n_branch branch_bus OK _ _ _ J) as (L & _). lia.
Qed.
Lemma found_good : good n_branch branch_bus flow injection (fun b => neighbours found b) found.
Proof.
  destruct found_spec as (A & B & _). split; [reflexivity|]. intros [b|b i]; cbn.
  - rewrite B. cbn. destruct (injection b); auto.
  - intros U c N. assert (L : i < length (near found b)) by (rewrite <- (map_length fst); apply nth_error_Some; congruence). pose proof (nth_In (near found b) (0, not_connected) L) as I. destruct (A b _ I) as [_ X]. specialize (X U).
    rewrite (nth_error_nth' _ 0) in N by (rewrite map_length; exact L). change 0 with (fst (0, not_connected)) in N. rewrite map_nth in N. injection N as <-. exact X.
Qed.
Lemma candidates_sound l : forall g, good n_branch branch_bus flow injection (fun b => neighbours found b) g -> (forall b, In b l -> b < n) -> try_candidates n g l = true -> observable n n_branch branch_bus flow injection phasor.
Proof.
  destruct found_spec as (A & B & SYM). assert (SK : forall b c, In c (neighbours found b) -> exists k, joins k b c) by (intros b c I; apply in_map_iff in I; destruct I as (e & <- & I); exact (proj1 (A b e I))).
  induction l as [|b l IH]; intros g G L H; cbn [try_candidates] in H; [discriminate|]. destruct (search_sound n n_branch branch_bus flow injection OK _ SK SYM b (L b (or_introl eq_refl)) g G) as (M & G' & T). destruct (s_count (search_from n g b) =? n) eqn:E.
  - apply Nat.eqb_eq in E. destruct (T E) as (t & Tt & D & N & Len). apply (linked_observable n n_branch branch_bus flow injection phasor (used t)).
    + intros k s I. unfold used in I. apply in_map_iff in I. destruct I as (e & Ee & I). injection Ee as <- <-. exact (D e I).
    + unfold used. rewrite map_map. exact N.
    + apply (all_linked n n_branch branch_bus flow injection phasor b t Tt); [|exact Len]. intros c I. apply in_app_or in I. destruct I as [I|[<-|[]]]; [|apply L; left; reflexivity]. unfold children in I. apply in_map_iff in I. destruct I as (e & <- & I).
      destruct (tree_parent _ _ _ _ _ Tt I) as [_ J]. exact (proj1 (proj2 (joins_lt n n_branch branch_bus OK _ _ _ J))).
  - apply (IH (rollback (search_from n g b))); [apply rollback_good; assumption|intros c I; apply L; right; exact I|exact H].
Qed.
Lemma meshed_sound : meshed_ok n n_branch branch_bus flow injection = true -> observable n n_branch branch_bus flow injection phasor.
Proof.
  intros H. apply (candidates_sound (starting_nodes n found) found found_good); [|exact H]. intros b I. pose proof (ok_some _ _ OK) as P. assert (W : forall f, In b (filter f (seq 0 n)) -> b < n) by (intros f Hf; apply filter_In in Hf; destruct Hf as [Hf _]; apply in_seq in Hf; lia).
  unfold starting_nodes in I. set (l1 := filter _ (seq 0 n)) in I. assert (I2 : In b [0] \/ In b l1 \/ In b (filter (unmeasured found) (seq 0 n))).
  { destruct l1 as [|a l1]; [|right; left; exact I]. destruct (filter (unmeasured found) (seq 0 n)) as [|a l2]; [left; exact I|right; right; exact I]. }
  destruct I2 as [[<-|[]]|[I2|I2]]; [exact P|exact (W _ I2)|exact (W _ I2)].
Qed.
End Meshed.
