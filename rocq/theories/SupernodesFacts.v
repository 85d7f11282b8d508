(** Facts about the search for link components and the collection of topological nodes. *)
From Verif Require Import Common Topology TopologySpec TopologyDfs TopologyFacts Supernodes SupernodesSpec.

Section Flood.
Variable es : list (nat * nat).
Variable N : nat.
Hypothesis es_lt : forall x y, In (x, y) es -> y < N.
Hypothesis es_sym : forall x y, In (x, y) es -> In (y, x) es.
Inductive reach (x : nat) : nat -> Prop :=
| reach_nil : reach x x
| reach_step y z : reach x y -> In (y, z) es -> reach x z.
Lemma reach_trans x y z : reach x y -> reach y z -> reach x z.
Proof. intros H. induction 1; auto. now apply reach_step with y0. Qed.
Lemma reach_sym x y : reach x y -> reach y x.
Proof.
  induction 1; [apply reach_nil|]. apply reach_trans with y; auto. apply reach_step with z; [apply reach_nil|auto].
Qed.
Lemma targets_In u v : In v (targets es u) <-> In (u, v) es.
Proof.
  unfold targets. rewrite in_map_iff. split.
  - intros ((a, b) & <- & H). apply filter_In in H as [H E]. apply Nat.eqb_eq in E. cbn [fst snd] in *. now subst.
  - intros H. exists (u, v). split; auto. apply filter_In. split; auto. apply Nat.eqb_refl.
Qed.
Definition unlabelled (lab : nat -> option nat) : nat := length (filter (fun x => match lab x with None => true | _ => false end) (seq 0 N)).
Definition extends (lab lab' : nat -> option nat) : Prop := forall x, lab x <> None -> lab' x = lab x.
Lemma extends_unlabelled lab lab' : extends lab lab' -> unlabelled lab' <= unlabelled lab.
Proof. intros H. apply filter_length_mono. intros x. destruct (lab x) eqn:E; auto. rewrite (H x); rewrite E; congruence. Qed.
Lemma unlabelled_fupd u c lab : lab u = None -> u < N -> unlabelled (fupd u (Some c) lab) < unlabelled lab.
Proof.
  intros Hu Hl. apply filter_length_strict with u.
  - intros x. destruct (Nat.eq_dec x u) as [->|Hn]; [rewrite fupd_eq; discriminate|now rewrite fupd_neq].
  - apply in_seq. lia.
  - now rewrite Hu.
  - now rewrite fupd_eq.
Qed.

(** what a search from [u] does *)
Definition flooded (c u : nat) (lab lab' : nat -> option nat) : Prop :=
  extends lab lab' /\
  (forall x, lab x = None -> lab' x = None \/ lab' x = Some c /\ reach u x) /\
  (forall x y, lab x = None -> lab' x <> None -> In (x, y) es -> lab' y <> None).
Lemma flood_spec c fuel : forall u lab, lab u = None -> u < N -> unlabelled lab <= fuel ->
  exists lab', flood fuel es c u lab = Some lab' /\ flooded c u lab lab' /\ lab' u = Some c.
Proof.
  induction fuel as [|fuel IH]; intros u lab Hu HuN Hf.
  { pose proof (unlabelled_fupd u c lab Hu HuN). lia. }
  cbn [flood]. pose proof (unlabelled_fupd u c lab Hu HuN) as Hlt.
  set (f := fun lab v => match lab v with Some _ => Some lab | None => flood fuel es c v lab end).
  assert (HL : forall l lab1, (forall v, In v l -> In (u, v) es) -> extends (fupd u (Some c) lab) lab1 ->
     exists lab2, foldM_opt f l lab1 = Some lab2 /\ flooded c u lab1 lab2 /\ forall v, In v l -> lab2 v <> None).
  { induction l as [|v l IHl]; intros lab1 Hl Hx.
    { exists lab1. refine (conj eq_refl (conj (conj _ (conj _ _)) _)); [intros x; auto|auto|intros x y H1 H2; congruence|intros v []]. }
    assert (Hv : In (u, v) es) by (apply Hl; left; auto).
    assert (H1 : exists lab2, f lab1 v = Some lab2 /\ flooded c u lab1 lab2 /\ lab2 v <> None).
    { unfold f. destruct (lab1 v) as [d|] eqn:Ev.
      - exists lab1. refine (conj eq_refl (conj (conj _ (conj _ _)) _)); [intros x; auto|auto|intros x y H1 H2; congruence|congruence].
      - destruct (IH v lab1 Ev (es_lt _ _ Hv)) as (lab2 & E2 & (F1 & F2 & F3) & F4); [pose proof (extends_unlabelled _ _ Hx); lia|].
        exists lab2. refine (conj E2 (conj (conj F1 (conj _ F3)) _)); [|congruence]. intros x Hxn. destruct (F2 x Hxn) as [|[]]; auto. right. split; auto.
        apply reach_trans with v; auto. apply reach_step with u; [apply reach_nil|auto]. }
    destruct H1 as (lab2 & E2 & (F1 & F2 & F3) & F4).
    destruct (IHl lab2) as (lab3 & E3 & (G1 & G2 & G3) & G4).
    { intros w Hw. apply Hl. right; auto. }
    { intros x Hxn. rewrite <- (Hx x Hxn). apply F1. rewrite (Hx x Hxn). exact Hxn. }
    exists lab3. cbn [foldM_opt]. rewrite E2. refine (conj E3 (conj (conj _ (conj _ _)) _)).
    - intros x Hxn. rewrite (G1 x), (F1 x); auto. rewrite (F1 x); auto.
    - intros x Hxn. destruct (F2 x Hxn) as [Hn|[Hs Hr]]; [destruct (G2 x Hn); auto|]. right. split; auto. rewrite (G1 x); congruence.
    - intros x y Hxn H3 He. destruct (lab2 x) as [d|] eqn:E.
      + rewrite (G1 y); apply (F3 x y); auto; congruence.
      + apply (G3 x y); auto.
    - intros w [<-|Hw]; auto. rewrite (G1 v); auto. }
  destruct (HL (targets es u) (fupd u (Some c) lab)) as (lab2 & E2 & (F1 & F2 & F3) & F4).
  { intros v. apply targets_In. }
  { intros x; auto. }
  exists lab2. assert (E : lab2 u = Some c) by (rewrite (F1 u); rewrite fupd_eq; congruence).
  refine (conj E2 (conj (conj _ (conj _ _)) E)).
  - intros x Hx. assert (x <> u) by congruence. rewrite (F1 x); rewrite fupd_neq; auto.
  - intros x Hx. destruct (Nat.eq_dec x u) as [->|Hn]; [right; split; [auto|apply reach_nil]|]. apply F2. now rewrite fupd_neq.
  - intros x y Hx Hs He. destruct (Nat.eq_dec x u) as [->|Hn]; [apply F4; now apply targets_In|]. apply (F3 x y); auto. now rewrite fupd_neq.
Qed.

(** the state between two start vertices *)
Record comps (k : nat) (lab : nat -> option nat) (n : nat) : Prop := {
  cp_done : forall x, x < k -> lab x <> None;
  cp_range : forall x c, lab x = Some c -> c < n /\ x < N;
  cp_closed : forall x y c, lab x = Some c -> In (x, y) es -> lab y = Some c;
  cp_same : forall x y c, lab x = Some c -> lab y = Some c -> reach x y;
  cp_used : forall c, c < n -> exists x, lab x = Some c }.
Lemma comps_step k lab n : comps k lab n -> k < N -> exists lab' n', start_vertex (S N) es (lab, n) k = Some (lab', n') /\ comps (S k) lab' n'.
Proof.
  intros [H1 H2 H3 H4 H5] Hk. unfold start_vertex. cbn [fst snd]. destruct (lab k) as [d|] eqn:Ek.
  { exists lab, n. split; auto. constructor; auto. intros x Hx. destruct (Nat.eq_dec x k) as [->|]; [congruence|]. apply H1. lia. }
  destruct (flood_spec n (S N) k lab Ek Hk) as (lab' & E & (F1 & F2 & F3) & F4).
  { unfold unlabelled. pose proof (filter_length_mono (fun x => match lab x with None => true | _ => false end) (fun _ => true) (seq 0 N)) as H.
    assert (Hall : filter (fun _ : nat => true) (seq 0 N) = seq 0 N) by (generalize (seq 0 N); intros l; induction l; simpl; congruence).
    rewrite Hall, seq_length in H. specialize (H ltac:(auto)). lia. }
  rewrite E. exists lab', (S n). split; auto.
  (* a vertex is either labelled before or got the new label *)
  assert (Hcase : forall x c, lab' x = Some c -> (lab x = Some c /\ c < n) \/ (lab x = None /\ c = n /\ reach k x)).
  { intros x c Hx. destruct (lab x) as [d|] eqn:Ex.
    - left. rewrite (F1 x) in Hx by congruence. split; [congruence|]. destruct (H2 x c); congruence.
    - right. destruct (F2 x Ex) as [|[]]; [congruence|]. refine (conj eq_refl (conj _ _)); [congruence|auto]. }
  constructor.
  - intros x Hx. destruct (Nat.eq_dec x k) as [->|]; [congruence|]. rewrite (F1 x); apply H1; lia.
  - intros x c Hx. destruct (Hcase x c Hx) as [[Hl Hn]|(Hl & -> & Hr)]; [destruct (H2 x c Hl); lia|]. split; [lia|].
    inversion Hr; subst; auto. eapply es_lt; eauto.
  - intros x y c Hx He. destruct (Hcase x c Hx) as [[Hl Hn]|(Hl & -> & Hr)].
    + rewrite (F1 y); rewrite (H3 x y c Hl He); congruence.
    + assert (Hy : lab' y <> None) by (apply (F3 x y); auto; congruence). destruct (lab' y) as [d|] eqn:Ey; [|congruence].
      destruct (Hcase y d Ey) as [[Hl' Hn]|(_ & -> & _)]; auto. pose proof (H3 y x d Hl' (es_sym _ _ He)). congruence.
  - intros x y c Hx Hy. destruct (Hcase x c Hx) as [[Hl Hn]|(Hl & -> & Hr)], (Hcase y _ Hy) as [[Hl' Hn']|(Hl' & ? & Hr')]; try lia.
    + now apply (H4 x y c).
    + apply reach_trans with k; auto. now apply reach_sym.
  - intros c Hc. destruct (Nat.eq_dec c n) as [->|]; [exists k; auto|]. destruct (H5 c) as (x & Hx); [lia|]. exists x. rewrite (F1 x); congruence.
Qed.
Lemma components_ok : exists lab n, connected_components N es = Some (lab, n) /\ comps N lab n.
Proof.
  unfold connected_components.
  assert (H : forall m k lab n, comps k lab n -> k + m = N -> exists lab' n', foldM_opt (start_vertex (S N) es) (seq k m) (lab, n) = Some (lab', n') /\ comps N lab' n').
  { induction m as [|m IH]; intros k lab n Hc E.
    - exists lab, n. split; auto. replace N with k by lia. auto.
    - destruct (comps_step k lab n Hc) as (lab' & n' & E' & Hc'); [lia|]. cbn [seq foldM_opt]. rewrite E'. apply IH; auto. lia. }
  apply (H N 0 (fun _ => None) 0); [|lia]. constructor; try discriminate; try lia.
Qed.
End Flood.

(** ** collection of the topological nodes *)
Section Collect.
Variable mp : list nat.
Variable n : nat.
Hypothesis mp_lt : forall x g, nth_error mp x = Some g -> g < n.

(** after the first [k] nodes *)
Record nodes_inv (k : nat) (s : list topo_node * list (nat * nat)) : Prop := {
  ni_len : length (fst s) = n;
  ni_links : forall g, user_links (node_of (fst s) g) = [];
  ni_coup : length (snd s) = k;
  ni_to : forall x g p, nth_error (snd s) x = Some (g, p) -> nth_error mp x = Some g /\ nth_error (user_nodes (node_of (fst s) g)) p = Some x;
  ni_from : forall g p x, nth_error (user_nodes (node_of (fst s) g)) p = Some x -> nth_error (snd s) x = Some (g, p) }.
Lemma node_of_upd l g tn g' : g < length l -> node_of (upd g tn l) g' = if g' =? g then tn else node_of l g'.
Proof.
  intros H. unfold node_of. destruct (Nat.eqb_spec g' g) as [->|Hn].
  - apply nth_error_nth. now apply nth_error_upd_eq.
  - destruct (nth_error l g') as [a|] eqn:E.
    + rewrite (nth_error_nth _ _ _ E). apply nth_error_nth. now rewrite nth_error_upd_neq by auto.
    + pose proof E as E'. apply nth_error_None in E'. rewrite !nth_overflow; auto. rewrite upd_length. auto.
Qed.
Lemma add_node_inv k s g : nodes_inv k s -> nth_error mp k = Some g -> nodes_inv (S k) (add_node s (k, g)).
Proof.
  intros [H1 H2 H3 H4 H5] Hg. pose proof (mp_lt _ _ Hg) as Hlt. rewrite <- H1 in Hlt. unfold add_node. cbn [fst snd].
  set (tn := node_of (fst s) g).
  constructor; cbn [fst snd].
  - rewrite upd_length. auto.
  - intros g'. rewrite node_of_upd by auto. destruct (g' =? g); auto. cbn [user_links]. apply H2.
  - rewrite app_length. simpl. lia.
  - intros x g' p Hx. destruct (Nat.eq_dec x k) as [->|Hn].
    + rewrite nth_error_app2 in Hx by lia. rewrite H3, Nat.sub_diag in Hx. injection Hx as <- <-. split; auto.
      rewrite node_of_upd by auto. rewrite Nat.eqb_refl. cbn [user_nodes]. rewrite nth_error_app2 by lia. now rewrite Nat.sub_diag.
    + assert (Hlx : x < length (snd s)).
      { assert (Hs : nth_error (snd s ++ [(g, length (user_nodes tn))]) x <> None) by congruence. apply nth_error_Some in Hs. rewrite app_length in Hs. simpl in Hs. lia. }
      rewrite nth_error_app1 in Hx by auto. destruct (H4 x g' p Hx) as [H6 H7]. split; auto. rewrite node_of_upd by auto.
      destruct (Nat.eqb_spec g' g) as [->|]; auto. cbn [user_nodes]. rewrite nth_error_app1; auto. apply nth_error_Some. unfold tn. congruence.
  - intros g' p x Hx. rewrite node_of_upd in Hx by auto.
    assert (Hold : forall g' p x, nth_error (user_nodes (node_of (fst s) g')) p = Some x -> nth_error (snd s ++ [(g, length (user_nodes tn))]) x = Some (g', p)).
    { intros g0 p0 x0 H0. pose proof (H5 _ _ _ H0) as H6. rewrite nth_error_app1; auto. apply nth_error_Some. congruence. }
    destruct (Nat.eqb_spec g' g) as [->|]; [|auto]. cbn [user_nodes] in Hx. fold tn in Hx.
    destruct (Nat.lt_ge_cases p (length (user_nodes tn))) as [Hp|Hp].
    + rewrite nth_error_app1 in Hx by auto. auto.
    + rewrite nth_error_app2 in Hx by auto. destruct (p - length (user_nodes tn)) as [|q] eqn:Eq; [|destruct q; discriminate].
      injection Hx as <-. rewrite nth_error_app2 by lia. rewrite H3, Nat.sub_diag. simpl. f_equal. f_equal. lia.
Qed.
Lemma nodes_ok : nodes_inv (length mp) (fold_left add_node (combine (seq 0 (length mp)) mp) (repeat (mkTopoNode [] []) n, [])).
Proof.
  assert (H : forall l pre s, mp = pre ++ l -> nodes_inv (length pre) s -> nodes_inv (length pre + length l) (fold_left add_node (combine (seq (length pre) (length l)) l) s)).
  { induction l as [|g l IH]; intros pre s El Hi; simpl; [now rewrite Nat.add_0_r|].
    specialize (IH (pre ++ [g])). rewrite app_length in IH. simpl in IH. rewrite Nat.add_1_r in IH.
    replace (length pre + S (length l)) with (S (length pre) + length l) by lia. apply IH.
    - rewrite <- app_assoc. exact El.
    - apply add_node_inv; auto. rewrite El, nth_error_app2 by lia. now rewrite Nat.sub_diag. }
  apply (H mp []); auto. constructor; cbn [fst snd length]; auto.
  - apply repeat_length.
  - intros g. unfold node_of. destruct (Nat.lt_ge_cases g n).
    + rewrite (nth_error_nth _ _ _ (nth_error_repeat (mkTopoNode [] []) H0)). auto.
    + rewrite nth_overflow; auto. now rewrite repeat_length.
  - intros [|x]; discriminate.
  - intros g p x Hx. exfalso. assert (E : user_nodes (node_of (repeat (mkTopoNode [] []) n) g) = []).
    { unfold node_of. destruct (Nat.lt_ge_cases g n).
      + rewrite (nth_error_nth _ _ _ (nth_error_repeat (mkTopoNode [] []) H0)). auto.
      + rewrite nth_overflow; auto. now rewrite repeat_length. }
    rewrite E in Hx. destruct p; discriminate.
Qed.
End Collect.

Section Links.
Variable mp : list nat.
Variable n : nat.
Variable all : list ((nat * nat) * (bool * bool)).
Hypothesis mp_lt : forall x, x < length mp -> at_node mp x < n.
Hypothesis all_lt : forall k f t st, nth_error all k = Some ((f, t), st) -> f < length mp /\ t < length mp.
Definition place (l : (nat * nat) * (bool * bool)) : option nat :=
  let '((f, t), (cf, ct)) := l in link_topo_node mp (conn_end cf f) (conn_end ct t).
Definition ends (l : (nat * nat) * (bool * bool)) : user_link :=
  let '((f, t), (cf, ct)) := l in (conn_end cf f, conn_end ct t).

Variable nodes : list topo_node.
Hypothesis nodes_len : length nodes = n.
Hypothesis nodes_links : forall g, user_links (node_of nodes g) = [].

Record links_inv (k : nat) (s : list topo_node * list (option (nat * nat))) : Prop := {
  li_len : length (fst s) = n;
  li_nodes : forall g, user_nodes (node_of (fst s) g) = user_nodes (node_of nodes g);
  li_coup : length (snd s) = k;
  li_to : forall j l, j < k -> nth_error all j = Some l ->
    match place l with
    | None => nth_error (snd s) j = Some None
    | Some g => exists p, nth_error (snd s) j = Some (Some (g, p)) /\ nth_error (user_links (node_of (fst s) g)) p = Some (ends l)
    end;
  li_from : forall g p u, nth_error (user_links (node_of (fst s) g)) p = Some u -> exists j, nth_error (snd s) j = Some (Some (g, p));
  li_bound : forall j g p, nth_error (snd s) j = Some (Some (g, p)) -> p < length (user_links (node_of (fst s) g));
  li_once : forall j j' gp, nth_error (snd s) j = Some (Some gp) -> nth_error (snd s) j' = Some (Some gp) -> j = j' }.
Lemma place_lt k l g : nth_error all k = Some l -> place l = Some g -> g < n.
Proof.
  destruct l as ((f, t), (cf, ct)). intros Hl. destruct (all_lt _ _ _ _ Hl) as [H1 H2]. unfold place, link_topo_node, conn_end.
  destruct cf; [intros [= <-]; auto|]. destruct ct; simpl; [intros [= <-]; auto|discriminate].
Qed.
Lemma add_link_inv k s l : links_inv k s -> nth_error all k = Some l -> links_inv (S k) (add_link mp s l).
Proof.
  intros [H1 H2 H3 H4 H5 H6 H7] Hl. pose proof (place_lt k l) as Hpl.
  assert (Hsnoc : forall (o : option (nat * nat)) j v, nth_error (snd s ++ [o]) j = Some v -> nth_error (snd s) j = Some v \/ (j = k /\ v = o)).
  { intros o j v Hj. destruct (Nat.lt_ge_cases j (length (snd s))) as [Hlt|Hge]; [left; now rewrite nth_error_app1 in Hj by auto|right].
    rewrite nth_error_app2 in Hj by auto. destruct (j - length (snd s)) as [|q] eqn:Eq; [|destruct q; discriminate]. injection Hj as <-. split; auto. lia. } destruct l as ((f, t), (cf, ct)). unfold add_link.
  change (link_topo_node mp (conn_end cf f) (conn_end ct t)) with (place ((f, t), (cf, ct))).
  destruct (place (f, t, (cf, ct))) as [g|] eqn:Ep.
  - assert (Hlt : g < length (fst s)) by (rewrite H1; apply (Hpl g Hl eq_refl)). set (tn := node_of (fst s) g).
    constructor; cbn [fst snd].
    + rewrite upd_length. auto.
    + intros g'. rewrite node_of_upd by auto. destruct (Nat.eqb_spec g' g) as [->|]; [cbn [user_nodes]|]; apply H2.
    + rewrite app_length. simpl. lia.
    + intros j l Hj Hjl. destruct (Nat.eq_dec j k) as [->|Hn].
      * rewrite Hl in Hjl. injection Hjl as <-. rewrite Ep. exists (length (user_links tn)). split.
        -- rewrite nth_error_app2 by lia. rewrite H3, Nat.sub_diag. reflexivity.
        -- rewrite node_of_upd by auto. rewrite Nat.eqb_refl. cbn [user_links]. rewrite nth_error_app2 by lia. now rewrite Nat.sub_diag.
      * assert (Hjk : j < k) by lia. specialize (H4 j l Hjk Hjl). destruct (place l) as [g'|].
        -- destruct H4 as (p & E1 & E2). exists p. split; [rewrite nth_error_app1; [auto|lia]|]. rewrite node_of_upd by auto.
           destruct (Nat.eqb_spec g' g) as [->|]; auto. cbn [user_links]. rewrite nth_error_app1; auto. apply nth_error_Some. unfold tn. congruence.
        -- rewrite nth_error_app1; [auto|lia].
    + assert (Hold : forall g' p u, nth_error (user_links (node_of (fst s) g')) p = Some u -> exists j, nth_error (snd s ++ [Some (g, length (user_links tn))]) j = Some (Some (g', p))).
      { intros g' p u Hu. destruct (H5 g' p u Hu) as (j & Hj). exists j. rewrite nth_error_app1; auto. apply nth_error_Some. congruence. }
      intros g' p u Hu. rewrite node_of_upd in Hu by auto. destruct (Nat.eqb_spec g' g) as [->|]; [|eauto]. cbn [user_links] in Hu.
      destruct (Nat.lt_ge_cases p (length (user_links tn))) as [Hp|Hp].
      * rewrite nth_error_app1 in Hu by auto. eauto.
      * fold tn in Hu. rewrite nth_error_app2 in Hu by auto. destruct (p - length (user_links tn)) as [|q] eqn:Eq; [|destruct q; discriminate].
        exists k. rewrite nth_error_app2 by lia. rewrite H3, Nat.sub_diag. cbn [nth_error]. repeat f_equal. lia.
    + intros j g' p Hj. rewrite node_of_upd by auto. apply Hsnoc in Hj as [Hj|[_ [= -> ->]]].
      * apply H6 in Hj. destruct (Nat.eqb_spec g' g) as [->|]; auto. cbn [user_links]. rewrite app_length. fold tn in Hj. lia.
      * rewrite Nat.eqb_refl. cbn [user_links]. rewrite app_length. simpl. lia.
    + intros j j' [g' p'] Hj Hj'. apply Hsnoc in Hj, Hj'. destruct Hj as [Hj|[-> [= -> ->]]], Hj' as [Hj'|[-> E]]; auto.
      * eauto.
      * injection E as -> ->. apply H6 in Hj. fold tn in Hj. lia.
      * apply H6 in Hj'. fold tn in Hj'. lia.
  - constructor; cbn [fst snd]; auto.
    + rewrite app_length. simpl. lia.
    + intros j l Hj Hjl. destruct (Nat.eq_dec j k) as [->|Hn].
      * rewrite Hl in Hjl. injection Hjl as <-. rewrite Ep. rewrite nth_error_app2 by lia. rewrite H3, Nat.sub_diag. reflexivity.
      * assert (Hjk : j < k) by lia. specialize (H4 j l Hjk Hjl). destruct (place l) as [g'|].
        -- destruct H4 as (p & E1 & E2). exists p. split; [rewrite nth_error_app1; [auto|lia]|auto].
        -- rewrite nth_error_app1; [auto|lia].
    + intros g p u Hu. destruct (H5 g p u Hu) as (j & Hj). exists j. rewrite nth_error_app1; auto. apply nth_error_Some. congruence.
    + intros j g p Hj. apply Hsnoc in Hj as [Hj|[_ Hj]]; [eauto|discriminate].
    + intros j j' gp Hj Hj'. apply Hsnoc in Hj, Hj'. destruct Hj as [Hj|[_ Hj]], Hj' as [Hj'|[_ Hj']]; try discriminate. eauto.
Qed.
Lemma links_ok : links_inv (length all) (fold_left (add_link mp) all (nodes, [])).
Proof.
  assert (H : forall l pre s, all = pre ++ l -> links_inv (length pre) s -> links_inv (length pre + length l) (fold_left (add_link mp) l s)).
  { induction l as [|a l IH]; intros pre s El Hi; simpl; [now rewrite Nat.add_0_r|].
    specialize (IH (pre ++ [a])). rewrite app_length in IH. simpl in IH. rewrite Nat.add_1_r in IH.
    replace (length pre + S (length l)) with (S (length pre) + length l) by lia. apply IH.
    - rewrite <- app_assoc. exact El.
    - apply add_link_inv; auto. rewrite El, nth_error_app2 by lia. now rewrite Nat.sub_diag. }
  apply (H all []); auto. constructor; cbn [fst snd length]; auto; [lia| | |].
  - intros g p u Hu. rewrite nodes_links in Hu. destruct p; discriminate.
  - intros [|j]; discriminate.
  - intros [|j]; discriminate.
Qed.
End Links.
