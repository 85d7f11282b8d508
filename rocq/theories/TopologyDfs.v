(** Facts about the depth first search. *)
From Verif Require Import Common NatMap SparseOrdering Topology.

Lemma fupd_eq {A} k (v : A) f : fupd k v f k = v.
Proof. unfold fupd. now rewrite Nat.eqb_refl. Qed.
Lemma fupd_neq {A} k (v : A) f x : x <> k -> fupd k v f x = f x.
Proof. unfold fupd. intros H. destruct (Nat.eqb_spec x k); congruence. Qed.

Definition anc (pr : nat -> nat) (x y : nat) : Prop := exists k, Nat.iter k pr x = y.
Lemma iter_comm pr k (x : nat) : Nat.iter k pr (pr x) = pr (Nat.iter k pr x).
Proof. induction k; simpl; congruence. Qed.
Lemma anc_refl pr x : anc pr x x.
Proof. exists 0. reflexivity. Qed.
Lemma anc_step pr x y : anc pr (pr x) y -> anc pr x y.
Proof. intros [k H]. exists (S k). simpl. now rewrite <- iter_comm. Qed.
Lemma anc_inv pr x y : anc pr x y -> x = y \/ anc pr (pr x) y.
Proof. intros [[|k] H]; [left; auto|right]. exists k. simpl in H. now rewrite iter_comm. Qed.

Lemma NoDup_split_unique {A} (l : list A) x a b : NoDup l -> forall c d, l = a ++ x :: b -> l = c ++ x :: d -> a = c /\ b = d.
Proof.
  intros HN c d -> . revert c HN. induction a as [|y a IH]; intros [|z c] HN E; simpl in *; injection E.
  - auto.
  - intros -> <-. inversion HN; subst. exfalso. apply H1. apply in_or_app. right. left; auto.
  - intros <- ->. inversion HN; subst. exfalso. apply H1. apply in_or_app. right. left; auto.
  - intros E' ->. inversion HN; subst. destruct (IH c H2 E') as [-> ->]. auto.
Qed.

Lemma filter_length_mono {A} (f g : A -> bool) l : (forall x, f x = true -> g x = true) -> length (filter f l) <= length (filter g l).
Proof.
  intros H. induction l as [|x l IH]; simpl; auto. destruct (f x) eqn:E; [rewrite (H x E); simpl; lia|]. destruct (g x); simpl; lia.
Qed.
Lemma filter_length_strict {A} (f g : A -> bool) l x : (forall x, f x = true -> g x = true) -> In x l -> g x = true -> f x = false ->
  length (filter f l) < length (filter g l).
Proof.
  intros H Hx Hg Hf. induction l as [|y l IH]; simpl; [destruct Hx|]. destruct Hx as [->|Hx].
  - rewrite Hf, Hg. simpl. pose proof (filter_length_mono f g l H). lia.
  - specialize (IH Hx). destruct (f y) eqn:E; [rewrite (H y E); simpl; lia|]. destruct (g y); simpl; lia.
Qed.

(** [x] is listed before [y]. *)
Definition earlier (l : list nat) (x y : nat) : Prop := exists l1 l2, l = l1 ++ y :: l2 /\ In x l1.
Lemma earlier_app l l' x y : earlier l x y -> earlier (l ++ l') x y.
Proof. intros (l1 & l2 & -> & H). exists l1, (l2 ++ l'). rewrite <- app_assoc. auto. Qed.

Section Dfs.
Context {P : Type} (padd : P -> P -> P).
Variable es : list (edge (P := P)).
Variable N : nat.
Definition adj (x y : nat) : Prop := exists sh, In (x, y, sh) es.
Notation st := (dfs_state (P := P)).

Lemma out_edges_In u v sh : In (v, sh) (out_edges es u) <-> In (u, v, sh) es.
Proof.
  unfold out_edges. rewrite in_map_iff. split.
  - intros (((a, b), c) & [= <- <-] & H). apply filter_In in H as [H E]. cbn [fst snd] in E. apply Nat.eqb_eq in E. now subst.
  - intros H. exists (u, v, sh). split; auto. apply filter_In. split; auto. cbn [fst snd]. apply Nat.eqb_refl.
Qed.

Hypothesis adj_sym : forall x y, adj x y -> adj y x.
Hypothesis adj_irr : forall x, ~ adj x x.
Hypothesis adj_lt : forall x y, adj x y -> y < N.

(** the state before the visit and its root *)
Variable s0 : st.
Variable m r : nat.
Hypothesis s0_gray : forall x, colors s0 x <> Gray.
Hypothesis s0_closed : forall x y, colors s0 x = Black -> adj x y -> colors s0 y = Black.
Hypothesis s0_root : colors s0 r = White /\ r < N.
Hypothesis s0_pred : pred s0 r = r.

Definition cls (s : st) (x y : nat) : Prop :=
  pred s x = y \/ pred s y = x \/ In (x, y) (back_edges s) \/ In (y, x) (back_edges s).

(** [ex]: a vertex reached by a tree edge and not yet discovered *)
Record K (ex : nat -> Prop) (s : st) : Prop := {
  k_nodup : NoDup (found s);
  k_found : forall x, In x (found s) <-> colors s0 x = White /\ colors s x <> White;
  k_other : forall x, ~ In x (found s) -> colors s x = colors s0 x;
  k_root : In r (found s) -> pred s r = r /\ phase s r = phase s0 r;
  k_tree : forall x, In x (found s) -> x <> r -> earlier (found s) (pred s x) x /\
    exists sh, In (pred s x, x, sh) es /\ phase s x = padd (phase s (pred s x)) sh;
  k_black : forall x y, In x (found s) -> colors s x = Black -> adj x y -> In y (found s) /\ cls s x y;
  k_back : forall x y, In (x, y) (back_edges s) ->
    In x (found s) /\ In y (found s) /\ adj x y /\ pred s x <> y /\ anc (pred s) x y;
  k_group : forall x, group s x = if in_dec Nat.eq_dec x (found s) then Some m else group s0 x;
  k_same : forall x, ~ In x (found s) -> ~ ex x -> pred s x = pred s0 x /\ phase s x = phase s0 x }.

Definition keeps (s s' : st) : Prop :=
  (forall x, colors s x <> White -> colors s' x = colors s x) /\
  (forall x, colors s x <> White -> pred s' x = pred s x /\ phase s' x = phase s x) /\
  (forall x, colors s x = White -> colors s' x = White \/ colors s' x = Black) /\
  (exists l, found s' = found s ++ l) /\ (exists b, back_edges s' = back_edges s ++ b).

Lemma keeps_refl s : keeps s s.
Proof. refine (conj _ (conj _ (conj _ (conj _ _)))); auto; exists []; now rewrite app_nil_r. Qed.
Lemma keeps_trans a b c : keeps a b -> keeps b c -> keeps a c.
Proof.
  intros (A1 & A2 & A3 & (la & A4) & (ba & A5)) (B1 & B2 & B3 & (lb & B4) & (bb & B5)). refine (conj _ (conj _ (conj _ (conj _ _)))).
  - intros x H. rewrite B1; auto. now rewrite A1.
  - intros x H. destruct (B2 x) as [E1 E2]; [now rewrite A1|]. rewrite E1, E2. auto.
  - intros x H. destruct (A3 x H) as [H'|H']; auto. right. rewrite B1; [auto|congruence].
  - exists (la ++ lb). now rewrite B4, A4, app_assoc.
  - exists (ba ++ bb). now rewrite B5, A5, app_assoc.
Qed.
Lemma keeps_found s s' x : keeps s s' -> In x (found s) -> In x (found s').
Proof. intros (_ & _ & _ & (l & ->) & _) H. apply in_or_app; auto. Qed.
Lemma keeps_cls ex s s' x y : K ex s -> keeps s s' -> In x (found s) -> In y (found s) -> cls s x y -> cls s' x y.
Proof.
  intros HK (_ & H2 & _ & _ & (b & H5)) Hx Hy. unfold cls. rewrite H5, !in_app_iff.
  destruct (H2 x) as [-> _]; [now apply (k_found ex s HK)|]. destruct (H2 y) as [-> _]; [now apply (k_found ex s HK)|]. tauto.
Qed.

Lemma found_pred ex s x : K ex s -> In x (found s) -> In (pred s x) (found s).
Proof.
  intros HK Hx. destruct (Nat.eq_dec x r) as [->|Hn]; [destruct (k_root ex s HK Hx) as [-> _]; auto|].
  destruct (k_tree ex s HK x Hx Hn) as ((l1 & l2 & E & H) & _). rewrite E. apply in_or_app; auto.
Qed.
Lemma iter_found ex s x k : K ex s -> In x (found s) -> In (Nat.iter k (pred s) x) (found s).
Proof. intros HK Hx. induction k; simpl; auto. now apply (found_pred ex). Qed.
Lemma anc_keeps ex s s' x y : K ex s -> keeps s s' -> In x (found s) -> anc (pred s) x y -> anc (pred s') x y.
Proof.
  intros HK Hk Hx [k <-]. exists k. induction k as [|k IH]; simpl; auto. rewrite IH. apply (proj1 (proj2 Hk)).
  pose proof (iter_found ex s x k HK Hx) as H. now apply (k_found ex s HK).
Qed.

Lemma discover_K u s : K (eq u) s -> colors s0 u = White -> ~ In u (found s) ->
  (u = r /\ pred s u = r /\ phase s u = phase s0 r \/
   u <> r /\ In (pred s u) (found s) /\ exists sh, In (pred s u, u, sh) es /\ phase s u = padd (phase s (pred s u)) sh) ->
  K (fun _ => False) (discover m u s).
Proof.
  intros [HN HF HO HR HT HB HBk HG HS] Hu Hnf Hp.
  assert (HuG : colors s u = White) by (rewrite HO; auto).
  constructor; cbn [discover found colors pred phase group back_edges].
  - now apply NoDup_app_one.
  - intros x. rewrite in_app_iff, HF. simpl. destruct (Nat.eq_dec x u) as [->|Hn].
    + rewrite fupd_eq. split; [split; auto; discriminate|auto].
    + rewrite fupd_neq by auto. intuition congruence.
  - intros x H. rewrite in_app_iff in H. simpl in H. rewrite fupd_neq by (intros ->; tauto). apply HO. tauto.
  - intros H. apply in_app_iff in H as [H|[<-|[]]]; auto. destruct Hp as [(_ & H1 & H2)|(H1 & _)]; [auto|congruence].
  - intros x Hx Hn. apply in_app_iff in Hx as [Hx|[<-|[]]].
    + destruct (HT x Hx Hn) as [H1 H2]. split; auto. now apply earlier_app.
    + destruct Hp as [(H1 & _)|(_ & H2 & H3)]; [congruence|]. split; auto. exists (found s), []. auto.
  - intros x y Hx Hb Ha. destruct (Nat.eq_dec x u) as [->|Hn]; [rewrite fupd_eq in Hb; discriminate|]. rewrite fupd_neq in Hb by auto.
    apply in_app_iff in Hx as [Hx|[Hx|[]]]; [|congruence]. destruct (HB x y Hx Hb Ha) as [H1 H2]. split; [apply in_or_app; auto|exact H2].
  - intros x y H. apply HBk in H as (H1 & H2 & H3 & H4 & H5). refine (conj _ (conj _ (conj H3 (conj H4 H5)))); apply in_or_app; auto.
  - intros x. destruct (in_dec Nat.eq_dec x (found s ++ [u])) as [Hi|Hi].
    + destruct (Nat.eq_dec x u) as [->|Hn]; [now rewrite fupd_eq|]. rewrite fupd_neq, HG by auto.
      destruct (in_dec Nat.eq_dec x (found s)); auto. apply in_app_iff in Hi as [Hi|[Hi|[]]]; [tauto|congruence].
    + rewrite in_app_iff in Hi. simpl in Hi. rewrite fupd_neq by (intros ->; tauto). rewrite HG. destruct (in_dec Nat.eq_dec x (found s)); tauto.
  - intros x Hx _. rewrite in_app_iff in Hx. simpl in Hx. apply HS; [tauto|]. intros ->. tauto.
Qed.

Lemma tree_edge_K u v sh s : K (fun _ => False) s -> ~ In v (found s) -> K (eq v) (tree_edge padd u v sh s).
Proof.
  intros HK Hv. pose proof (fun x => found_pred _ s x HK) as HFP. pose proof HK as [HN HF HO HR HT HB HBk HG HS].
  assert (Hne : forall x, In x (found s) -> x <> v) by (intros x Hx ->; auto).
  assert (Hpn : forall x, In x (found s) -> pred s x <> v) by (intros x Hx E; apply Hv; rewrite <- E; now apply HFP).
  constructor; cbn [tree_edge found colors pred phase group back_edges]; auto.
  - intros Hr. rewrite !fupd_neq by auto. auto.
  - intros x Hx Hn. rewrite !fupd_neq by auto. destruct (HT x Hx Hn) as (H1 & sh' & H2 & H3). split; auto. exists sh'. auto.
  - intros x y Hx Hb Ha. destruct (HB x y Hx Hb Ha) as [H1 H2]. split; auto. unfold cls in *. cbn [tree_edge found colors pred phase group back_edges].
    rewrite !fupd_neq by auto. exact H2.
  - intros x y H. destruct (HBk x y H) as (H1 & H2 & H3 & H4 & (k & H5)). refine (conj H1 (conj H2 (conj H3 (conj _ _)))); [now rewrite fupd_neq by auto|].
    exists k. rewrite <- H5. clear H5. induction k as [|k IH]; simpl; auto. rewrite IH. apply fupd_neq. apply Hne. now apply (iter_found (fun _ => False)).
  - intros x Hx Hn. rewrite !fupd_neq by auto. apply HS; auto.
Qed.

Lemma back_edge_K u v s : K (fun _ => False) s -> In u (found s) -> In v (found s) -> adj u v -> anc (pred s) u v ->
  K (fun _ => False) (back_edge u v s).
Proof.
  intros [HN HF HO HR HT HB HBk HG HS] Hu Hv Ha Hc.
  constructor; cbn [back_edge found colors pred phase group back_edges]; auto.
  - intros x y Hx Hb Hxy. destruct (HB x y Hx Hb Hxy) as [H1 H2]. split; auto. unfold cls in *. cbn [back_edge found colors pred phase group back_edges].
    destruct (pred s u =? v); auto. rewrite !in_app_iff. tauto.
  - intros x y H. destruct (Nat.eqb_spec (pred s u) v); [apply HBk; auto|]. apply in_app_iff in H as [H|[[= <- <-]|[]]]; [now apply HBk|auto].
Qed.

Lemma finish_K u s : K (fun _ => False) s -> colors s u = Gray -> (forall y, adj u y -> In y (found s) /\ cls s u y) ->
  K (fun _ => False) (finish u s).
Proof.
  intros [HN HF HO HR HT HB HBk HG HS] Hu Hall.
  assert (Huf : In u (found s)) by (destruct (in_dec Nat.eq_dec u (found s)); auto; rewrite HO in Hu by auto; destruct (s0_gray u Hu)).
  constructor; cbn [finish found colors pred phase group back_edges]; auto.
  - intros x. rewrite HF. destruct (Nat.eq_dec x u) as [->|Hn]; [|now rewrite fupd_neq]. rewrite fupd_eq, Hu. intuition discriminate.
  - intros x Hx. rewrite fupd_neq by (intros ->; auto). auto.
  - intros x y Hx Hb Hxy. destruct (Nat.eq_dec x u) as [->|Hn]; [exact (Hall y Hxy)|]. rewrite fupd_neq in Hb by auto. exact (HB x y Hx Hb Hxy).
Qed.

Definition whites (s : st) : nat := length (filter (fun x => match colors s x with White => true | _ => false end) (seq 0 N)).
Lemma whites_keeps s s' : keeps s s' -> whites s' <= whites s.
Proof.
  intros (H1 & _). apply filter_length_mono. intros x. destruct (colors s x) eqn:E; auto; rewrite H1; rewrite ?E; congruence.
Qed.
Lemma whites_discover u s : colors s u = White -> u < N -> whites (discover m u s) < whites s.
Proof.
  intros Hu Hl. apply filter_length_strict with u.
  - intros x. cbn [discover colors]. destruct (Nat.eq_dec x u) as [->|Hn]; [rewrite fupd_eq; discriminate|now rewrite fupd_neq].
  - apply in_seq. lia.
  - now rewrite Hu.
  - cbn [discover colors]. now rewrite fupd_eq.
Qed.

(** what a visit of [u] does *)
Definition visit_ok (fuel u : nat) (s : st) : Prop :=
  exists s', visit padd fuel es m u s = Some s' /\ K (fun _ => False) s' /\ colors s' u = Black /\
    pred s' u = pred s u /\ phase s' u = phase s u /\
    (forall x, colors s x <> White -> colors s' x = colors s x /\ pred s' x = pred s x /\ phase s' x = phase s x) /\
    (forall x, colors s x = White -> colors s' x = White \/ colors s' x = Black) /\
    (exists l, found s' = found s ++ u :: l) /\ (exists b, back_edges s' = back_edges s ++ b).

Definition visit_pre (u : nat) (s : st) : Prop :=
  K (eq u) s /\ colors s0 u = White /\ u < N /\ ~ In u (found s) /\
  (u = r /\ pred s u = r /\ phase s u = phase s0 r /\ found s = [] \/
   u <> r /\ In (pred s u) (found s) /\ (exists sh, In (pred s u, u, sh) es /\ phase s u = padd (phase s (pred s u)) sh)) /\
  (forall x, colors s x = Gray -> anc (pred s) u x).

Lemma visit_spec fuel : forall u s, visit_pre u s -> whites s <= fuel -> visit_ok fuel u s.
Proof.
  induction fuel as [|fuel IH]; intros u s (HK & Hu0 & HuN & Hnf & Hp & Hgr) Hw.
  { exfalso. assert (Hu : colors s u = White) by (rewrite (k_other _ _ HK); auto). pose proof (whites_discover u s Hu HuN). lia. }
  assert (Hu : colors s u = White) by (rewrite (k_other _ _ HK); auto).
  pose proof (whites_discover u s Hu HuN) as Hw1.
  assert (HK1 : K (fun _ => False) (discover m u s)) by (apply discover_K; auto; tauto).
  set (f := fun s e => match colors s (fst e) with
              | White => visit padd fuel es m (fst e) (tree_edge padd u (fst e) (snd e) s)
              | Gray => Some (back_edge u (fst e) s)
              | Black => Some s
              end).
  (* the loop over the outgoing edges *)
  assert (Hloop : forall l s1, (forall e, In e l -> In e (out_edges es u)) -> K (fun _ => False) s1 -> keeps (discover m u s) s1 ->
            exists s2, foldM_opt f l s1 = Some s2 /\ K (fun _ => False) s2 /\ keeps s1 s2 /\
              forall v sh, In (v, sh) l -> In v (found s2) /\ cls s2 u v).
  { induction l as [|[v sh] l IHl]; intros s1 Hl K1 Hk1.
    { exists s1. simpl. refine (conj eq_refl (conj K1 (conj (keeps_refl s1) _))). intros v sh []. }
    assert (He : In (u, v, sh) es) by (apply out_edges_In; apply Hl; left; auto).
    assert (Ha : adj u v) by (exists sh; auto).
    assert (Hug : colors s1 u = Gray) by (rewrite (proj1 Hk1); cbn [discover colors]; rewrite fupd_eq; [auto|discriminate]).
    assert (Huf : In u (found s1)) by (apply (k_found _ _ K1); split; [auto|congruence]).
    assert (Hgr1 : forall x, colors s1 x = Gray -> anc (pred s1) u x).
    { intros x Hx. destruct (Nat.eq_dec x u) as [->|Hn]; [apply anc_refl|].
      assert (Hxs : colors s x = Gray).
      { destruct Hk1 as (C1 & _ & C3 & _). cbn [discover colors] in C1, C3. specialize (C1 x). specialize (C3 x). rewrite fupd_neq in C1, C3 by auto.
        destruct (colors s x) eqn:E; auto; [destruct C3; auto; congruence|]. rewrite C1 in Hx by discriminate. discriminate. }
      assert (Hd : anc (pred (discover m u s)) u x) by (apply Hgr; auto).
      apply (anc_keeps _ _ s1 u x HK1 Hk1); auto. cbn [discover found]. apply in_or_app. right. left; auto. }
    (* one edge *)
    assert (Hone : exists s2, f s1 (v, sh) = Some s2 /\ K (fun _ => False) s2 /\ keeps s1 s2 /\ In v (found s2) /\ cls s2 u v).
    { unfold f. cbn [fst snd]. destruct (colors s1 v) eqn:Ec.
      - (* tree edge *)
        assert (Hvf : ~ In v (found s1)) by (rewrite (k_found _ _ K1); tauto).
        assert (Hv0 : colors s0 v = White) by (rewrite <- (k_other _ _ K1 v Hvf); auto).
        assert (Huv : u <> v) by (intros ->; now apply (adj_irr v)).
        assert (Hrf : In r (found s1)).
        { assert (In r (found (discover m u s))).
          { cbn [discover found]. apply in_or_app. destruct Hp as [(-> & _)|(_ & Hp & _)]; [right; left; auto|left].
            destruct (found s) as [|z l'] eqn:Ef; [destruct Hp|]. rewrite <- Ef in *. clear Ef.
            (* the first found vertex without earlier ones is the root *)
            destruct (in_dec Nat.eq_dec r (found s)) as [|Hr]; auto. exfalso.
            assert (X : forall k l1 l2, length l1 <= k -> found s = l1 ++ pred s u :: l2 -> False).
            { generalize (pred s u) as y. intros y k. revert y. induction k as [|k IHk]; intros y l1 l2 Hlen E.
              - assert (Hy : In y (found s)) by (rewrite E; apply in_or_app; right; left; auto).
                assert (Hyr : y <> r) by (intros ->; auto). destruct (k_tree _ _ HK y Hy Hyr) as ((m1 & m2 & E' & Hin) & _).
                destruct (NoDup_split_unique _ _ _ _ (k_nodup _ _ HK) _ _ E' E) as [-> _].
                destruct l1; [destruct Hin|simpl in Hlen; lia].
              - assert (Hy : In y (found s)) by (rewrite E; apply in_or_app; right; left; auto).
                assert (Hyr : y <> r) by (intros ->; auto). destruct (k_tree _ _ HK y Hy Hyr) as ((m1 & m2 & E' & Hin) & _).
                destruct (NoDup_split_unique _ _ _ _ (k_nodup _ _ HK) _ _ E' E) as [-> _].
                apply in_split in Hin as (a & b & Hin). apply (IHk (pred s y) a (b ++ y :: l2)).
                + rewrite Hin in Hlen. rewrite app_length in Hlen. simpl in Hlen. lia.
                + rewrite E. rewrite Hin at 1. rewrite <- app_assoc. reflexivity. }
            apply in_split in Hp as (l1 & l2 & Hp). exact (X (length l1) l1 l2 (le_n _) Hp). }
          now apply (keeps_found _ _ _ Hk1). }
        assert (Hvr : v <> r) by (intros ->; auto).
        assert (Hpre : visit_pre v (tree_edge padd u v sh s1)).
        { refine (conj (tree_edge_K u v sh s1 K1 Hvf) (conj Hv0 (conj (adj_lt _ _ Ha) (conj Hvf (conj _ _))))).
          - right. refine (conj Hvr (conj _ _)); cbn [tree_edge pred phase found]; rewrite !fupd_eq; auto.
            exists sh. split; auto. rewrite fupd_neq by auto. reflexivity.
          - cbn [tree_edge colors pred]. intros x Hx. apply anc_step. rewrite fupd_eq. apply Hgr1 in Hx as [k <-]. exists k.
            clear - K1 Huf Hvf. induction k as [|k IHk]; simpl; auto. rewrite IHk. apply fupd_neq. intros E.
            apply Hvf. rewrite <- E. now apply (iter_found (fun _ => False)). }
        assert (Hwt : whites (tree_edge padd u v sh s1) <= fuel).
        { change (whites s1 <= fuel). pose proof (whites_keeps _ _ Hk1). lia. }
        destruct (IH v _ Hpre Hwt) as (s2 & E2 & K2 & C2 & P2 & Q2 & S2 & W2 & (l2 & F2) & (b2 & B2)).
        exists s2. cbn [tree_edge colors pred phase found back_edges] in *. rewrite fupd_eq in P2. refine (conj E2 (conj K2 (conj _ (conj _ _)))).
        + refine (conj _ (conj _ (conj W2 (conj _ _)))).
          * intros x Hx. now apply S2.
          * intros x Hx. destruct (S2 x Hx) as (_ & E3 & E4). assert (x <> v) by congruence. rewrite fupd_neq in E3 by auto. rewrite fupd_neq in E4 by auto. auto.
          * eauto.
          * eauto.
        + rewrite F2. apply in_or_app. right. left; auto.
        + right. left. exact P2.
      - (* gray *)
        assert (Hvf : In v (found s1)). { destruct (in_dec Nat.eq_dec v (found s1)) as [|Hn]; auto. rewrite (k_other _ _ K1 v Hn) in Ec. destruct (s0_gray v Ec). }
        eexists; split; [reflexivity|]. refine (conj (back_edge_K u v s1 K1 Huf Hvf Ha (Hgr1 v Ec)) (conj _ (conj Hvf _))).
        + refine (conj _ (conj _ (conj _ (conj _ _)))); cbn [back_edge colors pred phase found back_edges]; auto.
          * exists []. now rewrite app_nil_r.
          * destruct (pred s1 u =? v); [exists []; now rewrite app_nil_r|eauto].
        + unfold cls. cbn [back_edge pred back_edges]. destruct (Nat.eqb_spec (pred s1 u) v); auto. right. right. left. apply in_or_app. right. left; auto.
      - (* black *)
        assert (Hvf : In v (found s1)).
        { destruct (in_dec Nat.eq_dec v (found s1)) as [|Hn]; auto. rewrite (k_other _ _ K1 v Hn) in Ec.
          pose proof (s0_closed v u Ec (adj_sym _ _ Ha)). congruence. }
        exists s1. refine (conj eq_refl (conj K1 (conj (keeps_refl s1) (conj Hvf _)))).
        destruct (k_black _ _ K1 v u Hvf Ec (adj_sym _ _ Ha)) as [_ H]. unfold cls in *. tauto. }
    destruct Hone as (s2 & E2 & K2 & Hk2 & Hv2 & Hc2).
    destruct (IHl s2) as (s3 & E3 & K3 & Hk3 & H3); auto.
    { intros e H. apply Hl. right; auto. }
    { eapply keeps_trans; eauto. }
    exists s3. refine (conj _ (conj K3 (conj (keeps_trans _ _ _ Hk2 Hk3) _))).
    - cbn [foldM_opt]. rewrite E2. exact E3.
    - intros v' sh' [[= <- <-]|H]; [|eauto]. split; [now apply (keeps_found _ _ _ Hk3)|].
      apply (keeps_cls _ s2 s3 u v K2 Hk3); auto. now apply (keeps_found _ _ _ Hk2). }
  destruct (Hloop (out_edges es u) (discover m u s)) as (s2 & E2 & K2 & Hk2 & H2); auto using keeps_refl.
  assert (Hug : colors s2 u = Gray) by (rewrite (proj1 Hk2); cbn [discover colors]; rewrite fupd_eq; [auto|discriminate]).
  unfold visit_ok. cbn [visit]. fold f. rewrite E2. eexists; split; [reflexivity|].
  destruct Hk2 as (C1 & C2 & C3 & (l2 & F2) & (b2 & B2)). cbn [discover colors pred phase found back_edges] in *.
  refine (conj _ (conj _ (conj _ (conj _ (conj _ (conj _ (conj _ _))))))).
  - apply finish_K; auto. intros y [sh Hy]. apply out_edges_In in Hy. exact (H2 _ _ Hy).
  - cbn [finish colors]. apply fupd_eq.
  - cbn [finish pred]. apply (C2 u). rewrite fupd_eq. discriminate.
  - cbn [finish phase]. apply (C2 u). rewrite fupd_eq. discriminate.
  - intros x Hx. cbn [finish colors pred phase]. assert (x <> u) by congruence. specialize (C1 x). specialize (C2 x). rewrite fupd_neq in C1, C2 by auto.
    rewrite fupd_neq by auto. split; auto.
  - intros x Hx. cbn [finish colors]. destruct (Nat.eq_dec x u) as [->|Hn]; [right; apply fupd_eq|]. rewrite fupd_neq by auto.
    specialize (C3 x). rewrite fupd_neq in C3 by auto. auto.
  - cbn [finish found]. exists l2. rewrite F2, <- app_assoc. reflexivity.
  - cbn [finish back_edges]. eauto.
Qed.
End Dfs.
