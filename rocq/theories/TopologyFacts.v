(** Invariant of the search over all sources. *)
From Verif Require Import Common NatMap SparseOrdering SparseOrderingSpec Topology TopologySpec TopologyDfs TopologyReorder.

Lemma nth_combine {A B} (a : list A) (b : list B) : forall k x y,
  nth_error (combine a b) k = Some (x, y) <-> nth_error a k = Some x /\ nth_error b k = Some y.
Proof.
  revert b. induction a as [|u a IH]; intros [|v b] [|k] x y; simpl; try (split; [intros H; discriminate|intros [H1 H2]; discriminate]).
  - split; [intros [= -> ->]; auto|intros [[= ->] [= ->]]; auto].
  - apply IH.
Qed.
Lemma nth_seq s n k x : nth_error (seq s n) k = Some x <-> k < n /\ x = s + k.
Proof.
  split.
  - intros H. assert (k < n) by (rewrite <- (seq_length n s); apply nth_error_Some; congruence). split; auto.
    apply nth_error_nth with (d := 0) in H. rewrite seq_nth in H; auto.
  - intros [H ->]. rewrite (nth_error_nth' _ 0) by (now rewrite seq_length). now rewrite seq_nth.
Qed.

Section Facts.
Context {P : Type} (padd : P -> P -> P) (p0 : P) (popp : P -> P).
Variable t : comp_topo.
Variable c : comp_conn (P := P).
Notation es := (build_sparse_graph popp t c).
Notation link := (link popp t c).
Notation path := (path padd p0 popp t c).

Lemma way_edges_In k i s sh (e : edge (P := P)) : In e (way_edges popp k i s sh) <-> s = true /\ (e = (i, k, popp sh) \/ e = (k, i, sh)).
Proof. unfold way_edges. destruct s; simpl; [|intuition discriminate]. intuition auto. Qed.

Lemma edge_link x y h : In (x, y, h) es <-> link x y h.
Proof.
  unfold build_sparse_graph. rewrite in_app_iff, !in_flat_map. split.
  - intros [([[i j] [[si sj] sh]] & H & He)|((k & (((i1, i2), i3), (((s1, s2), s3), ((h1, h2), h3)))) & H & He)].
    + apply In_nth_error in H as [k H]. apply nth_combine in H as [H1 H]. apply nth_combine in H as [H2 H3].
      unfold branch_edges in He. destruct si, sj; try (destruct He; fail). destruct (Nat.eqb_spec i j); [destruct He|]. simpl in He.
      destruct He as [[= <- <- <-]|[[= <- <- <-]|[]]]; [eapply link_to|eapply link_from]; eauto.
    + apply In_nth_error in H as [q H]. apply nth_combine in H as [H1 H]. apply nth_combine in H as [H2 H]. apply nth_combine in H as [H3 H4].
      apply nth_seq in H1 as [_ ->]. unfold branch3_edges in He. rewrite !in_app_iff, !way_edges_In in He.
      destruct He as [[-> [[= -> -> ->]|[= -> -> ->]]]|[[-> [[= -> -> ->]|[= -> -> ->]]]|[-> [[= -> -> ->]|[= -> -> ->]]]]].
      * exact (link_in popp t c q _ Side1 _ _ H2 H3 H4 eq_refl).
      * exact (link_out popp t c q _ Side1 _ _ H2 H3 H4 eq_refl).
      * exact (link_in popp t c q _ Side2 _ _ H2 H3 H4 eq_refl).
      * exact (link_out popp t c q _ Side2 _ _ H2 H3 H4 eq_refl).
      * exact (link_in popp t c q _ Side3 _ _ H2 H3 H4 eq_refl).
      * exact (link_out popp t c q _ Side3 _ _ H2 H3 H4 eq_refl).
  - assert (B : forall k i j sh, nth_error (branch_node_idx t) k = Some (i, j) -> nth_error (branch_connected c) k = Some (true, true) ->
      nth_error (branch_phase_shift c) k = Some sh -> In ((i, j), ((true, true), sh)) (combine (branch_node_idx t) (combine (branch_connected c) (branch_phase_shift c)))).
    { intros k i j sh H1 H2 H3. apply (nth_error_In _ k). apply nth_combine. split; auto. now apply nth_combine. }
    assert (B3 : forall k b cs hs, nth_error (branch3_node_idx t) k = Some b -> nth_error (branch3_connected c) k = Some cs ->
      nth_error (branch3_phase_shift c) k = Some hs -> In (n_node t + k, (b, (cs, hs)))
        (combine (seq (n_node t) (length (branch3_node_idx t))) (combine (branch3_node_idx t) (combine (branch3_connected c) (branch3_phase_shift c))))).
    { intros k b cs hs H1 H2 H3. apply (nth_error_In _ k). apply nth_combine. split; [apply nth_seq; split; auto; apply nth_error_Some; congruence|].
      apply nth_combine. split; auto. now apply nth_combine. }
    intros [k i j sh H1 H2 H3 Hn|k i j sh H1 H2 H3 Hn|k [[i1 i2] i3] s [[s1 s2] s3] [[h1 h2] h3] H1 H2 H3 Hs|k [[i1 i2] i3] s [[s1 s2] s3] [[h1 h2] h3] H1 H2 H3 Hs].
    + left. eexists. split; [exact (B k i j sh H1 H2 H3)|]. simpl. destruct (Nat.eqb_spec i j); [congruence|]. simpl. auto.
    + left. eexists. split; [exact (B k i j sh H1 H2 H3)|]. simpl. destruct (Nat.eqb_spec i j); [congruence|]. simpl. auto.
    + right. eexists. split; [exact (B3 k _ _ _ H1 H2 H3)|]. unfold branch3_edges. rewrite !in_app_iff, !way_edges_In. destruct s; simpl in *; auto.
    + right. eexists. split; [exact (B3 k _ _ _ H1 H2 H3)|]. unfold branch3_edges. rewrite !in_app_iff, !way_edges_In. destruct s; simpl in *; auto.
Qed.

Notation adj := (adj es).
Lemma adj_link x y : adj x y <-> exists h, link x y h.
Proof. unfold TopologyDfs.adj. split; intros [h H]; exists h; now apply edge_link. Qed.
Lemma link_rev x y h : link x y h -> exists h', link y x h'.
Proof. intros []; eexists; [eapply link_from|eapply link_to|eapply link_out|eapply link_in]; eauto. Qed.
Lemma adj_sym x y : adj x y -> adj y x.
Proof. rewrite !adj_link. intros [h H]. now apply link_rev in H. Qed.

Hypothesis wf : well_formed t c.
Notation N := (n_node_total t).
Lemma adj_irr x : ~ adj x x.
Proof.
  rewrite adj_link. intros [h H]. remember x as y in H at 2. destruct H; subst; try congruence.
  - pose proof (wf_branch3 t c wf _ _ s H). lia.
  - pose proof (wf_branch3 t c wf _ _ s H). lia.
Qed.
Lemma adj_lt x y : adj x y -> y < N.
Proof.
  unfold n_node_total. rewrite adj_link. intros [h H]. destruct H.
  - apply (wf_branch t c wf) in H. lia.
  - apply (wf_branch t c wf) in H. lia.
  - assert (k < length (branch3_node_idx t)) by (apply nth_error_Some; congruence). lia.
  - pose proof (wf_branch3 t c wf _ _ s H). lia.
Qed.
Lemma source_lt k x : source_at t c k x -> x < N.
Proof. intros [_ H]. apply (wf_source t c wf) in H. unfold n_node_total. lia. Qed.

Lemma path_app x y h1 : path x y h1 -> forall z h2, path y z h2 -> exists h, path x z h.
Proof. intros H1 z h2. induction 1 as [|z w h2 h3 _ [h IH] HL]; [eauto|]. eexists. eapply path_step; eauto. Qed.
Lemma path_rev x y h : path x y h -> exists h', path y x h'.
Proof.
  induction 1 as [|y z h h' _ [h1 IH] HL]; [eexists; constructor|]. apply link_rev in HL as [h2 HL].
  apply (path_app z y (padd p0 h2)) with h1; auto. eapply path_step; [constructor|auto].
Qed.

(** ** The invariant *)
Notation sources := (combine (source_connected c) (source_node_idx t)).
Record sub_grid (k0 : nat) (st : search_state (P := P)) (g : nat) (l : list nat) (m : math_graph (P := P)) : Prop := {
  sg_nodup : NoDup l;
  sg_nodes : forall x, In x l <-> group (dfs st) x = Some g;
  sg_pos : forall i x, nth_error l i = Some x -> position st x = Some i;
  sg_phase : phase_shift m = map (phase (dfs st)) l;
  sg_fill : complete_fill_in (at_pos l adj) (seq 0 (length l)) (fill_in m);
  sg_root : exists r k, source_at t c k r /\ k < k0 /\ nth_error l (slack_bus m) = Some r /\
    (forall k' r', k' < k -> source_at t c k' r' -> group (dfs st) r' <> Some g) /\
    (forall x, In x l -> path r x (phase (dfs st) x)) }.

Record T (k0 : nat) (st : search_state (P := P)) (nodes : list (list nat)) : Prop := {
  t_gray : forall x, colors (dfs st) x <> Gray;
  t_closed : forall x y, colors (dfs st) x = Black -> adj x y -> colors (dfs st) y = Black;
  t_white : forall x, colors (dfs st) x = White ->
    group (dfs st) x = None /\ pred (dfs st) x = x /\ phase (dfs st) x = p0 /\ in_cycle st x = false /\ position st x = None;
  t_black : forall x, colors (dfs st) x = Black -> exists g, group (dfs st) x = Some g /\ g < length (models st);
  t_len : length nodes = length (models st);
  t_model : forall g l m, nth_error nodes g = Some l -> nth_error (models st) g = Some m -> sub_grid k0 st g l m;
  t_group : forall x y, adj x y -> group (dfs st) x = group (dfs st) y;
  t_done : forall k r, k < k0 -> source_at t c k r -> group (dfs st) r <> None }.

Lemma T_init : T 0 (search_init p0) [].
Proof. constructor; cbn; intros; try discriminate; try lia; auto. destruct g; discriminate. Qed.

Lemma sub_grid_mono k0 k1 st g l m : k0 <= k1 -> sub_grid k0 st g l m -> sub_grid k1 st g l m.
Proof.
  intros Hk [H1 H2 H3 H4 H5 (r & k & A & B & C)]. constructor; auto. exists r, k. split; auto. split; [lia|auto].
Qed.

Lemma assign_positions_spec l pos : NoDup l ->
  (forall i x, nth_error l i = Some x -> assign_positions l pos x = Some i) /\ (forall x, ~ In x l -> assign_positions l pos x = pos x).
Proof.
  unfold assign_positions.
  assert (X : forall l k pos, NoDup l ->
    (forall i x, nth_error l i = Some x -> fold_left (fun p ix => fupd (snd ix) (Some (fst ix)) p) (combine (seq k (length l)) l) pos x = Some (k + i)) /\
    (forall x, ~ In x l -> fold_left (fun p ix => fupd (snd ix) (Some (fst ix)) p) (combine (seq k (length l)) l) pos x = pos x)).
  { clear. induction l as [|y l IH]; intros k pos HN; simpl; [split; auto; intros [|i]; discriminate|]. inversion HN; subst.
    destruct (IH (S k) (fupd y (Some k) pos) H2) as [A B]. split.
    - intros [|i] x Hx; simpl in Hx.
      + injection Hx as ->. rewrite B, fupd_eq by auto. f_equal. lia.
      + rewrite (A i x Hx). f_equal. lia.
    - intros x Hx. rewrite B by tauto. rewrite fupd_neq; auto. }
  intros HN. exact (X l 0 pos HN).
Qed.

Lemma search_step k0 st nodes r : T k0 st nodes -> source_at t c k0 r ->
  exists st' nodes', search_source padd (S N) es st (true, r) = Some st' /\ T (S k0) st' nodes'.
Proof.
  intros HT Hsrc. unfold search_source. cbn [negb]. destruct (group (dfs st) r) as [g|] eqn:Eg.
  { exists st, nodes. split; auto. destruct HT as [A1 A2 A3 A4 A5 A6 A7 A8]. constructor; auto.
    - intros g' l m H1 H2. apply sub_grid_mono with k0; auto.
    - intros k x Hk Hx. destruct (Nat.eq_dec k k0) as [->|]; [|apply (A8 k); auto; lia].
      assert (x = r) as -> by (destruct Hx, Hsrc; congruence). congruence. }
  set (m := length (models st)). set (s0 := mkDfs (colors (dfs st)) (group (dfs st)) (phase (dfs st)) (pred (dfs st)) [] []).
  assert (Wr : colors (dfs st) r = White).
  { destruct (colors (dfs st) r) eqn:E; auto; [now apply (t_gray _ _ _ HT) in E|]. apply (t_black _ _ _ HT) in E as (g & ? & _). congruence. }
  destruct (t_white _ _ _ HT r Wr) as (_ & Pr & Hr & _ & _).
  assert (HV : visit_ok padd es s0 m r (S N) r s0).
  { apply (visit_spec padd es N adj_sym adj_irr adj_lt s0 m r).
    - exact (t_gray _ _ _ HT).
    - exact (t_closed _ _ _ HT).
    - split; [exact Wr|exact (source_lt _ _ Hsrc)].
    - exact Pr.
    - refine (conj _ (conj Wr (conj (source_lt _ _ Hsrc) (conj (fun x => x) (conj _ _))))).
      + constructor; cbn [s0 found colors pred phase group back_edges]; auto; try (intros; contradiction).
        * constructor.
        * intros x. split; [intros []|tauto].
      + left. auto.
      + intros x Hx. now apply (t_gray _ _ _ HT) in Hx.
    - unfold whites. rewrite <- (seq_length N 0) at 2.
      assert (X : forall (f : nat -> bool) l, length (filter f l) <= S (length l)) by (clear; induction l as [|x l IH]; simpl; [lia|destruct (f x); simpl; lia]).
      apply X. }
  destruct HV as (s' & EV & HK & Hb & Hp & Hph & Hkeep & Hwb & (lf & Hfound) & _). rewrite EV.
  (* everything found is black *)
  assert (FB : forall x, In x (found s') <-> colors (dfs st) x = White /\ colors s' x = Black).
  { intros x. rewrite (k_found _ _ _ _ _ _ _ HK). split.
    - intros [H1 H2]. split; auto. destruct (Hwb x H1); [tauto|auto].
    - intros [H1 H2]. split; auto. rewrite H2. discriminate. }
  assert (Rin : In r (found s')) by (rewrite Hfound; apply in_or_app; right; left; auto).
  assert (Rpr : pred s' r = r) by (apply (k_root _ _ _ _ _ _ _ HK Rin)).
  assert (HTree : forall x, In x (found s') -> x <> r -> earlier (found s') (pred s' x) x /\ adj (pred s' x) x).
  { intros x Hx Hn. destruct (k_tree _ _ _ _ _ _ _ HK x Hx Hn) as (H1 & sh & H2 & _). split; auto. now exists sh. }
  assert (HCls : forall x y, In x (found s') -> adj x y -> In y (found s') /\
    (pred s' x = y \/ pred s' y = x \/ In (x, y) (back_edges s') \/ In (y, x) (back_edges s'))).
  { intros x y Hx. apply (k_black _ _ _ _ _ _ _ HK); auto. now apply FB. }
  assert (HBack := k_back _ _ _ _ _ _ _ HK).
  assert (HN := k_nodup _ _ _ _ _ _ _ HK).
  (* the phases *)
  assert (HPath : forall x, In x (found s') -> path r x (phase s' x)).
  { assert (X : forall k x l1 l2, length l1 <= k -> found s' = l1 ++ x :: l2 -> path r x (phase s' x)).
    { assert (R : path r r (phase s' r)) by (destruct (k_root _ _ _ _ _ _ _ HK Rin) as [_ ->]; cbn [s0 phase]; rewrite Hr; constructor).
      induction k as [|k IH]; intros y l1 l2 Hl HL; (destruct (Nat.eq_dec y r) as [->|Hn]; [exact R|]);
        assert (Hy : In y (found s')) by (rewrite HL; apply in_or_app; right; left; auto);
        destruct (k_tree _ _ _ _ _ _ _ HK y Hy Hn) as ((m1 & m2 & EL & Hin) & sh & He & ->);
        destruct (NoDup_split_unique _ y m1 m2 HN l1 l2 EL HL) as [-> ->].
      - destruct l1; [destruct Hin|simpl in Hl; lia].
      - eapply path_step; [|apply edge_link; exact He]. apply in_split in Hin as (a & b & ->). apply (IH (pred s' y) a (b ++ y :: l2)).
        + rewrite app_length in Hl. simpl in Hl. lia.
        + rewrite EL, <- app_assoc. reflexivity. }
    intros x Hx. apply in_split in Hx as (l1 & l2 & HL). eapply X; [apply le_n|exact HL]. }
  assert (FN : forall x, In x (found s') -> x < N).
  { intros x Hx. destruct (Nat.eq_dec x r) as [->|Hn]; [exact (source_lt _ _ Hsrc)|]. destruct (HTree x Hx Hn) as [_ Ha]. exact (adj_lt _ _ Ha). }
  assert (Flen : length (found s') < S N).
  { assert (length (found s') <= length (seq 0 N)); [|rewrite seq_length in *; lia].
    apply NoDup_incl_length; auto. intros x Hx. apply in_seq. apply FN in Hx. lia. }
  (* the numbering *)
  assert (RS : exists nodes0 fills cyc radial,
    (match back_edges s' with
     | [] => Some (rev (found s'), [], in_cycle st, true)
     | p :: l => match reorder_node (S N) (pred s') (found s') (p :: l) (in_cycle st) with
                 | Some (l, f, c) => Some (l, f, c, false) | None => None end
     end) = Some (nodes0, fills, cyc, radial) /\ numbered (found s') adj nodes0 fills /\ (forall x, ~ In x (found s') -> cyc x = in_cycle st x)).
  { destruct (back_edges s') as [|p bl] eqn:Eb.
    - eexists _, _, _, _. refine (conj eq_refl (conj _ (fun _ _ => eq_refl))).
      apply (radial_spec (pred s') (found s') [] r adj adj_irr HN Rin Rpr HTree); auto.
    - destruct (reorder_spec (pred s') (found s') (p :: bl) r adj adj_sym adj_irr HN Rin Rpr HTree HCls HBack (S N) (in_cycle st)) as (l & f & cy & -> & H1 & H2).
      + discriminate.
      + exact Flen.
      + intros x Hx. apply FB in Hx as [Hx _]. now apply (t_white _ _ _ HT).
      + eauto 10. }
  destruct RS as (l & fills & cyc & radial & -> & (LN & LF & LC) & HO).
  destruct (assign_positions_spec l (position st) LN) as [AP1 AP2].
  eexists _, (nodes ++ [l]). split; [reflexivity|].
  assert (GR : forall x, group s' x = if in_dec Nat.eq_dec x (found s') then Some m else group (dfs st) x) by (exact (k_group _ _ _ _ _ _ _ HK)).
  assert (SAME : forall x, ~ In x (found s') -> pred s' x = pred (dfs st) x /\ phase s' x = phase (dfs st) x).
  { intros x Hx. exact (k_same _ _ _ _ _ _ _ HK x Hx (fun f => f)). }
  assert (COL : forall x, ~ In x (found s') -> colors s' x = colors (dfs st) x) by (exact (k_other _ _ _ _ _ _ _ HK)).
  assert (OLD : forall x g, group (dfs st) x = Some g -> ~ In x (found s')).
  { intros x g Hg Hx. apply FB in Hx as [Hx _]. apply (t_white _ _ _ HT) in Hx as (Hx & _). congruence. }
  assert (GLT : forall x g, group (dfs st) x = Some g -> g < m).
  { intros x g Hg. destruct (colors (dfs st) x) eqn:E.
    - apply (t_white _ _ _ HT) in E as (E & _). congruence.
    - now apply (t_gray _ _ _ HT) in E.
    - apply (t_black _ _ _ HT) in E as (g' & E & Hlt). unfold m. congruence. }
  assert (GNEW : forall x, group s' x = Some m <-> In x (found s')).
  { intros x. rewrite GR. destruct (in_dec Nat.eq_dec x (found s')); [tauto|]. split; [|tauto]. intros H. apply GLT in H. lia. }
  constructor; cbn [dfs in_cycle position models].
  - intros x. destruct (in_dec Nat.eq_dec x (found s')) as [Hi|Hi].
    + apply FB in Hi as [_ Hi]. congruence.
    + rewrite COL by auto. apply (t_gray _ _ _ HT).
  - intros x y Hx Ha. destruct (in_dec Nat.eq_dec x (found s')) as [Hi|Hi].
    + destruct (HCls x y Hi Ha) as [Hy _]. now apply FB.
    + assert (Hj : ~ In y (found s')) by (intros Hj; apply Hi; now apply (HCls y x Hj (adj_sym _ _ Ha))).
      rewrite COL in * by auto. exact (t_closed _ _ _ HT x y Hx Ha).
  - intros x Hx. assert (Hi : ~ In x (found s')) by (intros Hi; apply FB in Hi as [_ Hi]; congruence).
    rewrite COL in Hx by auto. destruct (t_white _ _ _ HT x Hx) as (A1 & A2 & A3 & A4 & A5).
    rewrite GR. destruct (SAME x Hi) as [-> ->]. destruct (in_dec Nat.eq_dec x (found s')); [tauto|].
    rewrite HO, AP2 by (rewrite ?LF; auto). auto.
  - intros x Hx. rewrite app_length. simpl. destruct (in_dec Nat.eq_dec x (found s')) as [Hi|Hi].
    + exists m. split; [now apply GNEW|unfold m; lia].
    + rewrite COL in Hx by auto. apply (t_black _ _ _ HT) in Hx as (g & Hg & Hlt). exists g. split; [|lia].
      rewrite GR. destruct (in_dec Nat.eq_dec x (found s')); [tauto|auto].
  - rewrite !app_length, (t_len _ _ _ HT). reflexivity.
  - intros g l' m' Hl' Hm'. destruct (Nat.lt_ge_cases g m) as [Hg|Hg].
    + rewrite nth_error_app1 in Hl' by (rewrite (t_len _ _ _ HT); auto). rewrite nth_error_app1 in Hm' by auto.
      destruct (t_model _ _ _ HT g l' m' Hl' Hm') as [S1 S2 S3 S4 S5 (r' & k & B1 & B2 & B3 & B4 & B5)].
      assert (SL : forall x, In x l' -> ~ In x (found s')) by (intros x Hx; apply S2 in Hx; eapply OLD; eauto).
      constructor; cbn [dfs position]; auto.
      * intros x. rewrite S2, GR. destruct (in_dec Nat.eq_dec x (found s')) as [Hi|Hi]; [|tauto]. split.
        { intros H. apply OLD in H. tauto. } { intros [= H]. lia. }
      * intros i x Hi. rewrite AP2; [auto|]. rewrite LF. apply SL. now apply nth_error_In in Hi.
      * rewrite S4. apply map_ext_in. intros x Hx. symmetry. now apply SAME, SL.
      * exists r', k. refine (conj B1 (conj _ (conj B3 (conj _ _)))); [lia| |].
        { intros k' r'' Hk Hs. rewrite GR. destruct (in_dec Nat.eq_dec r'' (found s')); [intros [= H]; lia|eauto]. }
        { intros x Hx. destruct (SAME x (SL x Hx)) as [_ ->]. auto. }
    + assert (g = m) as ->.
      { assert (g < length (models st ++ [mkMathGraph (match assign_positions l (position st) r with Some p => p | None => 0 end) radial (map (phase s') l) fills])) by (apply nth_error_Some; congruence).
        rewrite app_length in H. simpl in H. fold m in H. lia. }
      rewrite nth_error_app2 in Hl' by (rewrite (t_len _ _ _ HT); auto). rewrite (t_len _ _ _ HT) in Hl'. fold m in Hl'. rewrite Nat.sub_diag in Hl'. injection Hl' as <-.
      rewrite nth_error_app2 in Hm' by auto. fold m in Hm'. rewrite Nat.sub_diag in Hm'. injection Hm' as <-.
      constructor; cbn [dfs position phase_shift fill_in slack_bus]; auto.
      * intros x. now rewrite LF, GNEW.
      * assert (Hrl : In r l) by (now apply LF). apply In_nth_error in Hrl as [p Hp']. exists r, k0. rewrite (AP1 p r Hp').
        refine (conj Hsrc (conj _ (conj Hp' (conj _ _)))); [lia| |].
        { intros k' r'' Hk Hs H. apply GNEW in H. apply FB in H as [H _]. apply (t_white _ _ _ HT) in H as [H _].
          exact (t_done _ _ _ HT k' r'' Hk Hs H). }
        { intros x Hx. apply HPath. now apply LF. }
  - intros x y Ha. rewrite !GR. destruct (in_dec Nat.eq_dec x (found s')) as [Hi|Hi]; destruct (in_dec Nat.eq_dec y (found s')) as [Hj|Hj]; auto.
    + exfalso. apply Hj. now apply (HCls x y Hi Ha).
    + exfalso. apply Hi. now apply (HCls y x Hj (adj_sym _ _ Ha)).
    + exact (t_group _ _ _ HT x y Ha).
  - intros k x Hk Hx. rewrite GR. destruct (in_dec Nat.eq_dec x (found s')) as [Hi|Hi]; [discriminate|].
    destruct (Nat.eq_dec k k0) as [->|]; [|apply (t_done _ _ _ HT k); auto; lia].
    assert (x = r) as -> by (destruct Hx, Hsrc; congruence). tauto.
Qed.

Lemma search_all rest : forall k0 st nodes, skipn k0 sources = rest -> T k0 st nodes ->
  exists st' nodes', foldM_opt (search_source padd (S N) es) rest st = Some st' /\ T (length sources) st' nodes'.
Proof.
  induction rest as [|[b r] rest IH]; intros k0 st nodes Hs HT; cbn [foldM_opt].
  - exists st, nodes. split; auto. assert (Hl : length (skipn k0 sources) = 0) by (now rewrite Hs). rewrite skipn_length in Hl.
    destruct HT as [A1 A2 A3 A4 A5 A6 A7 A8]. constructor; auto.
    + intros g l m H1 H2. specialize (A6 g l m H1 H2) as [S1 S2 S3 S4 S5 (r & k & B1 & B2 & B3)]. constructor; auto. exists r, k. split; auto. split; auto.
      destruct B1 as [B1 B1']. apply nth_error_Some. rewrite (proj2 (nth_combine _ _ k true r)) by auto. discriminate.
    + intros k r Hk. apply A8. lia.
  - assert (Hn : nth_error sources k0 = Some (b, r)).
    { clear - Hs. revert k0 Hs. generalize sources as l. induction l as [|x l IH]; intros [|k0] Hs; simpl in *; try discriminate; [congruence|auto]. }
    assert (Hs' : skipn (S k0) sources = rest).
    { clear - Hs. revert k0 Hs. generalize sources as l. induction l as [|x l IH]; intros [|k0] Hs; simpl in *; try discriminate; [congruence|].
      destruct l; [destruct k0; discriminate|]. now apply IH. }
    destruct b.
    + destruct (search_step k0 st nodes r HT) as (st1 & nodes1 & -> & HT1); [now apply nth_combine in Hn|]. exact (IH (S k0) st1 nodes1 Hs' HT1).
    + cbn [search_source negb]. apply (IH (S k0) st nodes Hs'). destruct HT as [A1 A2 A3 A4 A5 A6 A7 A8]. constructor; auto.
      * intros g l m H1 H2. apply sub_grid_mono with k0; auto.
      * intros k x Hk Hx. destruct (Nat.eq_dec k k0) as [->|]; [|apply (A8 k); auto; lia]. apply nth_combine in Hn as [Hn _]. destruct Hx. congruence.
Qed.

Lemma dfs_search_T : exists st nodes, dfs_search padd p0 popp t c = Some st /\ T (length sources) st nodes.
Proof. apply (search_all sources 0 (search_init p0) []); [reflexivity|exact T_init]. Qed.
End Facts.
