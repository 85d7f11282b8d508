(** C19 and C20: the admittance matrix. *)
From Verif Require Import Common NatMap GroupedIdx GroupedIdxFacts YBus YBusSpec YBusFacts YBusScan YBusGrid.

(** ** the transpose map *)
Lemma fill_transpose_spec (R : nat -> nat -> Prop) od : forall v, (forall a b, In (a, b) od -> a < length v /\ b < length v /\ R a b /\ R b a) ->
  exists v', fill_transpose od v = Some v' /\ length v' = length v /\
    forall e x, nth_error v' e = Some x -> R e x \/ (nth_error v e = Some x /\ forall a b, In (a, b) od -> e <> a /\ e <> b).
Proof.
  unfold fill_transpose. induction od as [|[a b] od IH]; intros v H; cbn [fold_left].
  - exists v. split; [reflexivity|]. split; [reflexivity|]. intros e x He. right. split; [exact He|]. intros a b [].
  - destruct (H a b (or_introl eq_refl)) as (Ha & Hb & Rab & Rba). cbn [fst snd]. rewrite set_at_Some by auto. rewrite set_at_Some by (rewrite upd_length; auto).
    destruct (IH (upd b a (upd a b v))) as (v' & E & Hl & Hv).
    { intros a' b' Hin. rewrite !upd_length. apply H. simpl. auto. }
    rewrite !upd_length in Hl. exists v'. split; auto. split; auto. intros e x He. destruct (Hv e x He) as [|[Hx Hn]]; auto.
    destruct (Nat.eq_dec e b) as [->|Hb'].
    { rewrite nth_error_upd_eq in Hx by (rewrite upd_length; auto). injection Hx as <-. auto. }
    rewrite nth_error_upd_neq in Hx by auto. destruct (Nat.eq_dec e a) as [->|Ha'].
    { rewrite nth_error_upd_eq in Hx by auto. injection Hx as <-. auto. }
    rewrite nth_error_upd_neq in Hx by auto. right. split; auto. intros a' b' [[= <- <-]|Hin]; auto.
Qed.

Lemma in_firstn {A} k (l : list A) x : In x (firstn k l) -> In x l.
Proof. intros H. rewrite <- (firstn_skipn k l). apply in_or_app. auto. Qed.
Lemma in_skipn {A} k (l : list A) x : In x (skipn k l) -> In x l.
Proof. intros H. rewrite <- (firstn_skipn k l). apply in_or_app. auto. Qed.
(** ** segments of concatenated lists *)
Lemma segment {A B} (f : A -> list B) l e c : nth_error l e = Some c ->
  firstn (length (flat_map f (firstn (S e) l)) - length (flat_map f (firstn e l))) (skipn (length (flat_map f (firstn e l))) (flat_map f l)) = f c.
Proof.
  revert e. induction l as [|a l IH]; intros [|e] H; try discriminate.
  - injection H as ->. simpl. rewrite app_nil_r, Nat.sub_0_r. rewrite firstn_app, firstn_all, Nat.sub_diag. apply app_nil_r.
  - simpl in H. specialize (IH e H). cbn [firstn flat_map]. cbn [firstn] in IH. rewrite !app_length.
    rewrite skipn_app, skipn_all2 by lia. cbn [app]. rewrite <- IH. cbn [firstn flat_map]. f_equal; [|f_equal]; lia.
Qed.

Section Grid.
Variable t : math_topo.
Hypothesis ok : sub_grid_ok t.
Notation n := (mt_n_bus t).
Notation vec := (elements t).
Notation B := (bucket vec).
Notation cs := (cells vec n).
Notation is_y := (is_y B).
Notation ycs := (filter is_y cs).
Notation head_of := (head_of B).
Notation nb := (length (mt_branch t)).
Notation nf := (length (mt_fill_in t)).

Lemma in_cells i j : In (i, j) cs <-> (exists c, member t c i j) \/ filled t i j.
Proof.
  rewrite cells_In. simpl. split.
  - intros [_ Hne]. destruct (B (i, j)) as [|e b] eqn:E; [congruence|].
    assert (He : In e (B (i, j))) by (rewrite E; simpl; auto). apply (bucket_elements t ok) in He as [_ [H|H]]; [eauto|right; eapply fill_member_filled; eauto].
  - intros H. assert (Hc : exists c, member t c i j \/ fill_member t c i j) by (destruct H as [[c Hc]|H]; [eauto|apply filled_fill_member in H as [c Hc]; eauto]).
    destruct Hc as [c Hc]. assert (Hin : In (mkMap (i, j) c) (B (i, j))) by (apply (bucket_elements t ok); auto). split.
    + destruct Hc as [Hc|Hc]; [apply (member_range t ok) in Hc|apply (fill_member_range t ok) in Hc]; tauto.
    + intros E. rewrite E in Hin. destruct Hin.
Qed.
Lemma head_in c : In c cs -> In (head_of c) (B c).
Proof. intros H. apply cells_In in H as [_ H]. unfold YBusScan.head_of. destruct (B c); [congruence|simpl; auto]. Qed.
Lemma is_y_iff i j : In (i, j) cs -> (is_y (i, j) = true <-> exists c, member t c i j).
Proof.
  intros H. assert (Hh := head_in _ H). destruct (is_fill_spec t ok _ i j Hh) as [A1 A2]. unfold YBusScan.is_y. rewrite negb_true_iff. split.
  - intros E. apply A1 in E. eauto.
  - intros [c Hc]. assert (Hin : In (mkMap (i, j) c) (B (i, j))) by (apply (bucket_elements t ok); auto).
    rewrite (same_kind t ok i j _ _ Hh Hin). destruct (is_fill_spec t ok _ i j Hin) as [B1 _]. now apply B1.
Qed.
Lemma not_y_filled i j : In (i, j) cs -> is_y (i, j) = false -> filled t i j.
Proof.
  intros H E. assert (Hh := head_in _ H). destruct (is_fill_spec t ok _ i j Hh) as [A1 A2]. unfold YBusScan.is_y in E. rewrite negb_false_iff in E.
  apply A2 in E. eapply fill_member_filled; eauto.
Qed.
Lemma y_no_fill c : In c cs -> is_y c = true -> forall e, In e (B c) -> is_fill e = false.
Proof.
  intros H E e He. destruct c as [i j]. rewrite (same_kind t ok i j e (head_of (i, j)) He (head_in _ H)). unfold YBusScan.is_y in E. now apply negb_true_iff in E.
Qed.
Lemma in_ycs i j : In (i, j) ycs <-> exists c, member t c i j.
Proof.
  rewrite filter_In. split.
  - intros [H E]. now apply is_y_iff in E.
  - intros Hc. assert (H : In (i, j) cs) by (apply in_cells; auto). split; auto. now apply is_y_iff.
Qed.

Lemma hyp_fill c : In c cs -> is_y c = false -> B c = [head_of c] /\ fst c <> snd c.
Proof.
  intros H E. destruct c as [i j]. assert (Hh := head_in _ H). split.
  - assert (Hall : forall e, In e (B (i, j)) -> e = head_of (i, j)).
    { intros e He. unfold YBusScan.is_y in E. rewrite negb_false_iff in E.
      assert (Ee : is_fill e = true) by (rewrite (same_kind t ok i j e _ He Hh); auto).
      apply (is_fill_spec t ok _ i j He) in Ee. apply (is_fill_spec t ok _ i j Hh) in E.
      apply (vec_el t ok); [apply bucket_In in He; tauto|apply bucket_In in Hh; tauto|]. eapply (fill_member_unique t ok); eauto. }
    assert (HN := bucket_NoDup t (i, j)). destruct (B (i, j)) as [|e [|e' b]]; [destruct Hh| |].
    + rewrite (Hall e) by (simpl; auto). reflexivity.
    + exfalso. apply NoDup_cons_iff in HN as [HN _]. apply HN. rewrite (Hall e), (Hall e') by (simpl; auto). simpl. auto.
  - apply not_y_filled, filled_fill_member in E as [c Hc]; auto. apply (fill_member_range t ok) in Hc. simpl. tauto.
Qed.
(** the head of a cell outside the diagonal *)
Lemma off_head c : In c cs -> fst c <> snd c -> exists k, el_idx (el (head_of c)) = k /\
  ((el_type (el (head_of c)) = E_bft \/ el_type (el (head_of c)) = E_btf) /\ k < nb \/
   (el_type (el (head_of c)) = E_fill_ft \/ el_type (el (head_of c)) = E_fill_tf) /\ k < nf).
Proof.
  intros H Hd. destruct c as [i j]. simpl in Hd. assert (Hh := head_in _ H). exists (el_idx (el (head_of (i, j)))). split; auto.
  apply (bucket_elements t ok) in Hh as [_ [Hm|Hm]].
  - left. inversion Hm as [k f o Hk E1|k f o Hk E1|k f o Hk E1|k f o Hk E1|k b Hk E1]; try (exfalso; congruence); simpl;
      (split; [auto|apply nth_error_Some; congruence]).
  - right. inversion Hm as [k f o Hk E1|k f o Hk E1]; simpl; (split; [auto|apply nth_error_Some; congruence]).
Qed.
Lemma hyp_off c : In c cs -> fst c <> snd c -> side_of (el_type (el (head_of c))) <> None /\ slot_of nb (head_of c) < nb + nf.
Proof.
  intros H Hd. destruct (off_head c H Hd) as (k & E & [[[Et|Et] Hk]|[[Et|Et] Hk]]); unfold slot_of, is_fill; rewrite Et, E; simpl; (split; [discriminate|lia]).
Qed.
Lemma hyp_inj c c' : In c cs -> In c' cs -> fst c <> snd c -> fst c' <> snd c' ->
  slot_of nb (head_of c) = slot_of nb (head_of c') -> side_of (el_type (el (head_of c))) = side_of (el_type (el (head_of c'))) -> c = c'.
Proof.
  intros H H' Hd Hd' Es Esd.
  assert (Ee : el (head_of c) = el (head_of c')).
  { destruct (off_head c H Hd) as (k & E & K), (off_head c' H' Hd') as (k' & E' & K'). unfold slot_of, is_fill in Es. rewrite E, E' in Es.
    destruct (el (head_of c)) as [ty idx], (el (head_of c')) as [ty' idx']. simpl in *. subst idx idx'.
    destruct K as [[[->| ->] Hk]|[[->| ->] Hk]], K' as [[[->| ->] Hk']|[[->| ->] Hk']]; simpl in *; try discriminate; try lia; f_equal; lia. }
  assert (Hh := head_in _ H). assert (Hh' := head_in _ H').
  assert (E : head_of c = head_of c') by (apply (vec_el t ok); auto; [apply bucket_In in Hh|apply bucket_In in Hh']; tauto).
  apply bucket_In in Hh as [_ <-]. apply bucket_In in Hh' as [_ <-]. now rewrite E.
Qed.
Lemma swap_head i j : In (i, j) cs -> i <> j -> In (j, i) cs /\ slot_of nb (head_of (j, i)) = slot_of nb (head_of (i, j)) /\
  side_of (el_type (el (head_of (j, i)))) = option_map negb (side_of (el_type (el (head_of (i, j))))).
Proof.
  intros H Hn. assert (Hh := head_in _ H). assert (E := bucket_flip t i j Hn). split.
  - apply cells_In in H as [H1 H2]. apply cells_In. simpl in *. split; [tauto|]. rewrite E. destruct (B (i, j)); simpl; congruence.
  - assert (Eh : head_of (j, i) = flip (head_of (i, j))) by (unfold YBusScan.head_of; rewrite E; destruct (B (i, j)); [destruct Hh|reflexivity]).
    rewrite Eh. destruct (off_head (i, j) H Hn) as (k & _ & [[[Et|Et] _]|[[Et|Et] _]]); unfold slot_of, is_fill, flip; simpl; rewrite Et; simpl; auto.
Qed.

Definition transposed (l : list (nat * nat)) (e e' : nat) : Prop := exists i j, nth_error l e = Some (i, j) /\ nth_error l e' = Some (j, i).

(** what the structure is made of *)
Record made (s : y_structure) : Prop := {
  md_row : length (row_indptr s) = S n /\ forall r, r <= n -> nth_error (row_indptr s) r = Some (offs (map fst ycs) r);
  md_col : col_indices s = map snd ycs;
  md_row_lu : length (row_indptr_lu s) = S n /\ forall r, r <= n -> nth_error (row_indptr_lu s) r = Some (offs (map fst cs) r);
  md_col_lu : col_indices_lu s = map snd cs;
  md_element : y_bus_element s = map el (flat_map B ycs);
  md_entry : y_bus_entry_indptr s = map (fun k => length (flat_map B (firstn k ycs))) (seq 0 (S (length ycs)));
  md_pos : y_bus_pos_in_entries s = ycs;
  md_bus : length (bus_entry s) = n /\ forall r, r < n -> exists e, nth_error (bus_entry s) r = Some e /\ nth_error ycs e = Some (r, r);
  md_diag : length (diag_lu s) = n /\ forall r, r < n -> exists e, nth_error (diag_lu s) r = Some e /\ nth_error cs e = Some (r, r);
  md_map : length (map_lu_y_bus s) = length cs /\ forall e c m, nth_error cs e = Some c -> nth_error (map_lu_y_bus s) e = Some m ->
    match m with Some e' => nth_error ycs e' = Some c | None => is_y c = false end;
  md_tr : length (lu_transpose_entry s) = length cs /\ forall e e', nth_error (lu_transpose_entry s) e = Some e' -> transposed cs e e' }.

Lemma filter_y_elements : filter (fun e => negb (is_fill e)) (flat_map B cs) = flat_map B ycs.
Proof.
  assert (X : forall l, (forall c, In c l -> In c cs) -> filter (fun e => negb (is_fill e)) (flat_map B l) = flat_map B (filter is_y l)).
  { induction l as [|c l IH]; intros Hl; [reflexivity|]. cbn [flat_map filter]. rewrite filter_app, IH by (intros; apply Hl; simpl; auto).
    assert (Hc : In c cs) by (apply Hl; simpl; auto). destruct (is_y c) eqn:E.
    - cbn [flat_map]. f_equal. assert (Hn := y_no_fill c Hc E).
      clear - Hn. induction (B c) as [|e b IH]; simpl; auto. rewrite (Hn e) by (simpl; auto). simpl. f_equal. apply IH. intros; apply Hn; simpl; auto.
    - destruct (hyp_fill c Hc E) as [-> _]. simpl. unfold YBusScan.is_y in E. now rewrite E. }
  apply X. auto.
Qed.

Lemma build_made : (forall i, i < n -> exists c, member t c i i) -> exists s, build_structure t = Some s /\ made s.
Proof.
  intros Hdiag. assert (Hpos := go_nonempty t ok).
  assert (Ev : counting_sort_element vec n = flat_map B cs) by (apply counting_sort_spec; apply (vec_range t ok)).
  assert (Hin : forall r, r < n -> In (r, r) cs) by (intros r Hr; apply in_cells; auto).
  assert (Hrange : forall c, In c cs -> fst c < n /\ snd c < n) by (intros c Hc; apply cells_In in Hc; tauto).
  destruct (scan_spec B n nb (nb + nf) (length (flat_map B cs)) cs (cells_sorted vec n) Hrange Hin) as (s & Es & I).
  - intros c e He. apply bucket_In in He. tauto.
  - intros c Hc. apply cells_In in Hc. tauto.
  - exact hyp_fill.
  - exact hyp_off.
  - exact hyp_inj.
  - reflexivity.
  - unfold build_structure. rewrite Ev, Es.
    destruct I as [I1 I2 I3 I4 I5 I6 I7 I8 I9 I10 I11 I12 I13 I14 I15].
    destruct (rows_close n ycs _ _ I9) as (ri & Eri & Lri & Hri); auto.
    { intros c Hc. apply filter_In in Hc as [Hc _]. now apply Hrange. }
    { intros r Hr. exists (r, r). split; auto. apply in_ycs. auto. }
    destruct (rows_close n cs _ _ I8) as (ril & Eril & Lril & Hril); auto.
    { intros c Hc. now apply Hrange. }
    { intros r Hr. exists (r, r). auto. }
    unfold sc_nnz, sc_nnz_lu. rewrite I1, I2, !map_length, Eri, Eril.
    assert (E0 : (nb =? 0) && (dense_element_size (mt_shunt t) =? 0) = false).
    { destruct (Hdiag 0 Hpos) as [c Hc]. unfold dense_element_size. inversion Hc as [k f o Hk|k f o Hk|k f o Hk|k f o Hk|k b Hk]; subst; try (destruct (mt_branch t); [destruct k; discriminate|reflexivity]).
      destruct (d_vec (mt_shunt t)); [destruct k; discriminate|]. apply andb_false_r. }
    rewrite E0.
    assert (H00 : nth_error cs 0 = Some (0, 0)).
    { assert (H0 := Hin 0 Hpos). apply In_nth_error in H0 as [e He]. destruct (nth_error cs 0) as [c|] eqn:E; [|apply nth_error_None in E; assert (e < length cs) by (apply nth_error_Some; congruence); lia].
      destruct (Nat.eq_dec e 0) as [->|Hne]; [congruence|]. exfalso. assert (Hl := proj1 (cells_nth_lt cs (cells_sorted vec n) 0 e c (0, 0) E He)). unfold cell_lt in Hl. simpl in Hl. lia. }
    destruct (fill_transpose_spec (transposed cs) (sc_off_diag s) (seq 0 (length cs))) as (tr & Etr & Ltr & Htr).
    { intros a b Hab. rewrite seq_length. apply In_nth_error in Hab as [q Hq].
      assert (X : transposed cs a b).
      { destruct (I15 q (a, b) false Hq) as [(c & H1 & H2 & H3 & H4)|[H1 H2]], (I15 q (a, b) true Hq) as [(c' & H1' & H2' & H3' & H4')|[H1' H2']]; simpl in *.
        - destruct c as [i j]. exists i, j. split; auto. simpl in H2. destruct (swap_head i j) as (S1 & S2 & S3); auto; [now apply nth_error_In in H1|].
          assert (Ec : (j, i) = c').
          { apply hyp_inj; [exact S1|now apply nth_error_In in H1'|simpl; auto|exact H2'|congruence|]. rewrite S3, H4, H4'. reflexivity. }
          rewrite Ec. exact H1'.
        - exfalso. destruct c as [i j]. simpl in H2. destruct (swap_head i j) as (S1 & S2 & S3); auto; [now apply nth_error_In in H1|].
          apply (H2' (j, i)); [exact S1|simpl; auto|congruence|]. rewrite S3, H4. reflexivity.
        - exfalso. destruct c' as [i j]. simpl in H2'. destruct (swap_head i j) as (S1 & S2 & S3); auto; [now apply nth_error_In in H1'|].
          apply (H2 (j, i)); [exact S1|simpl; auto|congruence|]. rewrite S3, H4'. reflexivity.
        - subst a b. exists 0, 0. auto. }
      destruct X as (i & j & X1 & X2). split; [apply nth_error_Some; congruence|]. split; [apply nth_error_Some; congruence|]. split; [exists i, j; auto|exists j, i; auto]. }
    rewrite Etr. eexists. split; [reflexivity|]. constructor; cbn [row_indptr col_indices y_bus_element y_bus_entry_indptr y_bus_pos_in_entries bus_entry row_indptr_lu col_indices_lu diag_lu map_lu_y_bus lu_transpose_entry]; auto.
    + now rewrite filter_y_elements.
    + rewrite seq_length in Ltr. split; auto. intros e e' He. destruct (Htr e e' He) as [|[He' Hn]]; auto.
      assert (Hlt : e < length cs) by (rewrite <- Ltr; apply nth_error_Some; congruence).
      rewrite nth_error_nth' with (d := 0) in He' by (rewrite seq_length; auto). rewrite seq_nth in He' by auto. injection He' as <-. simpl.
      destruct (nth_error cs e) as [[i j]|] eqn:Ec; [|apply nth_error_None in Ec; lia]. destruct (Nat.eq_dec i j) as [->|Hd]; [exists j, j; auto|].
      exfalso. assert (Hc := nth_error_In _ _ Ec). destruct (hyp_off _ Hc Hd) as [Hs Hq]. destruct (side_of (el_type (el (head_of (i, j))))) as [sd|] eqn:Esd; [|congruence].
      assert (Hod : exists ab, nth_error (sc_off_diag s) (slot_of nb (head_of (i, j))) = Some ab).
      { destruct (nth_error (sc_off_diag s) (slot_of nb (head_of (i, j)))) eqn:E; eauto. apply nth_error_None in E. lia. }
      destruct Hod as [[a b] Hab]. destruct (I15 _ (a, b) sd Hab) as [(c & H1 & H2 & H3 & H4)|[H1 H2]]; [|eapply H2; eauto].
      assert (c = (i, j)) as -> by (apply hyp_inj; auto; [now apply nth_error_In in H1|congruence]).
      assert (Ex : side sd (a, b) = e).
      { assert (HN : NoDup cs) by (clear; assert (HS := cells_sorted vec n); induction HS as [|c l HS IH HF]; constructor; auto; intros Hin; rewrite Forall_forall in HF; apply (cell_lt_irr c); auto).
        apply (proj1 (NoDup_nth_error cs) HN); [apply nth_error_Some|]; congruence. }
      destruct (Hn a b (nth_error_In _ _ Hab)) as [Hna Hnb]. destruct sd; simpl in Ex; congruence.
Qed.

Lemma ycs_sorted : StronglySorted cell_lt ycs.
Proof. apply StronglySorted_filter, cells_sorted. Qed.
Lemma made_ok s : made s -> (forall i, i < n -> exists c, member t c i i) -> structure_ok t s.
Proof.
  intros [M1 M2 M3 M4 M5 M6 M7 M8 M9 M10 M11] Hdiag.
  assert (Hrange : forall c, In c cs -> fst c < n /\ snd c < n) by (intros c Hc; apply cells_In in Hc; tauto).
  assert (Hrange' : forall c, In c ycs -> fst c < n /\ snd c < n) by (intros c Hc; apply filter_In in Hc as [Hc _]; auto).
  assert (AY : forall e i j, csr_at (row_indptr s) (col_indices s) e i j <-> nth_error ycs e = Some (i, j)).
  { intros e i j. rewrite M2. apply (csr_at_cells n); [apply ycs_sorted|auto|apply M1|apply M1]. }
  assert (AL : forall e i j, csr_at (row_indptr_lu s) (col_indices_lu s) e i j <-> nth_error cs e = Some (i, j)).
  { intros e i j. rewrite M4. apply (csr_at_cells n); [apply cells_sorted|auto|apply M3|apply M3]. }
  assert (HN : NoDup ycs).
  { clear. assert (HS := ycs_sorted). induction HS as [|c l HS IH HF]; constructor; auto. intros Hin. rewrite Forall_forall in HF. apply (cell_lt_irr c); auto. }
  constructor.
  - rewrite M2. apply csr_cells; [apply ycs_sorted|auto|apply M1|apply M1].
  - rewrite M4. apply csr_cells; [apply cells_sorted|auto|apply M3|apply M3].
  - intros i j. split.
    + intros [e He]. apply AY, nth_error_In, in_ycs in He. auto.
    + intros H. assert (Hm : exists c, member t c i j) by (destruct H as [[-> H]|H]; auto). apply in_ycs, In_nth_error in Hm as [e He]. exists e. now apply AY.
  - intros i j. split.
    + intros [e He]. apply AL, nth_error_In, in_cells in He as [H|H]; auto. left. apply in_ycs, In_nth_error in H as [e' He']. exists e'. now apply AY.
    + intros H. assert (Hc : In (i, j) cs).
      { destruct H as [[e He]|H]; [apply AY, nth_error_In, filter_In in He; tauto|apply in_cells; auto]. }
      apply In_nth_error in Hc as [e He]. exists e. now apply AL.
  - destruct M8 as [Hl M8]. split; auto. intros i e He. destruct (M8 i) as (e' & He' & Hy); [rewrite <- Hl; apply nth_error_Some; congruence|]. apply AY. congruence.
  - destruct M9 as [Hl M9]. split; auto. intros i e He. destruct (M9 i) as (e' & He' & Hy); [rewrite <- Hl; apply nth_error_Some; congruence|]. apply AL. congruence.
  - destruct M10 as [Hl M10]. rewrite M4, map_length. split; auto. intros e i j m Hm He. rewrite <- M4 in He. apply AL in He. specialize (M10 e (i, j) m He Hm).
    destruct m as [e'|]; [now apply AY|]. apply not_y_filled; auto. now apply nth_error_In in He.
  - destruct M11 as [Hl M11]. rewrite M4, map_length. split; auto. intros e i j e' He Ha. rewrite <- M4 in Ha |- *. apply AL in Ha. apply AL.
    destruct (M11 e e' He) as (i' & j' & H1 & H2). congruence.
  - rewrite M6, M2, !map_length, seq_length. reflexivity.
  - intros c i j Hm. assert (Hy : In (i, j) ycs) by (apply in_ycs; eauto). apply In_nth_error in Hy as [e He].
    assert (Hel : e < length ycs) by (apply nth_error_Some; congruence).
    assert (Hc : In c (map el (B (i, j)))) by (apply in_map_iff; exists (mkMap (i, j) c); split; auto; apply (bucket_elements t ok); auto).
    apply In_nth_error in Hc as [p Hp]. assert (Hpl : p < length (B (i, j))) by (rewrite <- (map_length el); apply nth_error_Some; congruence).
    exists (length (flat_map B (firstn e ycs)) + p), e, (length (flat_map B (firstn e ycs))), (length (flat_map B (firstn (S e) ycs))).
    assert (Esplit : ycs = firstn e ycs ++ (i, j) :: skipn (S e) ycs).
    { rewrite <- (firstn_skipn e ycs) at 1. f_equal. clear - He. revert e He. induction ycs as [|a l IH]; intros [|e] He; try discriminate; simpl in *; [congruence|auto]. }
    assert (Ef : firstn (S e) ycs = firstn e ycs ++ [(i, j)]).
    { clear - He. revert e He. induction ycs as [|a l IH]; intros [|e] He; try discriminate; simpl in *; [congruence|]. f_equal. now apply IH. }
    rewrite M6. rewrite !nth_error_map, !nth_error_nth' with (d := 0) by (rewrite seq_length; lia). rewrite !seq_nth by lia. cbn [option_map Nat.add].
    split; [|split; [now apply AY|split; [reflexivity|split; [reflexivity|]]]].
    + assert (Efl : flat_map B ycs = flat_map B (firstn e ycs) ++ B (i, j) ++ flat_map B (skipn (S e) ycs)).
      { transitivity (flat_map B (firstn e ycs ++ (i, j) :: skipn (S e) ycs)); [f_equal; exact Esplit|apply flat_map_app]. }
      rewrite M5, Efl, map_app, nth_error_app2 by (rewrite map_length; lia). rewrite map_length.
      replace (_ + p - _) with p by lia. rewrite map_app, nth_error_app1 by (rewrite map_length; auto). exact Hp.
    + rewrite Ef, flat_map_app, app_length. cbn [flat_map]. rewrite app_nil_r. lia.
  - rewrite M5. rewrite map_flat_map. apply NoDup_flat_map_in; auto.
    + intros c Hc. assert (HB := bucket_NoDup t c). assert (Hin : forall e, In e (B c) -> In e vec) by (intros e He; apply bucket_In in He; tauto).
      clear - HB Hin ok. induction (B c) as [|e b IH]; simpl; constructor.
      * intros Hx. apply in_map_iff in Hx as (e' & E & He'). apply NoDup_cons_iff in HB as [HB _]. apply HB.
        assert (e' = e) as -> by (apply (vec_el t ok); auto; apply Hin; simpl; auto). auto.
      * apply IH; [now apply NoDup_cons_iff in HB|intros; apply Hin; simpl; auto].
    + intros c c' x _ _ H1 H2. apply in_map_iff in H1 as (e & <- & He). apply in_map_iff in H2 as (e' & E & He').
      apply bucket_In in He as [He <-]. apply bucket_In in He' as [He' <-]. f_equal. apply (vec_el t ok); auto.
  - intros c Hc. rewrite M5 in Hc. apply in_map_iff in Hc as (e & <- & He). apply in_flat_map in He as ([i j] & Hy & He). exists i, j.
    apply filter_In in Hy as [Hc Hy]. apply (is_fill_spec t ok e i j He). now apply (y_no_fill (i, j) Hc Hy).
Qed.

(** the elements of an entry are the incident branch sides and shunts *)
Lemma made_elements s : made s -> forall e i j, csr_at (row_indptr s) (col_indices s) e i j -> entry_elements s e = incident t i j.
Proof.
  intros [M1 M2 M3 M4 M5 M6 M7 M8 M9 M10 M11] e i j He.
  assert (Hrange' : forall c, In c ycs -> fst c < n /\ snd c < n) by (intros c Hc; apply filter_In in Hc as [Hc _]; apply cells_In in Hc; tauto).
  rewrite M2 in He. apply (csr_at_cells n) in He; [|apply ycs_sorted|auto|apply M1|apply M1].
  assert (Hel : e < length ycs) by (apply nth_error_Some; congruence).
  unfold entry_elements. rewrite M5, M6.
  assert (Hnth : forall k, k <= length ycs -> nth k (map (fun k => length (flat_map B (firstn k ycs))) (seq 0 (S (length ycs)))) 0 = length (flat_map B (firstn k ycs))).
  { intros k Hk. apply nth_error_nth. rewrite nth_error_map, nth_error_nth' with (d := 0) by (rewrite seq_length; lia). rewrite seq_nth by lia. reflexivity. }
  rewrite !Hnth by lia.
  rewrite skipn_map, firstn_map, (segment B ycs e (i, j) He).
  assert (Hy := nth_error_In _ _ He). apply filter_In in Hy as [Hc Hy]. apply (bucket_incident t ok).
  - now apply (y_no_fill (i, j)).
  - apply cells_In in Hc. simpl in Hc. tauto.
Qed.
End Grid.

(** one bus without branches and shunts: 270-283 *)
Lemma lone_bus t : sub_grid_ok t -> mt_n_bus t = 1 -> mt_branch t = [] -> d_vec (mt_shunt t) = [] ->
  build_structure t = Some (mkYStructure [0; 1] [0] [] [0; 0] [] [0] [0; 1] [0] [0] [Some 0] [0]).
Proof.
  intros ok En Eb Es. assert (Ef : mt_fill_in t = []).
  { assert (H := go_fill t ok). destruct (mt_fill_in t) as [|[i j] l]; auto. destruct (H i j (or_introl eq_refl)) as (H1 & H2 & H3). rewrite En in *. lia. }
  assert (Ed := go_shunt_num t ok). destruct t as [n b [v m] f]. simpl in *. subst. reflexivity.
Qed.
Lemma csr_at_one e i j : csr_at [0; 1] [0] e i j <-> e = 0 /\ i = 0 /\ j = 0.
Proof.
  unfold csr_at. split.
  - intros [H1 (lo & hi & H2 & H3 & H4)]. assert (He : e < 1) by (change 1 with (length [0]); apply nth_error_Some; congruence).
    assert (e = 0) as -> by lia. simpl in H1. destruct i as [|[|[|i]]]; simpl in *; try discriminate.
    + injection H1 as <-. auto.
  - intros (-> & -> & ->). split; auto. exists 0, 1. auto.
Qed.
Lemma lone_ok t : sub_grid_ok t -> mt_n_bus t = 1 -> mt_branch t = [] -> d_vec (mt_shunt t) = [] ->
  structure_ok t (mkYStructure [0; 1] [0] [] [0; 0] [] [0] [0; 1] [0] [0] [Some 0] [0]).
Proof.
  intros ok En Eb Es. assert (Hm : forall c i j, ~ member t c i j).
  { intros c i j H. inversion H as [k f o Hk|k f o Hk|k f o Hk|k f o Hk|k b Hk]; rewrite ?Eb, ?Es in Hk; destruct k; discriminate. }
  assert (Hf : forall i j, ~ filled t i j).
  { intros i j [H|H]; apply (go_fill t ok) in H; lia. }
  assert (Hcsr : csr (mt_n_bus t) [0; 1] [0]).
  { rewrite En. constructor; simpl; auto.
    - repeat constructor.
    - intros e e' i j j' H1 H2. apply csr_at_one in H1, H2. lia.
    - intros j [<-|[]]. lia. }
  constructor; simpl; auto.
  - intros i j. rewrite En. split.
    + intros [e He]. apply csr_at_one in He. left. lia.
    + intros [H|[c H]]; [|now apply Hm in H]. exists 0. apply csr_at_one. lia.
  - intros i j. split; auto. intros [H|H]; auto. now apply Hf in H.
  - split; auto. intros i e He. apply csr_at_one. destruct i as [|[|i]]; try discriminate. injection He as <-. auto.
  - split; auto. intros i e He. apply csr_at_one. destruct i as [|[|i]]; try discriminate. injection He as <-. auto.
  - split; auto. intros e i j m He Ha. apply csr_at_one in Ha as (-> & -> & ->). injection He as <-. apply csr_at_one. auto.
  - split; auto. intros e i j m He Ha. apply csr_at_one in Ha as (-> & -> & ->). injection He as <-. apply csr_at_one. auto.
  - intros c i j H. now apply Hm in H.
  - constructor.
  - intros c [].
Qed.
(** C19. For every sub-grid the structure is built without leaving an array, both compressed row structures are
    well-formed, the matrix has an entry exactly for the bus pairs joined by something and the diagonal, the factorisation
    structure has exactly the fill-ins more, the maps between them and to transposed entries are right, and each branch
    side and shunt is listed exactly once, at its own entry. *)
Theorem C19_structure t : sub_grid_ok t -> exists s, build_structure t = Some s /\ structure_ok t s.
Proof.
  intros ok. destruct (go_bus t ok) as [H|(En & Eb & Es)].
  - destruct (build_made t ok H) as (s & E & M). exists s. split; auto. apply made_ok; auto.
  - eexists. split; [apply lone_bus; auto|]. apply lone_ok; auto.
Qed.
(** and its elements are in the order of the branches, then of the shunts *)
Theorem C19_elements t s : sub_grid_ok t -> build_structure t = Some s -> forall e i j,
  csr_at (row_indptr s) (col_indices s) e i j -> entry_elements s e = incident t i j.
Proof.
  intros ok E. destruct (go_bus t ok) as [H|(En & Eb & Es)].
  - destruct (build_made t ok H) as (s' & E' & M). assert (s' = s) as -> by congruence. now apply made_elements.
  - rewrite lone_bus in E by auto. injection E as <-. intros e i j He. apply csr_at_one in He as (-> & -> & ->). unfold incident. rewrite Eb, Es. reflexivity.
Qed.

(** ** C20 *)
Section Values.
Context {Y S' : Type} (yadd : Y -> Y -> Y) (y0 : Y).
Notation param := (@model_param Y S').
Notation incr := (@increment Y S').
Notation ybus := (@y_bus Y S').
Notation contribution := (contribution y0).

Definition y_step (s : y_structure) (y : ybus) (u : y_update Y S') : ybus :=
  match u with U_full p => update_admittance yadd y0 s p y | U_increment inc => update_admittance_increment yadd y0 s inc y end.
Definition y_run (s : y_structure) (l : list (y_update Y S')) (y : ybus) : ybus := fold_left (y_step s) l y.

Lemma set_all_changed {A} (ch : list (nat * A)) : forall l, (forall k v, In (k, v) ch -> k < length l) -> changed ch l (set_all ch l).
Proof.
  unfold changed, given, set_all. induction ch as [|[k v] ch IH] using rev_ind; intros l H; [split; auto|].
  destruct (IH l) as [H1 H2]; [intros; apply (H k0 v0); apply in_or_app; auto|]. rewrite fold_left_app, rev_app_distr. cbn [fold_left rev app find fst snd]. rewrite upd_length. split; auto.
  intros k' x Hx. destruct (Nat.eqb_spec k k') as [->|Hn]; simpl.
  - apply nth_error_upd_eq. rewrite H1. apply nth_error_Some. congruence.
  - rewrite nth_error_upd_neq by auto. auto.
Qed.
Lemma changed_other {A} (ch : list (nat * A)) l l' k d : changed ch l l' -> ~ In k (map fst ch) -> nth k l' d = nth k l d.
Proof.
  intros [H1 H2] Hk. destruct (nth_error l k) as [x|] eqn:E.
  - specialize (H2 k x E). unfold given in H2. destruct (find (fun kv => fst kv =? k) (rev ch)) as [[k' v]|] eqn:Ef.
    + apply find_some in Ef as [Hin Hk']. apply Nat.eqb_eq in Hk'. simpl in Hk'. subst k'. apply in_rev in Hin. exfalso. apply Hk. apply in_map_iff. exists (k, v). auto.
    + simpl in H2. rewrite (nth_error_nth l' k d H2), (nth_error_nth l k d E). reflexivity.
  - apply nth_error_None in E. rewrite !nth_overflow by lia. reflexivity.
Qed.

Lemma terms_branches t (p : param) i j : length (p_branch p) = length (mt_branch t) ->
  map (contribution p) (flat_map (fun kb : nat * (option nat * option nat) => let (k, ft) := kb in let (f, o) := ft in
    let here (a b : option nat) := match a, b with Some a, Some b => (a =? i) && (b =? j) | _, _ => false end in
    (if here f f then [mkElement E_bff k] else []) ++ (if here f o then [mkElement E_bft k] else []) ++
    (if here o f then [mkElement E_btf k] else []) ++ (if here o o then [mkElement E_btt k] else [])) (enumerate (mt_branch t))) =
  flat_map (fun bp : (option nat * option nat) * branch_param => let (ft, b) := bp in let (f, o) := ft in
    let here (a b : option nat) := match a, b with Some a, Some b => (a =? i) && (b =? j) | _, _ => false end in
    (if here f f then [yff b] else []) ++ (if here f o then [yft b] else []) ++
    (if here o f then [ytf b] else []) ++ (if here o o then [ytt b] else [])) (combine (mt_branch t) (p_branch p)).
Proof.
  intros HL. unfold enumerate.
  assert (X : forall l ps pre a, p_branch p = pre ++ ps -> a = length pre -> length ps = length l ->
    map (contribution p) (flat_map (fun kb : nat * (option nat * option nat) => let (k, ft) := kb in let (f, o) := ft in
    let here (a b : option nat) := match a, b with Some a, Some b => (a =? i) && (b =? j) | _, _ => false end in
    (if here f f then [mkElement E_bff k] else []) ++ (if here f o then [mkElement E_bft k] else []) ++
    (if here o f then [mkElement E_btf k] else []) ++ (if here o o then [mkElement E_btt k] else [])) (combine (seq a (length l)) l)) =
    flat_map (fun bp : (option nat * option nat) * branch_param => let (ft, b) := bp in let (f, o) := ft in
    let here (a b : option nat) := match a, b with Some a, Some b => (a =? i) && (b =? j) | _, _ => false end in
    (if here f f then [yff b] else []) ++ (if here f o then [yft b] else []) ++
    (if here o f then [ytf b] else []) ++ (if here o o then [ytt b] else [])) (combine l ps)).
  { induction l as [|[f o] l IH]; intros ps pre a Ep Ea El; [destruct ps; reflexivity|]. destruct ps as [|b ps]; [discriminate|]. cbn [length seq combine flat_map].
    rewrite map_app. f_equal; [|apply (IH ps (pre ++ [b]) (S a)); [now rewrite <- app_assoc|rewrite app_length; simpl; lia|simpl in El; lia]].
    assert (Eb : nth a (p_branch p) (zero_branch y0) = b) by (rewrite Ep, Ea, app_nth2, Nat.sub_diag by lia; reflexivity).
    cbv zeta. rewrite !map_app. repeat match goal with |- context [if ?c then [mkElement _ _] else _] => destruct c end; cbn; rewrite ?Eb; reflexivity. }
  apply (X (mt_branch t) (p_branch p) [] 0); auto.
Qed.
Lemma terms_shunts t (p : param) i j : length (p_shunt p) = length (d_vec (mt_shunt t)) ->
  map (contribution p) (flat_map (fun kb : nat * nat => if (i =? j) && (snd kb =? i) then [mkElement E_shunt (fst kb)] else []) (enumerate (d_vec (mt_shunt t)))) =
  flat_map (fun sp : nat * Y => if (i =? j) && (fst sp =? i) then [snd sp] else []) (combine (d_vec (mt_shunt t)) (p_shunt p)).
Proof.
  intros HL. unfold enumerate.
  assert (X : forall l ps pre a, p_shunt p = pre ++ ps -> a = length pre -> length ps = length l ->
    map (contribution p) (flat_map (fun kb : nat * nat => if (i =? j) && (snd kb =? i) then [mkElement E_shunt (fst kb)] else []) (combine (seq a (length l)) l)) =
    flat_map (fun sp : nat * Y => if (i =? j) && (fst sp =? i) then [snd sp] else []) (combine l ps)).
  { induction l as [|b l IH]; intros ps pre a Ep Ea El; [destruct ps; reflexivity|]. destruct ps as [|x ps]; [discriminate|]. cbn [length seq combine flat_map fst snd].
    rewrite map_app. f_equal; [|apply (IH ps (pre ++ [x]) (S a)); [now rewrite <- app_assoc|rewrite app_length; simpl; lia|simpl in El; lia]].
    assert (Eb : nth a (p_shunt p) y0 = x) by (rewrite Ep, Ea, app_nth2, Nat.sub_diag by lia; reflexivity).
    destruct ((i =? j) && (b =? i)); cbn; rewrite ?Eb; reflexivity. }
  apply (X (d_vec (mt_shunt t)) (p_shunt p) [] 0); auto.
Qed.
Lemma terms_incident t (p : param) i j : params_fit t p -> map (contribution p) (incident t i j) = entry_terms t p i j.
Proof. intros [H1 H2]. unfold incident, entry_terms. rewrite map_app. f_equal; [now apply terms_branches|now apply terms_shunts]. Qed.

(** registration *)
Definition owns (branch : bool) (k : nat) (c : element) : Prop :=
  el_idx c = k /\ (if branch then el_type c <> E_shunt else el_type c = E_shunt).
Lemma nth_push k k' e l : k < length l -> nth k' (push_at k e l) [] = if k' =? k then nth k' l [] ++ [e] else nth k' l [].
Proof.
  intros H. unfold push_at. destruct (Nat.eqb_spec k' k) as [->|Hn].
  - apply nth_error_nth. now apply nth_error_upd_eq.
  - destruct (nth_error l k') as [x|] eqn:E.
    + rewrite (nth_error_nth l k' [] E). apply nth_error_nth. now rewrite nth_error_upd_neq by auto.
    + apply nth_error_None in E. rewrite !nth_overflow by (rewrite ?upd_length; lia). reflexivity.
Qed.
Definition regd (bs : list (list nat) * list (list nat)) (branch : bool) (k : nat) : list nat := nth k (if branch then fst bs else snd bs) [].
Lemma register_inner entry l : forall bs, (forall c, In c l -> if match el_type c with E_shunt => true | _ => false end then el_idx c < length (snd bs) else el_idx c < length (fst bs)) ->
  let bs' := fold_left (fun bs c => match el_type c with
                           | E_shunt => (fst bs, push_at (el_idx c) entry (snd bs))
                           | _ => (push_at (el_idx c) entry (fst bs), snd bs)
                           end) l bs in
  length (fst bs') = length (fst bs) /\ length (snd bs') = length (snd bs) /\
  forall b k e, In e (regd bs' b k) <-> In e (regd bs b k) \/ (e = entry /\ exists c, In c l /\ owns b k c).
Proof.
  induction l as [|c l IH]; intros bs H; cbn [fold_left].
  - split; [reflexivity|]. split; [reflexivity|]. intros b k e. split; [auto|intros [?|(_ & c & [] & _)]; auto].
  - assert (Hc := H c (or_introl eq_refl)).
    set (bs1 := match el_type c with E_shunt => _ | _ => _ end).
    assert (H1 : length (fst bs1) = length (fst bs) /\ length (snd bs1) = length (snd bs) /\
      forall b k e, In e (regd bs1 b k) <-> In e (regd bs b k) \/ (e = entry /\ owns b k c)).
    { subst bs1. unfold owns, regd. destruct (el_type c) eqn:Et; cbn [fst snd]; unfold push_at at 1; (split; [now rewrite ?upd_length|split; [unfold push_at; now rewrite ?upd_length|]]);
        intros b k e; destruct b; rewrite ?nth_push by auto;
        try (split; [auto|intros [?|(_ & _ & ?)]; [auto|congruence]]);
        (destruct (Nat.eqb_spec k (el_idx c)) as [->|Hk];
         [rewrite in_app_iff; simpl; split; [intros [?|[<-|[]]]; auto; right; repeat split; auto; congruence|intros [?|(-> & _)]; auto]
         |split; [auto|intros [?|(_ & E & _)]; [auto|congruence]]]). }
    clearbody bs1. destruct H1 as (L1 & L2 & H1). destruct (IH bs1) as (L1' & L2' & IH').
    { intros c' Hc'. rewrite L1, L2. apply H. simpl. auto. }
    split; [congruence|]. split; [congruence|]. intros b k e. rewrite IH', H1. split.
    + intros [[?|(-> & ?)]|(-> & c' & ? & ?)]; auto; right; split; auto; [exists c|exists c']; simpl; auto.
    + intros [?|(-> & c' & [<-|?] & ?)]; auto. right. split; auto. eauto.
Qed.
Lemma register_spec s (p : param) : (forall e c, e < nnz s -> In c (entry_elements s e) ->
    if match el_type c with E_shunt => true | _ => false end then el_idx c < length (p_shunt p) else el_idx c < length (p_branch p)) ->
  forall b k e, In e (regd (register_entries s p) b k) <-> e < nnz s /\ exists c, In c (entry_elements s e) /\ owns b k c.
Proof.
  intros H. unfold register_entries.
  assert (X : forall es bs, (forall e, In e es -> e < nnz s) -> length (fst bs) = length (p_branch p) -> length (snd bs) = length (p_shunt p) ->
    forall b k e, In e (regd (fold_left (fun bs entry =>
      fold_left (fun bs c => match el_type c with
                           | E_shunt => (fst bs, push_at (el_idx c) entry (snd bs))
                           | _ => (push_at (el_idx c) entry (fst bs), snd bs)
                           end) (entry_elements s entry) bs) es bs) b k) <-> In e (regd bs b k) \/ (In e es /\ exists c, In c (entry_elements s e) /\ owns b k c)).
  { induction es as [|a es IH]; intros bs He L1 L2 b k e; cbn [fold_left].
    - split; auto. intros [?|([] & _)]; auto.
    - destruct (register_inner a (entry_elements s a) bs) as (L1' & L2' & HI).
      { intros c Hc. rewrite L1, L2. apply (H a); auto. apply He. simpl. auto. }
      rewrite IH; [|intros; apply He; simpl; auto|congruence|congruence]. rewrite HI. split.
      + intros [[?|(-> & ?)]|(? & ?)]; auto; right; simpl; auto.
      + intros [?|([<-|?] & ?)]; auto. }
  intros b k e. rewrite X; [|intros e' He'; apply in_seq in He'; lia|apply repeat_length|apply repeat_length].
  rewrite in_seq. unfold regd. split.
  - intros [Hin|[? ?]]; [|split; [lia|auto]]. exfalso. destruct b; cbn [fst snd] in Hin.
    + destruct (nth_in_or_default k (repeat ([] : list nat) (length (p_branch p))) []) as [Hx|Hx]; [apply repeat_spec in Hx|]; rewrite Hx in Hin; destruct Hin.
    + destruct (nth_in_or_default k (repeat ([] : list nat) (length (p_shunt p))) []) as [Hx|Hx]; [apply repeat_spec in Hx|]; rewrite Hx in Hin; destruct Hin.
  - intros [? ?]. right. split; [lia|auto].
Qed.

Lemma update_entries_spec s (p : param) es : forall adm, length (update_entries yadd y0 s p es adm) = length adm /\
  forall e, e < length adm -> nth_error (update_entries yadd y0 s p es adm) e =
    if existsb (Nat.eqb e) es then Some (fold_left (fun a c => yadd a (contribution p c)) (entry_elements s e) y0) else nth_error adm e.
Proof.
  unfold update_entries. induction es as [|a es IH]; intros adm; cbn [fold_left existsb]; [auto|].
  match goal with |- context [upd a ?v adm] => destruct (IH (upd a v adm)) as [HL HI] end. rewrite upd_length in *. split; auto. intros e He. rewrite HI by auto.
  destruct (existsb (Nat.eqb e) es); [now rewrite orb_true_r|]. rewrite orb_false_r. destruct (Nat.eqb_spec e a) as [->|Hn].
  - now apply nth_error_upd_eq.
  - now apply nth_error_upd_neq; auto.
Qed.

Section History.
Variable t : math_topo.
Variable s : y_structure.
Hypothesis ok : sub_grid_ok t.
Hypothesis built : build_structure t = Some s.

Lemma the_structure : structure_ok t s.
Proof. destruct (C19_structure t ok) as (s' & E & H). congruence. Qed.
Lemma nnz_entries : nnz s = length (col_indices s).
Proof.
  destruct the_structure as [[C1 _ C3 _ _ _] _ _ _ _ _ _ _ _ _ _ _]. unfold nnz.
  assert (E : row_indptr s <> []) by (intros E; rewrite E in C1; discriminate). apply exists_last in E as (l & x & E). rewrite E in *. rewrite last_last.
  rewrite app_length in C1. simpl in C1. rewrite nth_error_app2 in C3 by lia. replace (mt_n_bus t - length l) with 0 in C3 by lia. simpl in C3. congruence.
Qed.
(** every entry has a place *)
Lemma csr_entry n indptr cols e : csr n indptr cols -> e < length cols -> exists i j, csr_at indptr cols e i j.
Proof.
  intros [C1 C2 C3 C4 _ _] He. destruct (nth_error cols e) as [j|] eqn:Ej; [|apply nth_error_None in Ej; lia].
  assert (X : forall m lo hi, nth_error indptr 0 = Some lo -> nth_error indptr m = Some hi -> lo <= e < hi -> exists i lo hi, nth_error indptr i = Some lo /\ nth_error indptr (S i) = Some hi /\ lo <= e < hi).
  { induction m as [|m IH]; intros lo hi H0 Hm Hb; [rewrite H0 in Hm; injection Hm as ->; lia|].
    destruct (nth_error indptr m) as [x|] eqn:Ex; [|apply nth_error_None in Ex; assert (S m < length indptr) by (apply nth_error_Some; congruence); lia].
    destruct (le_lt_dec x e) as [Hx|Hx]; [exists m, x, hi; split; [exact Ex|split; [exact Hm|lia]]|]. apply (IH lo x); [exact H0|reflexivity|lia]. }
  destruct (X n 0 (length cols) C2 C3) as (i & lo & hi & H1 & H2 & H3); [lia|]. exists i, j. split; eauto.
Qed.
Lemma elements_known e c : e < nnz s -> In c (entry_elements s e) -> exists i j, member t c i j.
Proof. intros _ Hc. apply (so_only t s the_structure). unfold entry_elements in Hc. eapply in_skipn, in_firstn, Hc. Qed.
Lemma member_idx c i j : member t c i j -> if match el_type c with E_shunt => true | _ => false end then el_idx c < length (d_vec (mt_shunt t)) else el_idx c < length (mt_branch t).
Proof. intros H. inversion H; subst; simpl; apply nth_error_Some; congruence. Qed.

Definition value (p : param) (e : nat) : Y := fold_left (fun a c => yadd a (contribution p c)) (entry_elements s e) y0.
Record y_inv (n_source : nat) (y : ybus) : Prop := {
  yi_fit : params_fit t (yb_param y) /\ length (p_source (yb_param y)) = n_source;
  yi_len : length (yb_admittance y) = nnz s;
  yi_val : forall e, e < nnz s -> nth_error (yb_admittance y) e = Some (value (yb_param y) e);
  yi_reg : forall b k e, In e (regd (yb_per_branch y, yb_per_shunt y) b k) <-> e < nnz s /\ exists c, In c (entry_elements s e) /\ owns b k c }.

Lemma full_inv n_source p y : params_fit t p -> length (p_source p) = n_source -> y_inv n_source (update_admittance yadd y0 s p y) /\ yb_param (update_admittance yadd y0 s p y) = p.
Proof.
  intros Hf Hs. unfold update_admittance. destruct (register_entries s p) as [pb ps] eqn:Er. cbn [yb_param]. split; auto.
  set (adm := if length (yb_admittance y) =? nnz s then yb_admittance y else repeat y0 (nnz s)).
  assert (HL : length adm = nnz s) by (subst adm; destruct (Nat.eqb_spec (length (yb_admittance y)) (nnz s)); auto; apply repeat_length).
  destruct (update_entries_spec s p (seq 0 (nnz s)) adm) as [L H]. constructor; cbn [yb_param yb_admittance yb_per_branch yb_per_shunt]; auto; [congruence| |].
  - intros e He. rewrite H by lia. replace (existsb (Nat.eqb e) (seq 0 (nnz s))) with true; auto. symmetry. apply existsb_exists. exists e. split; [apply in_seq; lia|apply Nat.eqb_refl].
  - intros b k e. rewrite <- Er. apply register_spec. intros e' c He' Hc. destruct (elements_known e' c He' Hc) as (i & j & Hm). apply member_idx in Hm. destruct Hf as [-> ->]. exact Hm.
Qed.
Lemma value_ext p p' e : (forall c, In c (entry_elements s e) -> contribution p c = contribution p' c) -> value p e = value p' e.
Proof.
  unfold value. assert (X : forall l a, (forall c, In c l -> contribution p c = contribution p' c) ->
    fold_left (fun a c => yadd a (contribution p c)) l a = fold_left (fun a c => yadd a (contribution p' c)) l a).
  { induction l as [|c l IH]; intros a H; simpl; auto. rewrite H by (simpl; auto). apply IH. intros; apply H; simpl; auto. }
  apply X.
Qed.
Lemma inc_inv n_source inc y : y_inv n_source y -> update_fits t n_source (U_increment inc) ->
  y_inv n_source (update_admittance_increment yadd y0 s inc y) /\
  yb_param (update_admittance_increment yadd y0 s inc y) = apply_increment inc (yb_param y).
Proof.
  intros [[[F1 F2] F3] HL HV HR] (U1 & U2 & U3). unfold update_admittance_increment. cbn [yb_param]. split; [|reflexivity].
  assert (C1 : changed (i_branch inc) (p_branch (yb_param y)) (set_all (i_branch inc) (p_branch (yb_param y)))) by (apply set_all_changed; intros k v H; rewrite F1; eauto).
  assert (C2 : changed (i_shunt inc) (p_shunt (yb_param y)) (set_all (i_shunt inc) (p_shunt (yb_param y)))) by (apply set_all_changed; intros k v H; rewrite F2; eauto).
  assert (C3 : changed (i_source inc) (p_source (yb_param y)) (set_all (i_source inc) (p_source (yb_param y)))) by (apply set_all_changed; intros k v H; rewrite F3; eauto).
  destruct (update_entries_spec s (apply_increment inc (yb_param y)) (affected_entries y inc) (yb_admittance y)) as [L H].
  constructor; cbn [yb_param yb_admittance yb_per_branch yb_per_shunt]; auto.
  - split; [split|]; unfold apply_increment; cbn [p_branch p_shunt p_source]; [rewrite (proj1 C1)|rewrite (proj1 C2)|rewrite (proj1 C3)]; auto.
  - congruence.
  - intros e He. rewrite H by congruence. destruct (existsb (Nat.eqb e) (affected_entries y inc)) eqn:Ea; [reflexivity|]. rewrite HV by auto. f_equal. apply value_ext. intros c Hc.
    assert (Hna : ~ In e (affected_entries y inc)).
    { intros Hin. assert (existsb (Nat.eqb e) (affected_entries y inc) = true) by (apply existsb_exists; exists e; split; auto; apply Nat.eqb_refl). congruence. }
    unfold affected_entries in Hna. rewrite sset_In, in_app_iff, !in_flat_map in Hna.
    assert (Hb : el_type c <> E_shunt -> ~ In (el_idx c) (map fst (i_branch inc))).
    { intros Ht Hin. apply Hna. left. apply in_map_iff in Hin as (kv & Ek & Hin). exists kv. split; auto. rewrite Ek. apply (HR true (el_idx c) e). split; auto. exists c. repeat split; auto. }
    assert (Hs : el_type c = E_shunt -> ~ In (el_idx c) (map fst (i_shunt inc))).
    { intros Ht Hin. apply Hna. right. apply in_map_iff in Hin as (kv & Ek & Hin). exists kv. split; auto. rewrite Ek. apply (HR false (el_idx c) e). split; auto. exists c. repeat split; auto. }
    unfold YBus.contribution, apply_increment; cbn [p_branch p_shunt]. destruct (el_type c); try reflexivity; symmetry;
      try (f_equal; eapply changed_other; [exact C1|apply Hb; discriminate]). eapply changed_other; [exact C2|auto].
Qed.
Lemma run_inv n_source l : forall y, y_inv n_source y -> Forall (update_fits t n_source) l ->
  y_inv n_source (y_run s l y) /\ params_after l (yb_param y) (yb_param (y_run s l y)).
Proof.
  induction l as [|u l IH]; intros y I HF; cbn [y_run fold_left]; [split; [auto|constructor]|]. apply Forall_cons_iff in HF as [Hu HF]. unfold y_run in IH. destruct u as [p|inc]; cbn [y_step].
  - destruct Hu as [Hf Hs]. destruct (full_inv n_source p y Hf Hs) as [I' E]. destruct (IH _ I' HF) as [J K]. rewrite E in K. split; [exact J|]. now constructor.
  - destruct (inc_inv n_source inc y I Hu) as [I' E]. destruct (IH _ I' HF) as [J K]. rewrite E in K. split; [exact J|]. destruct Hu as (U1 & U2 & U3), (yi_fit _ _ I) as [[F1 F2] F3].
    eapply pa_inc; [| | |exact K]; apply set_all_changed; intros k v H; [rewrite F1|rewrite F2|rewrite F3]; eauto.
Qed.
Lemma value_terms p e i j : params_fit t p -> csr_at (row_indptr s) (col_indices s) e i j -> value p e = fold_left yadd (entry_terms t p i j) y0.
Proof.
  intros Hf He. unfold value. rewrite (C19_elements t s ok built e i j He), <- terms_incident by auto.
  assert (X : forall l a, fold_left (fun a c => yadd a (contribution p c)) l a = fold_left yadd (map (contribution p) l) a) by (induction l as [|c l IH]; intros a; simpl; auto).
  apply X.
Qed.
End History.

(** C20. After any history of complete and partial parameter updates, the entry at row i, column j is the sum, in this
    order, of the terms of the branches and shunts between i and j, for the parameters last given; for any addition, so
    also for the rounding one of floating point numbers. *)
Theorem C20_admittance t s p0 l : sub_grid_ok t -> build_structure t = Some s ->
  params_fit t p0 -> Forall (update_fits t (length (p_source p0))) l ->
  let y := y_run s l (new_y_bus yadd y0 s p0) in
  params_after l p0 (yb_param y) /\ length (yb_admittance y) = length (col_indices s) /\
  forall e i j, csr_at (row_indptr s) (col_indices s) e i j ->
    nth_error (yb_admittance y) e = Some (fold_left yadd (entry_terms t (yb_param y) i j) y0).
Proof.
  intros ok E Hf HF y. destruct (full_inv t s ok E _ p0 (mkYBus p0 [] [] []) Hf eq_refl) as [I Ep].
  destruct (run_inv t s ok E _ l _ I HF) as [J K]. fold (new_y_bus yadd y0 s p0) in *. rewrite Ep in K. fold y in J, K. split; auto.
  rewrite <- (nnz_entries t s ok E). split; [apply (yi_len _ _ _ _ J)|]. intros e i j He.
  rewrite (yi_val _ _ _ _ J) by (rewrite (nnz_entries t s ok E); apply nth_error_Some; destruct He; congruence). f_equal. apply (value_terms t s ok E); auto. apply (yi_fit _ _ _ _ J).
Qed.
(** an updated matrix is the matrix built anew from the final parameters *)
Theorem C20_incremental_is_full t s p0 l : sub_grid_ok t -> build_structure t = Some s ->
  params_fit t p0 -> Forall (update_fits t (length (p_source p0))) l ->
  let y := y_run s l (new_y_bus yadd y0 s p0) in
  yb_admittance y = yb_admittance (new_y_bus yadd y0 s (yb_param y)).
Proof.
  intros ok E Hf HF y. destruct (full_inv t s ok E _ p0 (mkYBus p0 [] [] []) Hf eq_refl) as [I _].
  destruct (run_inv t s ok E _ l _ I HF) as [J _]. fold (new_y_bus yadd y0 s p0) in J. fold y in J. destruct (yi_fit _ _ _ _ J) as [F1 F2].
  destruct (full_inv t s ok E _ (yb_param y) (mkYBus (yb_param y) [] [] []) F1 F2) as [I' Ep]. fold (new_y_bus yadd y0 s (yb_param y)) in *.
  apply nth_error_ext; intros e. destruct (le_lt_dec (nnz s) e) as [H|H].
  - rewrite (proj2 (nth_error_None _ _)), (proj2 (nth_error_None _ _)); auto; [rewrite (yi_len _ _ _ _ I')|rewrite (yi_len _ _ _ _ J)]; auto.
  - rewrite (yi_val _ _ _ _ J), (yi_val _ _ _ _ I'), Ep by auto. reflexivity.
Qed.
End Values.
