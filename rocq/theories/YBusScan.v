(** Proofs about the loop over the sorted elements. *)
From Verif Require Import Common NatMap GroupedIdx GroupedIdxFacts YBus YBusSpec YBusFacts.

Lemma nth_error_snoc {A} (l : list A) x e y : nth_error (l ++ [x]) e = Some y <-> nth_error l e = Some y \/ (e = length l /\ y = x).
Proof.
  destruct (Nat.lt_ge_cases e (length l)) as [H|H].
  - rewrite nth_error_app1 by auto. split; [auto|intros [|[-> _]]; [auto|lia]].
  - rewrite nth_error_app2 by auto. rewrite (proj2 (nth_error_None l e)) by lia. destruct (Nat.eq_dec e (length l)) as [->|Hn].
    + rewrite Nat.sub_diag. simpl. split; [intros [= ->]; auto|intros [|[_ ->]]; [discriminate|auto]].
    + rewrite (proj2 (nth_error_None [x] _)) by (simpl; lia). split; [discriminate|intros [|[? _]]; [discriminate|lia]].
Qed.
Lemma set_at_Some {A} i (x : A) l : i < length l -> set_at i x l = Some (upd i x l).
Proof. intros H. unfold set_at. now replace (i <? length l) with true by lia. Qed.
Lemma sorted_app_lt {A} (R : A -> A -> Prop) l1 l2 x y : StronglySorted R (l1 ++ l2) -> In x l1 -> In y l2 -> R x y.
Proof.
  induction l1 as [|a l1 IH]; simpl; [tauto|]. intros HS [->|Hx] Hy; inversion HS as [|? ? HS' HF]; subst.
  - rewrite Forall_forall in HF. apply HF, in_app_iff. auto.
  - now apply IH.
Qed.
Lemma offs_le l v : offs l v <= length l.
Proof. unfold offs. induction l as [|x l IH]; simpl; auto. destruct (x <? v); simpl; lia. Qed.
Lemma offs_app l l' v : offs (l ++ l') v = offs l v + offs l' v.
Proof. unfold offs. now rewrite filter_app, app_length. Qed.
Lemma offs_ge l v : (forall x, In x l -> v <= x) -> offs l v = 0.
Proof. unfold offs. induction l as [|x l IH]; intros H; simpl; auto. assert (v <= x) by (apply H; simpl; auto). replace (x <? v) with false by lia. apply IH. intros; apply H; simpl; auto. Qed.

Section Scan.
Variable B : nat * nat -> list element_map.
Variables n nb nod total : nat.
Variable cs : list (nat * nat).
Hypothesis cs_sorted : StronglySorted cell_lt cs.
Hypothesis cs_range : forall c, In c cs -> fst c < n /\ snd c < n.
Hypothesis cs_diag : forall r, r < n -> In (r, r) cs.
Hypothesis B_pos : forall c e, In e (B c) -> el_pos e = c.
Definition slot_of (e : element_map) : nat := if is_fill e then el_idx (el e) + nb else el_idx (el e).
Definition head_of (c : nat * nat) : element_map := hd no_element (B c).
Definition is_y (c : nat * nat) : bool := negb (is_fill (head_of c)).
Hypothesis B_ne : forall c, In c cs -> B c <> [].
Hypothesis B_fill : forall c, In c cs -> is_y c = false -> B c = [head_of c] /\ fst c <> snd c.
Hypothesis B_off : forall c, In c cs -> fst c <> snd c -> side_of (el_type (el (head_of c))) <> None /\ slot_of (head_of c) < nod.
Hypothesis B_inj : forall c c', In c cs -> In c' cs -> fst c <> snd c -> fst c' <> snd c' ->
  slot_of (head_of c) = slot_of (head_of c') -> side_of (el_type (el (head_of c))) = side_of (el_type (el (head_of c'))) -> c = c'.
Hypothesis Htotal : total = length (flat_map B cs).

Definition side (sd : bool) (ab : nat * nat) : nat := if sd then snd ab else fst ab.
(** what one row pointer array holds when the cells [l] have been seen *)
Record rows (l : list (nat * nat)) (start : nat) (indptr : list nat) : Prop := {
  rw_len : length indptr = S n;
  rw_max : forall c, In c l -> fst c <= start;
  rw_start : start = 0 \/ exists c, In c l /\ fst c = start;
  rw_nth : forall r, r <= start -> nth_error indptr r = Some (offs (map fst l) r) }.

Record inv (pre : list (nat * nat)) (s : y_scan) : Prop := {
  iv_col_lu : sc_col_indices_lu s = map snd pre;
  iv_col : sc_col_indices s = map snd (filter is_y pre);
  iv_pos : sc_pos s = filter is_y pre;
  iv_entry : sc_entry_indptr s = map (fun k => length (flat_map B (firstn k (filter is_y pre)))) (seq 0 (S (length (filter is_y pre))));
  iv_fill : length (flat_map B pre) = length (flat_map B (filter is_y pre)) + sc_fill_count s;
  iv_map_len : length (sc_map_lu s) = length pre;
  iv_map : forall e c m, nth_error pre e = Some c -> nth_error (sc_map_lu s) e = Some m ->
    match m with Some e' => nth_error (filter is_y pre) e' = Some c | None => is_y c = false end;
  iv_rows_lu : rows pre (sc_row_start_lu s) (sc_row_indptr_lu s);
  iv_rows : rows (filter is_y pre) (sc_row_start s) (sc_row_indptr s);
  iv_be_len : length (sc_bus_entry s) = n;
  iv_be : forall r, In (r, r) pre -> exists e, nth_error (sc_bus_entry s) r = Some e /\ nth_error (filter is_y pre) e = Some (r, r);
  iv_dl_len : length (sc_diag_lu s) = n;
  iv_dl : forall r, In (r, r) pre -> exists e, nth_error (sc_diag_lu s) r = Some e /\ nth_error pre e = Some (r, r);
  iv_od_len : length (sc_off_diag s) = nod;
  iv_od : forall q ab sd, nth_error (sc_off_diag s) q = Some ab ->
    (exists c, nth_error pre (side sd ab) = Some c /\ fst c <> snd c /\ slot_of (head_of c) = q /\ side_of (el_type (el (head_of c))) = Some sd) \/
    (side sd ab = 0 /\ forall c, In c pre -> fst c <> snd c -> slot_of (head_of c) = q -> side_of (el_type (el (head_of c))) = Some sd -> False) }.

Lemma diag_y r : r < n -> is_y (r, r) = true.
Proof. intros Hr. destruct (is_y (r, r)) eqn:E; auto. destruct (B_fill (r, r) (cs_diag r Hr) E) as [_ H]. simpl in H. congruence. Qed.

Lemma filter_app_one (f : nat * nat -> bool) l c : filter f (l ++ [c]) = filter f l ++ (if f c then [c] else []).
Proof. rewrite filter_app. simpl. reflexivity. Qed.

(** one more cell in the row pointers *)
Lemma rows_step l c start indptr : rows l start indptr -> fst c < n -> start <= fst c <= S start ->
  exists start' indptr', next_row (fst c) start (length l) indptr = Some (start', indptr') /\ rows (l ++ [c]) start' indptr'.
Proof.
  intros [R1 R2 R3 R4] Hc Hs. unfold next_row. destruct (Nat.ltb_spec start (fst c)) as [Hlt|Hge].
  - rewrite set_at_Some by lia. simpl. exists (S start), (upd (S start) (length l) indptr). split; [reflexivity|]. constructor.
    + now rewrite upd_length.
    + intros c' Hc'. apply in_app_iff in Hc' as [Hc'|[<-|[]]]; [specialize (R2 c' Hc')|]; lia.
    + right. exists c. split; [apply in_app_iff; simpl; auto|lia].
    + intros r Hr. rewrite map_app, offs_app. cbn [map]. rewrite (offs_ge [fst c]) by (intros x [<-|[]]; lia). rewrite Nat.add_0_r.
      destruct (Nat.eq_dec r (S start)) as [->|Hn].
      * rewrite nth_error_upd_eq by lia. f_equal. rewrite offs_all; [now rewrite map_length|]. intros x Hx. apply in_map_iff in Hx as (c' & <- & Hc'). specialize (R2 c' Hc'). lia.
      * rewrite nth_error_upd_neq by lia. apply R4. lia.
  - exists start, indptr. split; [reflexivity|]. constructor; auto.
    + intros c' Hc'. apply in_app_iff in Hc' as [Hc'|[<-|[]]]; [auto|lia].
    + destruct R3 as [|(c' & H1 & H2)]; [auto|]. right. exists c'. split; [apply in_app_iff; auto|auto].
    + intros r Hr. rewrite map_app, offs_app. cbn [map]. rewrite (offs_ge [fst c]) by (intros x [<-|[]]; lia). rewrite Nat.add_0_r. auto.
Qed.

Lemma drop_pos_spec c l rest : (forall e, In e l -> el_pos e = c) -> (forall e, In e rest -> el_pos e <> c) -> drop_pos c (l ++ rest) = rest.
Proof.
  intros H1 H2. induction l as [|e l IH]; simpl.
  - destruct rest as [|e rest]; auto. simpl. destruct (pos_eqb (el_pos e) c) eqn:E; auto. apply pos_eqb_eq in E. exfalso. apply (H2 e); simpl; auto.
  - rewrite (proj2 (pos_eqb_eq _ _) (H1 e (or_introl eq_refl))). apply IH. intros; apply H1; simpl; auto.
Qed.

Lemma set_off_spec q sd x m : q < length m -> exists m', set_off_diag q (Some sd) x m = Some m' /\ length m' = length m /\
  (forall q' ab, q' <> q -> (nth_error m' q' = Some ab <-> nth_error m q' = Some ab)) /\
  (forall ab, nth_error m' q = Some ab -> side sd ab = x /\ exists ab0, nth_error m q = Some ab0 /\ side (negb sd) ab = side (negb sd) ab0).
Proof.
  intros Hq. unfold set_off_diag. destruct (nth_error m q) as [[a b]|] eqn:E; [|apply nth_error_None in E; lia].
  destruct sd; rewrite set_at_Some by auto; eexists; (split; [reflexivity|]); rewrite upd_length; (split; [reflexivity|]); split.
  1,3: intros q' ab Hn; now rewrite nth_error_upd_neq by auto.
  all: intros ab; rewrite nth_error_upd_eq by auto; intros [= <-]; simpl; split; eauto.
Qed.

Definition od_ok (pre : list (nat * nat)) (od : list (nat * nat)) : Prop := forall q ab sd, nth_error od q = Some ab ->
    (exists c, nth_error pre (side sd ab) = Some c /\ fst c <> snd c /\ slot_of (head_of c) = q /\ side_of (el_type (el (head_of c))) = Some sd) \/
    (side sd ab = 0 /\ forall c, In c pre -> fst c <> snd c -> slot_of (head_of c) = q -> side_of (el_type (el (head_of c))) = Some sd -> False).

Lemma od_step pre c post m m' sd : cs = pre ++ c :: post -> od_ok pre m -> fst c <> snd c -> side_of (el_type (el (head_of c))) = Some sd ->
  (forall q' ab, q' <> slot_of (head_of c) -> (nth_error m' q' = Some ab <-> nth_error m q' = Some ab)) ->
  (forall ab, nth_error m' (slot_of (head_of c)) = Some ab ->
     side sd ab = length pre /\ exists ab0, nth_error m (slot_of (head_of c)) = Some ab0 /\ side (negb sd) ab = side (negb sd) ab0) ->
  od_ok (pre ++ [c]) m'.
Proof.
  intros E O Hd Hs H1 H2 q ab sd' Hq.
  assert (Hc : In c cs) by (rewrite E; apply in_app_iff; simpl; auto).
  assert (Hold : forall ab', (exists c', nth_error pre (side sd' ab') = Some c' /\ fst c' <> snd c' /\ slot_of (head_of c') = q /\ side_of (el_type (el (head_of c'))) = Some sd') ->
    exists c', nth_error (pre ++ [c]) (side sd' ab') = Some c' /\ fst c' <> snd c' /\ slot_of (head_of c') = q /\ side_of (el_type (el (head_of c'))) = Some sd').
  { intros ab' (c' & H3 & H4). exists c'. split; auto. apply nth_error_snoc. auto. }
  destruct (Nat.eq_dec q (slot_of (head_of c))) as [->|Hn].
  - destruct (H2 ab Hq) as (Ha & ab0 & Hq0 & Hb). destruct (Bool.bool_dec sd' sd) as [->|Hns].
    + left. exists c. rewrite Ha. split; [apply nth_error_snoc; auto|auto].
    + assert (Esd : sd' = negb sd) by (clear - Hns; destruct sd, sd'; auto; exfalso; apply Hns; reflexivity). subst sd'. destruct (O _ ab0 (negb sd) Hq0) as [H|[H3 H4]].
      * left. rewrite Hb. now apply Hold.
      * right. split; [congruence|]. intros c' Hin. apply in_app_iff in Hin as [Hin|[<-|[]]]; [now apply H4|]. intros _ _ H5. rewrite Hs in H5. destruct sd; discriminate.
  - apply H1 in Hq; auto. destruct (O q ab sd' Hq) as [H|[H3 H4]]; [left; now apply Hold|].
    right. split; auto. intros c' Hin. apply in_app_iff in Hin as [Hin|[<-|[]]]; [now apply H4|]. intros _ H5. congruence.
Qed.

Lemma inv_step pre c post s : cs = pre ++ c :: post -> inv pre s ->
  exists s', scan_step nb total (head_of c) (tl (B c) ++ flat_map B post) s = Some (flat_map B post, s') /\ inv (pre ++ [c]) s'.
Proof.
  intros E I.
  assert (Hc : In c cs) by (rewrite E; apply in_app_iff; simpl; auto).
  destruct (cs_range c Hc) as [Hr1 Hr2].
  assert (Hlt : forall c', In c' pre -> cell_lt c' c) by (intros c' Hc'; eapply sorted_app_lt; [rewrite <- E; exact cs_sorted|auto|simpl; auto]).
  assert (Hgt : forall c', In c' post -> cell_lt c c').
  { intros c' Hc'. assert (HS : StronglySorted cell_lt ((pre ++ [c]) ++ post)) by (rewrite <- app_assoc; simpl; rewrite <- E; exact cs_sorted).
    eapply sorted_app_lt; eauto. apply in_app_iff. simpl. auto. }
  assert (Hbefore : forall c', In c' cs -> cell_lt c' c -> In c' pre).
  { intros c' Hc' Hl. rewrite E in Hc'. apply in_app_iff in Hc' as [|[<-|Hc']]; auto; [now apply cell_lt_irr in Hl|].
    exfalso. apply (cell_lt_irr c). eapply cell_lt_trans; [apply Hgt|]; eauto. }
  assert (Ep : el_pos (head_of c) = (fst c, snd c)).
  { rewrite <- surjective_pairing. apply B_pos. unfold head_of. destruct (B c) eqn:Eb; [destruct (B_ne c Hc Eb)|simpl; auto]. }
  assert (EB : B c = head_of c :: tl (B c)) by (unfold head_of; destruct (B c) eqn:Eb; [destruct (B_ne c Hc Eb)|reflexivity]).
  assert (Hrow : forall l start indptr, (forall c', In c' l -> In c' pre) -> (forall r, r < n -> In (r, r) pre -> In (r, r) l) -> rows l start indptr -> start <= fst c <= S start).
  { intros l start indptr Hl Hd [R1 R2 R3 R4]. split.
    - destruct R3 as [->|(c' & H1 & <-)]; [lia|]. apply Hl, Hlt in H1. unfold cell_lt in H1. lia.
    - destruct (Nat.le_gt_cases (fst c) (S start)); auto. exfalso.
      assert (Hin : In (S start, S start) pre) by (apply Hbefore; [apply cs_diag; lia|unfold cell_lt; simpl; lia]).
      apply Hd in Hin; [|lia]. specialize (R2 _ Hin). simpl in R2. lia. }
  assert (Hyin : forall c', In c' (filter is_y pre) -> In c' pre) by (intros c' Hc'; now apply filter_In in Hc').
  assert (Hyd : forall r, r < n -> In (r, r) pre -> In (r, r) (filter is_y pre)) by (intros r Hr H; apply filter_In; split; auto; now apply diag_y).
  destruct I as [I1 I2 I3 I4 I5 I6 I7 I8 I9 I10 I11 I12 I13 I14 I15].
  unfold scan_step. rewrite Ep.
  destruct (rows_step pre c _ _ I8 Hr1 (Hrow pre _ _ (fun c' H => H) (fun r _ H => H) I8)) as (start_lu & indptr_lu & En & R8).
  unfold sc_nnz_lu. rewrite I1, map_length. rewrite En.
  destruct (is_y c) eqn:Ey; unfold is_y in Ey.
  - (* an entry of the matrix *)
    apply negb_true_iff in Ey. rewrite Ey.
    destruct (rows_step (filter is_y pre) c _ _ I9 Hr1 (Hrow _ _ _ Hyin Hyd I9)) as (start & indptr & En' & R9).
    unfold sc_nnz. rewrite I2, map_length, En'.
    assert (Ef : filter is_y (pre ++ [c]) = filter is_y pre ++ [c]) by (rewrite filter_app_one; unfold is_y; now rewrite Ey).
    assert (Ed : drop_pos (fst c, snd c) (tl (B c) ++ flat_map B post) = flat_map B post).
    { rewrite <- surjective_pairing. apply drop_pos_spec.
      - intros e He. apply B_pos. rewrite EB. simpl. auto.
      - intros e He Hp. apply in_flat_map in He as (c' & Hc' & He). apply B_pos in He. apply Hgt in Hc'. apply (cell_lt_irr c). congruence. }
    rewrite Ed.
    assert (Hlast : total - length (flat_map B post) - sc_fill_count s = length (flat_map B (filter is_y (pre ++ [c])))).
    { rewrite Htotal, E, Ef. rewrite !flat_map_app, !app_length. cbn [flat_map]. rewrite app_nil_r, app_length. lia. }
    rewrite Hlast.
    assert (Hentry : map (fun k => length (flat_map B (firstn k (filter is_y pre)))) (seq 0 (S (length (filter is_y pre)))) ++ [length (flat_map B (filter is_y (pre ++ [c])))] =
      map (fun k => length (flat_map B (firstn k (filter is_y (pre ++ [c]))))) (seq 0 (S (length (filter is_y (pre ++ [c])))))).
    { rewrite Ef, app_length, Nat.add_1_r. rewrite (seq_S (S _)), map_app. cbn [map]. f_equal.
      - apply map_ext_in. intros k Hk. apply in_seq in Hk. do 2 f_equal. rewrite firstn_app. replace (k - _) with 0 by lia. now rewrite app_nil_r.
      - f_equal. rewrite Nat.add_0_l. rewrite (firstn_all2 (filter is_y pre ++ [c])); auto. rewrite app_length. simpl. lia. }
    assert (Hfill : length (flat_map B (pre ++ [c])) = length (flat_map B (filter is_y (pre ++ [c]))) + sc_fill_count s).
    { rewrite Ef, !flat_map_app, !app_length. lia. }
    assert (Hmap : forall e c' m, nth_error (pre ++ [c]) e = Some c' -> nth_error (sc_map_lu s ++ [Some (length (filter is_y pre))]) e = Some m ->
      match m with Some e' => nth_error (filter is_y (pre ++ [c])) e' = Some c' | None => is_y c' = false end).
    { intros e c' m H1 H2. rewrite Ef. apply nth_error_snoc in H1 as [H1|[-> ->]].
      - assert (e < length pre) by (apply nth_error_Some; congruence). rewrite nth_error_app1 in H2 by lia. specialize (I7 e c' m H1 H2).
        destruct m as [e'|]; auto. apply nth_error_snoc. auto.
      - rewrite nth_error_app2 in H2 by lia. rewrite I6, Nat.sub_diag in H2. injection H2 as <-. apply nth_error_snoc. auto. }
    assert (Hbe : forall be, length be = n -> (forall r, nth_error be r = nth_error (sc_bus_entry s) r \/ (r = fst c /\ r = snd c /\ nth_error be r = Some (length (filter is_y pre)))) ->
      (fst c = snd c -> nth_error be (fst c) = Some (length (filter is_y pre))) ->
      forall r, In (r, r) (pre ++ [c]) -> exists e, nth_error be r = Some e /\ nth_error (filter is_y (pre ++ [c])) e = Some (r, r)).
    { intros be _ H1 H2 r Hin. rewrite Ef. apply in_app_iff in Hin as [Hin|[Hin|[]]].
      - destruct (H1 r) as [H|(-> & H3 & H)].
        + destruct (I11 r Hin) as (e & He & Hy). exists e. rewrite H. split; auto. apply nth_error_snoc. auto.
        + exfalso. apply Hlt in Hin. apply (cell_lt_irr c). rewrite (surjective_pairing c) at 1. rewrite <- H3. exact Hin.
      - rewrite Hin in *. simpl in *. exists (length (filter is_y pre)). split; auto. apply nth_error_snoc. auto. }
    assert (Hdl : forall dl, length dl = n -> (forall r, nth_error dl r = nth_error (sc_diag_lu s) r \/ (r = fst c /\ r = snd c /\ nth_error dl r = Some (length pre))) ->
      (fst c = snd c -> nth_error dl (fst c) = Some (length pre)) ->
      forall r, In (r, r) (pre ++ [c]) -> exists e, nth_error dl r = Some e /\ nth_error (pre ++ [c]) e = Some (r, r)).
    { intros dl _ H1 H2 r Hin. apply in_app_iff in Hin as [Hin|[Hin|[]]].
      - destruct (H1 r) as [H|(-> & H3 & H)].
        + destruct (I13 r Hin) as (e & He & Hy). exists e. rewrite H. split; auto. apply nth_error_snoc. auto.
        + exfalso. apply Hlt in Hin. apply (cell_lt_irr c). rewrite (surjective_pairing c) at 1. rewrite <- H3. exact Hin.
      - rewrite Hin in *. simpl in *. exists (length pre). split; auto. apply nth_error_snoc. auto. }
    destruct (Nat.eqb_spec (fst c) (snd c)) as [Hd|Hd].
    + rewrite !set_at_Some by lia. eexists. split; [reflexivity|].
      constructor; cbn [sc_col_indices_lu sc_col_indices sc_pos sc_entry_indptr sc_fill_count sc_map_lu sc_row_start_lu sc_row_indptr_lu sc_row_start sc_row_indptr sc_bus_entry sc_diag_lu sc_off_diag].
      * now rewrite map_app.
      * now rewrite Ef, map_app.
      * rewrite Ef, I3. now rewrite <- surjective_pairing.
      * rewrite I4. exact Hentry.
      * exact Hfill.
      * rewrite !app_length. simpl. lia.
      * exact Hmap.
      * exact R8.
      * rewrite Ef. exact R9.
      * now rewrite upd_length.
      * apply Hbe; [now rewrite upd_length| |intros _; now rewrite nth_error_upd_eq by lia].
        intros r. destruct (Nat.eq_dec r (fst c)) as [->|Hn]; [right; rewrite nth_error_upd_eq by lia; auto|left; now rewrite nth_error_upd_neq by auto].
      * now rewrite upd_length.
      * apply Hdl; [now rewrite upd_length| |intros _; now rewrite nth_error_upd_eq by lia].
        intros r. destruct (Nat.eq_dec r (fst c)) as [->|Hn]; [right; rewrite nth_error_upd_eq by lia; auto|left; now rewrite nth_error_upd_neq by auto].
      * auto.
      * intros q ab sd Hq. destruct (I15 q ab sd Hq) as [(c' & H1 & H2)|[H1 H2]].
        -- left. exists c'. split; auto. apply nth_error_snoc. auto.
        -- right. split; auto. intros c' Hin. apply in_app_iff in Hin as [Hin|[<-|[]]]; [now apply H2|congruence].
    + destruct (B_off c Hc Hd) as [Hs Hq]. destruct (side_of (el_type (el (head_of c)))) as [sd|] eqn:Es; [|congruence].
      assert (Esl : slot_of (head_of c) = el_idx (el (head_of c))) by (unfold slot_of; now rewrite Ey).
      destruct (set_off_spec (slot_of (head_of c)) sd (length pre) (sc_off_diag s)) as (od & Eod & Hodl & Hod1 & Hod2); [lia|].
      rewrite Esl in Eod. rewrite Eod. eexists. split; [reflexivity|].
      constructor; cbn [sc_col_indices_lu sc_col_indices sc_pos sc_entry_indptr sc_fill_count sc_map_lu sc_row_start_lu sc_row_indptr_lu sc_row_start sc_row_indptr sc_bus_entry sc_diag_lu sc_off_diag].
      * now rewrite map_app.
      * now rewrite Ef, map_app.
      * rewrite Ef, I3. now rewrite <- surjective_pairing.
      * rewrite I4. exact Hentry.
      * exact Hfill.
      * rewrite !app_length. simpl. lia.
      * exact Hmap.
      * exact R8.
      * rewrite Ef. exact R9.
      * auto.
      * apply Hbe; [auto|auto|congruence].
      * auto.
      * apply Hdl; [auto|auto|congruence].
      * lia.
      * eapply od_step; eauto.
  - (* a fill-in *)
    destruct (B_fill c Hc Ey) as [Eb Hd]. apply negb_false_iff in Ey. rewrite Ey.
    destruct (B_off c Hc Hd) as [Hs Hq]. destruct (side_of (el_type (el (head_of c)))) as [sd|] eqn:Es; [|congruence].
    assert (Esl : slot_of (head_of c) = el_idx (el (head_of c)) + nb) by (unfold slot_of; now rewrite Ey).
    destruct (set_off_spec (slot_of (head_of c)) sd (length pre) (sc_off_diag s)) as (od & Eod & Hodl & Hod1 & Hod2); [lia|].
    rewrite Esl in Eod. rewrite Eod. rewrite Eb. cbn [tl app]. eexists. split; [reflexivity|].
    assert (Ef : filter is_y (pre ++ [c]) = filter is_y pre) by (rewrite filter_app_one; unfold is_y at 2; rewrite Ey; simpl; apply app_nil_r).
    constructor; cbn [sc_col_indices_lu sc_col_indices sc_pos sc_entry_indptr sc_fill_count sc_map_lu sc_row_start_lu sc_row_indptr_lu sc_row_start sc_row_indptr sc_bus_entry sc_diag_lu sc_off_diag];
      rewrite ?Ef; auto.
    * now rewrite map_app.
    * rewrite flat_map_app, app_length. cbn [flat_map]. rewrite Eb. simpl. lia.
    * rewrite !app_length. simpl. lia.
    * intros e c' m H1 H2. apply nth_error_snoc in H1 as [H1|[-> ->]].
      -- assert (e < length pre) by (apply nth_error_Some; congruence). rewrite nth_error_app1 in H2 by lia. exact (I7 e c' m H1 H2).
      -- rewrite nth_error_app2 in H2 by lia. rewrite I6, Nat.sub_diag in H2. injection H2 as <-. unfold is_y. now rewrite Ey.
    * intros r Hin. apply in_app_iff in Hin as [Hin|[->|[]]]; [auto|simpl in Hd; congruence].
    * intros r Hin. apply in_app_iff in Hin as [Hin|[->|[]]]; [|simpl in Hd; congruence].
      destruct (I13 r Hin) as (e & He & Hy). exists e. split; auto. apply nth_error_snoc. auto.
    * lia.
    * eapply od_step; eauto.
Qed.

Lemma scan_all post : forall pre s fuel, cs = pre ++ post -> inv pre s -> length (flat_map B post) <= fuel ->
  exists s', scan fuel nb total (flat_map B post) s = Some s' /\ inv cs s'.
Proof.
  induction post as [|c post IH]; intros pre s fuel E I Hf.
  - rewrite app_nil_r in E. subst pre. exists s. destruct fuel; auto.
  - assert (Hc : In c cs) by (rewrite E; apply in_app_iff; simpl; auto).
    assert (EB : B c = head_of c :: tl (B c)) by (unfold head_of; destruct (B c) eqn:Eb; [destruct (B_ne c Hc Eb)|reflexivity]).
    destruct (inv_step pre c post s E I) as (s' & Es & I'). cbn [flat_map] in *. set (tb := tl (B c)) in *. rewrite EB in Hf |- *. cbn [app] in *.
    destruct fuel as [|fuel]; [simpl in Hf; lia|]. cbn [scan]. rewrite Es.
    apply (IH (pre ++ [c])); auto; [now rewrite <- app_assoc|]. simpl in Hf. rewrite app_length in Hf. lia.
Qed.

Lemma inv_init : inv [] (mkScan (repeat 0 (S n)) [] [0] [] (repeat 0 n) (repeat 0 (S n)) [] (repeat 0 n) [] (repeat (0, 0) nod) 0 0 0).
Proof.
  assert (R : rows [] 0 (repeat 0 (S n))).
  { constructor; auto; [now rewrite repeat_length|intros c []|]. intros r Hr. assert (r = 0) as -> by lia. reflexivity. }
  constructor; cbn [sc_col_indices_lu sc_col_indices sc_pos sc_entry_indptr sc_fill_count sc_map_lu sc_row_start_lu sc_row_indptr_lu sc_row_start sc_row_indptr sc_bus_entry sc_diag_lu sc_off_diag];
    try exact R; try (now rewrite repeat_length); try reflexivity.
  - intros e c m H. destruct e; discriminate.
  - intros r [].
  - intros r [].
  - intros q ab sd H. right. split; [|intros c []]. apply nth_error_In, repeat_spec in H. subst ab. now destruct sd.
Qed.

(** the whole loop *)
Lemma scan_spec : exists s, scan total nb total (flat_map B cs)
    (mkScan (repeat 0 (S n)) [] [0] [] (repeat 0 n) (repeat 0 (S n)) [] (repeat 0 n) [] (repeat (0, 0) nod) 0 0 0) = Some s /\ inv cs s.
Proof. apply (scan_all cs []); auto; [apply inv_init|lia]. Qed.

(** closing the row pointers *)
Lemma rows_close l start indptr : rows l start indptr -> 0 < n -> (forall c, In c l -> fst c < n) -> (forall r, r < n -> exists c, In c l /\ fst c = r) ->
  exists indptr', set_at (S start) (length l) indptr = Some indptr' /\ length indptr' = S n /\ forall r, r <= n -> nth_error indptr' r = Some (offs (map fst l) r).
Proof. clear - n.
  intros [R1 R2 R3 R4] Hn Hl Hall. assert (Es : S start = n).
  { destruct (Hall (n - 1)) as (c & Hc & Ec); [lia|]. specialize (R2 c Hc). destruct R3 as [->|(c' & Hc' & E')]; [lia|]. specialize (Hl c' Hc'). lia. }
  rewrite set_at_Some by lia. eexists. split; [reflexivity|]. rewrite upd_length. split; auto. intros r Hr.
  destruct (Nat.eq_dec r (S start)) as [->|Hne].
  - rewrite nth_error_upd_eq by lia. f_equal. rewrite offs_all; [now rewrite map_length|]. intros x Hx. apply in_map_iff in Hx as (c & <- & Hc). specialize (Hl c Hc). lia.
  - rewrite nth_error_upd_neq by lia. apply R4. lia.
Qed.
End Scan.

(** ** compressed rows made of sorted cells *)
Lemma offs_lt_iff l : StronglySorted le l -> forall e r, e < offs l r <-> exists x, nth_error l e = Some x /\ x < r.
Proof.
  unfold offs. induction 1 as [|a l HS IH HF]; intros e r; simpl.
  - split; [lia|intros (x & H & _); destruct e; discriminate].
  - rewrite Forall_forall in HF. destruct (Nat.ltb_spec a r) as [Ha|Ha]; simpl.
    + destruct e as [|e]; simpl; [split; [eauto|lia]|]. rewrite <- IH. lia.
    + split.
      * intros He. exfalso. assert (X := proj1 (IH e r) He). destruct X as (x & Hx & Hl). apply nth_error_In in Hx. specialize (HF x Hx). lia.
      * intros (x & Hx & Hl). exfalso. destruct e as [|e]; simpl in Hx; [injection Hx as ->; lia|]. apply nth_error_In in Hx. specialize (HF x Hx). lia.
Qed.
Lemma cells_rows_sorted cs : StronglySorted cell_lt cs -> StronglySorted le (map fst cs).
Proof.
  induction 1 as [|c cs HS IH HF]; simpl; constructor; auto. apply Forall_forall. intros x Hx. apply in_map_iff in Hx as (c' & <- & Hc').
  rewrite Forall_forall in HF. specialize (HF c' Hc'). unfold cell_lt in HF. lia.
Qed.
Lemma cells_nth_lt cs : StronglySorted cell_lt cs -> forall e e' c c', nth_error cs e = Some c -> nth_error cs e' = Some c' -> (e < e' <-> cell_lt c c').
Proof.
  intros HS. assert (X : forall e e' c c', nth_error cs e = Some c -> nth_error cs e' = Some c' -> e < e' -> cell_lt c c').
  { induction HS as [|a cs HS IH HF]; intros e e' c c' H1 H2 Hlt; [destruct e; discriminate|]. destruct e' as [|e']; [lia|]. simpl in H2. destruct e as [|e].
    - injection H1 as ->. rewrite Forall_forall in HF. apply HF. now apply nth_error_In in H2.
    - simpl in H1. apply (IH e e' c c'); auto. lia. }
  intros e e' c c' H1 H2. split; [now apply X|]. intros Hc. destruct (Nat.lt_total e e') as [|[->|Hgt]]; auto.
  - rewrite H1 in H2. injection H2 as ->. now apply cell_lt_irr in Hc.
  - exfalso. apply (cell_lt_irr c). eapply cell_lt_trans; [exact Hc|]. exact (X e' e c' c H2 H1 Hgt).
Qed.

Section Csr.
Variable n : nat.
Variable cs : list (nat * nat).
Variable indptr : list nat.
Hypothesis cs_sorted : StronglySorted cell_lt cs.
Hypothesis cs_range : forall c, In c cs -> fst c < n /\ snd c < n.
Hypothesis indptr_len : length indptr = S n.
Hypothesis indptr_nth : forall r, r <= n -> nth_error indptr r = Some (offs (map fst cs) r).

Lemma csr_at_cells e i j : csr_at indptr (map snd cs) e i j <-> nth_error cs e = Some (i, j).
Proof.
  unfold csr_at. rewrite nth_error_map. assert (HS := cells_rows_sorted cs cs_sorted). split.
  - intros (Hj & lo & hi & H1 & H2 & He). destruct (nth_error cs e) as [[i' j']|] eqn:Ee; [|discriminate]. injection Hj as ->.
    assert (Hi : S i <= n) by (assert (S i < length indptr) by (apply nth_error_Some; congruence); lia).
    rewrite indptr_nth in H1, H2 by lia. injection H1 as <-. injection H2 as <-.
    assert (E : nth_error (map fst cs) e = Some i') by (rewrite nth_error_map, Ee; reflexivity).
    destruct He as [H1 H2]. apply (proj1 (offs_lt_iff _ HS e (S i))) in H2 as (x & Hx & Hl). rewrite E in Hx. injection Hx as <-.
    assert (~ e < offs (map fst cs) i) as H3 by lia. rewrite (offs_lt_iff _ HS) in H3. assert (~ i' < i) by (intros H; apply H3; eauto). f_equal. f_equal. lia.
  - intros Ee. rewrite Ee. split; [reflexivity|]. destruct (cs_range (i, j) (nth_error_In _ _ Ee)) as [Hi Hj]. simpl in Hi, Hj.
    exists (offs (map fst cs) i), (offs (map fst cs) (S i)). rewrite !indptr_nth by lia. split; [reflexivity|]. split; [reflexivity|].
    assert (E : nth_error (map fst cs) e = Some i) by (rewrite nth_error_map, Ee; reflexivity). split.
    + destruct (Nat.le_gt_cases (offs (map fst cs) i) e) as [|H]; auto. apply (offs_lt_iff _ HS) in H as (x & Hx & Hl). rewrite E in Hx. injection Hx as <-. lia.
    + apply (offs_lt_iff _ HS). exists i. split; auto.
Qed.
Lemma csr_cells : csr n indptr (map snd cs).
Proof.
  constructor.
  - exact indptr_len.
  - rewrite indptr_nth by lia. f_equal. apply offs_0.
  - rewrite indptr_nth by lia. f_equal. rewrite offs_all; [now rewrite !map_length|]. intros x Hx. apply in_map_iff in Hx as (c & <- & Hc). now apply cs_range.
  - assert (E : indptr = map (offs (map fst cs)) (seq 0 (S n))).
    { apply nth_error_ext. intros r. destruct (Nat.lt_ge_cases r (S n)) as [Hr|Hr].
      - rewrite indptr_nth by lia. rewrite nth_error_map, nth_error_nth' with (d := 0) by (rewrite seq_length; lia). rewrite seq_nth by lia. reflexivity.
      - rewrite !(proj2 (nth_error_None _ _)); auto; [rewrite map_length, seq_length; lia|lia]. }
    rewrite E. apply (sorted_map_seq (offs (map fst cs))). intros i j Hij. now apply offs_mono.
  - intros e e' i j j' H1 H2 Hlt. apply csr_at_cells in H1, H2. apply (cells_nth_lt cs cs_sorted e e' _ _ H1 H2) in Hlt. unfold cell_lt in Hlt. simpl in Hlt. lia.
  - intros j Hj. apply in_map_iff in Hj as (c & <- & Hc). now apply cs_range.
Qed.
End Csr.
