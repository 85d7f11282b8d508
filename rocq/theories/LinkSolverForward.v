(** The forward elimination keeps the solutions, as long as no node with a contracted link is eliminated. *)
From Verif Require Import Common NatMap LinkSolver LinkSolverSpec LinkSolverFacts.
From Coq Require Import Ring Sorted.

Lemma sorted_snoc l x : StronglySorted lt l -> (forall y, In y l -> y < x) -> StronglySorted lt (l ++ [x]).
Proof.
  induction 1 as [|y l Hs IH Hall]; intros H; simpl; [constructor; constructor|]. constructor.
  - apply IH. intros z Hz. apply H. right; auto.
  - apply Forall_app. split; auto. constructor; auto. apply H. left; auto.
Qed.
Lemma sorted_NoDup l : StronglySorted lt l -> NoDup l.
Proof. induction 1 as [|y l Hs IH Hall]; constructor; auto. intros Hi. rewrite Forall_forall in Hall. apply Hall in Hi. lia. Qed.
Lemma sorted_nth l : StronglySorted lt l -> forall i j x y, nth_error l i = Some x -> nth_error l j = Some y -> i < j -> x < y.
Proof.
  induction 1 as [|z l Hs IH Hall]; intros [|i] [|j] x y Hi Hj Hlt; try discriminate; try lia.
  - injection Hi as <-. rewrite Forall_forall in Hall. apply Hall. now apply nth_error_In with j.
  - apply (IH i j); auto. lia.
Qed.

Section Forward.
Context {F : Type}.
Variable o : flow_ops F.
Hypothesis laws : flow_laws o.
Notation "a +! b" := (f_add o a b) (at level 50, left associativity).
Notation "a *! b" := (f_mul o a b) (at level 40, left associativity).
Notation "a -! b" := (f_sub o a b) (at level 50, left associativity).
Notation zero := (f_0 o).
Notation fz := (f_z o).
Notation big := (big o).
Add Ring Fring : (fl_ring o laws).

Variable es : list edge.
Variable loads : list F.
Notation m := (length es).
Notation n := (length loads).
Hypothesis ends : forall a b, In (a, b) es -> a < n /\ b < n /\ a <> b.
Lemma edge_in f : f < m -> In (edge_at es f) es.
Proof. intros H. now apply nth_In. Qed.
Lemma edge_ends f : f < m -> fst (edge_at es f) < n /\ snd (edge_at es f) < n /\ fst (edge_at es f) <> snd (edge_at es f).
Proof. intros H. apply edge_in in H. destruct (edge_at es f) as [a b]. now apply ends. Qed.

(** +1 for the to node, -1 for the from node *)
Definition inc (e : edge) (v : nat) : Z := ((if (snd e =? v)%nat then 1 else 0) - (if (fst e =? v)%nat then 1 else 0))%Z.
Definition kcl (x : nat -> F) : Prop := forall v, v < n -> big m (fun f => fz (inc (edge_at es f) v) *! x f) = f_neg o (load_at o loads v).
Definition row_holds (M : coo) (rhs : list F) (x : nat -> F) (r : nat) : Prop := big m (fun c => fz (zv (M r c)) *! x c) = load_at o rhs r.
(** net inflow of [v] in the graph that is left *)
Definition left_over (s : fw_state F) (x : nat -> F) (v : nat) : F :=
  big m (fun f => if mem f (w_pivots s) then zero else fz (inc (edge_at (w_edges s) f) v) *! x f).

Record FI (i : nat) (s : fw_state F) (rep : nat -> nat) : Prop := {
  fi_len : length (w_edges s) = m /\ length (w_hist s) = m /\ length (w_loads s) = n;
  fi_rep : forall v, v < n -> rep v < n /\ rep (rep v) = rep v;
  fi_cur : forall f, f < m -> ~ In f (w_pivots s) -> edge_at (w_edges s) f = (rep (fst (edge_at es f)), rep (snd (edge_at es f)));
  fi_del : forall f, In f (w_pivots s) -> f < i /\ f < m /\ rep (fst (edge_at es f)) = rep (snd (edge_at es f));
  fi_adj : forall v f, In f (w_adj s v) <-> f < m /\ ~ In f (w_pivots s) /\ (fst (edge_at (w_edges s) f) = v \/ snd (edge_at (w_edges s) f) = v);
  fi_nodup : forall v, NoDup (w_adj s v);
  fi_con : forall f, In f (w_contracted s) <-> f < m /\ ~ In f (w_pivots s) /\ fst (edge_at (w_edges s) f) = snd (edge_at (w_edges s) f);
  fi_part : forall f, f < i -> In f (w_pivots s) \/ In f (w_free s);
  fi_free : forall f, In f (w_free s) -> f < i /\ In f (w_contracted s);
  fi_sorted : StronglySorted lt (w_pivots s) /\ StronglySorted lt (w_free s);
  fi_row : w_row s = length (w_pivots s) /\ length (w_rhs s) = length (w_pivots s);
  fi_loads : forall v, v < n -> rep v = v -> load_at o (w_loads s) v = big n (fun u => if rep u =? v then f_neg o (load_at o loads u) else zero);
  fi_own : forall r p, nth_error (w_pivots s) r = Some p -> w_matrix s r p = Some 1%Z;
  fi_mat : forall r c v, w_matrix s r c = Some v -> exists p, nth_error (w_pivots s) r = Some p /\ p <= c < m;
  fi_hist : forall f, f < m -> StronglySorted lt (rows_at (w_hist s) f) /\ forall r, In r (rows_at (w_hist s) f) <-> w_matrix s r f <> None;
  fi_sem : forall x, (forall r, r < w_row s -> row_holds (w_matrix s) (w_rhs s) x r) ->
    (forall v, v < n -> rep v = v -> left_over s x v = load_at o (w_loads s) v) -> kcl x }.

Lemma load_map l v : load_at o (map (f_neg o) l) v = f_neg o (load_at o l v).
Proof. unfold load_at. replace (f_0 o) with (f_neg o (f_0 o)) at 1 by ring. apply map_nth. Qed.

(** ** the start *)
Lemma adjacency v f : In f (build_adjacency_map es v) <-> f < m /\ (fst (edge_at es f) = v \/ snd (edge_at es f) = v).
Proof.
  unfold build_adjacency_map.
  assert (H : forall l pre adj, es = pre ++ l -> (forall v f, In f (adj v) <-> f < length pre /\ (fst (edge_at es f) = v \/ snd (edge_at es f) = v)) ->
    forall v f, In f (fold_left (fun adj ie => upd_adj (snd (snd ie)) (insert (fst ie)) (upd_adj (fst (snd ie)) (insert (fst ie)) adj)) (combine (seq (length pre) (length l)) l) adj v) <->
      f < length pre + length l /\ (fst (edge_at es f) = v \/ snd (edge_at es f) = v)).
  { induction l as [|e l IH]; intros pre adj E Ha; simpl; [now rewrite Nat.add_0_r|].
    specialize (IH (pre ++ [e])). rewrite app_length in IH. simpl in IH. rewrite Nat.add_1_r in IH.
    replace (length pre + S (length l)) with (S (length pre) + length l) by lia. apply IH; [now rewrite <- app_assoc|].
    assert (He : edge_at es (length pre) = e) by (unfold edge_at; rewrite E, app_nth2 by lia; now rewrite Nat.sub_diag).
    intros v0 f0.
    assert (Hi : In f0 (upd_adj (snd e) (insert (length pre)) (upd_adj (fst e) (insert (length pre)) adj) v0) <-> In f0 (adj v0) \/ (f0 = length pre /\ (fst e = v0 \/ snd e = v0))).
    { destruct (Nat.eq_dec v0 (snd e)) as [->|Hs].
      - rewrite upd_adj_eq, insert_In. destruct (Nat.eq_dec (snd e) (fst e)) as [E2|Hf].
        + rewrite E2, upd_adj_eq, insert_In. intuition.
        + rewrite upd_adj_neq by auto. intuition.
      - rewrite upd_adj_neq by auto. destruct (Nat.eq_dec v0 (fst e)) as [->|Hf].
        + rewrite upd_adj_eq, insert_In. intuition.
        + rewrite upd_adj_neq by auto. intuition congruence. }
    rewrite Hi, Ha. rewrite <- He. split.
    - intros [[H1 H2]|(-> & H)]; split; auto; lia.
    - intros [H1 H2]. destruct (Nat.eq_dec f0 (length pre)) as [->|]; [right; auto|left; split; auto; lia]. }
  apply (H es []); auto. simpl. intros; split; [intros []|lia].
Qed.
Lemma adjacency_NoDup v : NoDup (build_adjacency_map es v).
Proof.
  unfold build_adjacency_map. generalize (combine (seq 0 m) es). intros l.
  assert (H : forall l adj, (forall v, NoDup (adj v)) -> forall v, NoDup (fold_left (fun adj ie => upd_adj (snd (snd ie)) (insert (fst ie)) (upd_adj (fst (snd ie)) (insert (fst ie)) adj)) l adj v)).
  { induction l0 as [|[i e] l0 IH]; intros adj Ha; simpl; auto. apply IH. intros u.
    assert (Hu : forall w k (adj : nat -> list nat), (forall v, NoDup (adj v)) -> forall v, NoDup (upd_adj w (insert k) adj v)).
    { intros w k adj' H' v'. destruct (Nat.eq_dec v' w) as [->|]; [rewrite upd_adj_eq; now apply insert_NoDup|rewrite upd_adj_neq; auto]. }
    apply Hu. apply Hu. auto. }
  apply H. intros; constructor.
Qed.
Lemma FI_init : FI 0 (forward_init o es loads) (fun v => v).
Proof.
  constructor; cbn [forward_init w_edges w_adj w_contracted w_loads w_row w_matrix w_rhs w_free w_pivots w_hist]; auto; try (intros; simpl in *; tauto).
  - now rewrite repeat_length, map_length.
  - intros f _ _. now destruct (edge_at es f).
  - intros v f. rewrite adjacency. simpl. tauto.
  - apply adjacency_NoDup.
  - intros f. simpl. split; [tauto|]. intros (H & _ & E). now apply edge_ends in H as (_ & _ & H).
  - intros f. lia.
  - split; constructor.
  - intros v Hv _. rewrite load_map. rewrite (big_one o laws n v); auto; [now rewrite Nat.eqb_refl|]. intros i _ Hn. now destruct (Nat.eqb_spec i v).
  - intros [|r] p; discriminate.
  - intros r c v. discriminate.
  - intros f Hf. unfold rows_at. rewrite (nth_error_nth _ _ _ (nth_error_repeat [] Hf)). split; [constructor|]. intros r. simpl. unfold coo_empty. split; [tauto|congruence].
  - intros x _ H v Hv. rewrite <- load_map, <- H by auto. apply big_ext; auto.
Qed.

(** ** one step *)
Lemma FI_free i s rep : FI i s rep -> i < m -> mem i (w_contracted s) = true -> FI (S i) (forward_step o s i) rep.
Proof.
  intros I Hi Hc. pose proof I as [H1 H2 H3 H4 H5 H6 H7 H8 H9 [H10 H11] H12 H13 H14 H15 H16 H17]. unfold forward_step. rewrite Hc.
  constructor; cbn [w_edges w_adj w_contracted w_loads w_row w_matrix w_rhs w_free w_pivots w_hist]; auto.
  - intros f Hf. destruct (H4 f Hf). split; [lia|auto].
  - intros f Hf. rewrite in_app_iff. simpl. destruct (Nat.eq_dec f i) as [->|]; auto. destruct (H8 f); auto. lia.
  - intros f Hf. apply in_app_iff in Hf as [Hf|[<-|[]]]; [destruct (H9 f Hf); auto|]. split; [lia|now apply mem_In].
  - split; auto. apply sorted_snoc; auto. intros y Hy. now apply H9.
Qed.

Section Pivot.
Variables (i : nat) (s : fw_state F) (rep : nat -> nat).
Hypothesis I : FI i s rep.
Hypothesis Hi : i < m.
Hypothesis Hcon : mem i (w_contracted s) = false.
Hypothesis Hclean : step_clean s i = true.
Notation a := (fst (edge_at (w_edges s) i)).
Notation b := (snd (edge_at (w_edges s) i)).
Notation row := (w_row s).
Notation s1 := (delete_edge o i a b s).
Notation l := (w_adj s1 b).
Notation s2 := (fold_left (reattach a b row) l s1).
Notation rep' := (fun v => if rep v =? b then a else rep v).

Lemma pv_not : ~ In i (w_pivots s).
Proof. intros H. apply (fi_del _ _ _ I) in H. lia. Qed.
Lemma pv_ab : a <> b.
Proof. intros E. apply (proj1 (mem_false _ _) Hcon). apply (fi_con _ _ _ I). refine (conj Hi (conj pv_not E)). Qed.
Lemma pv_ends : a < n /\ b < n /\ rep a = a /\ rep b = b.
Proof.
  rewrite (fi_cur _ _ _ I i Hi pv_not). cbn [fst snd]. destruct (edge_ends i Hi) as (H1 & H2 & _).
  destruct (fi_rep _ _ _ I _ H1), (fi_rep _ _ _ I _ H2). auto.
Qed.
Lemma pv_step : forward_step o s i = s2.
Proof. unfold forward_step. rewrite Hcon. now destruct (edge_at (w_edges s) i) as [x y]. Qed.
Lemma pv_l f : In f l <-> f < m /\ ~ In f (w_pivots s) /\ f <> i /\ (fst (edge_at (w_edges s) f) = b \/ snd (edge_at (w_edges s) f) = b).
Proof.
  cbn [delete_edge w_adj]. rewrite upd_adj_eq, erase_In, upd_adj_neq by (intros E; symmetry in E; revert E; exact pv_ab). rewrite (fi_adj _ _ _ I). tauto.
Qed.
Lemma pv_one f : In f l -> fst (edge_at (w_edges s) f) <> snd (edge_at (w_edges s) f).
Proof.
  intros Hf E. apply pv_l in Hf as (F1 & F2 & F3 & F4).
  assert (Ha : In f (w_adj s b)) by (apply (fi_adj _ _ _ I); auto).
  pose proof Hclean as Hcl. unfold step_clean in Hcl. rewrite Hcon in Hcl. simpl in Hcl. rewrite forallb_forall in Hcl. apply Hcl in Ha. apply negb_true_iff, mem_false in Ha.
  apply Ha. apply (fi_con _ _ _ I). auto.
Qed.
(** a link beside the pivot that was processed before is contracted, and those are not at this node *)
Lemma pv_later f : In f l -> i < f.
Proof.
  intros Hf. pose proof (pv_one f Hf) as Hne. apply pv_l in Hf as (F1 & F2 & F3 & F4). destruct (Nat.lt_trichotomy f i) as [Hlt|[|]]; auto; [|congruence].
  destruct (fi_part _ _ _ I f Hlt) as [|Hf]; [contradiction|]. apply (fi_free _ _ _ I) in Hf as [_ Hf]. apply (fi_con _ _ _ I) in Hf as (_ & _ & E). congruence.
Qed.
Lemma pv_moved : moved_all a b row l s1 s2.
Proof.
  apply reattach_all.
  - exact pv_ab.
  - cbn [delete_edge w_adj]. rewrite upd_adj_eq. apply erase_NoDup. rewrite upd_adj_neq by (intros E; symmetry in E; revert E; exact pv_ab). apply (fi_nodup _ _ _ I).
  - intros f Hf. apply pv_l in Hf as (Hf & _). cbn [delete_edge w_edges]. rewrite (proj1 (fi_len _ _ _ I)). auto.
  - cbn [delete_edge w_edges w_hist]. unfold write_history. rewrite upd_length. destruct (fi_len _ _ _ I) as (-> & -> & _). auto.
Qed.
Lemma pv_pivots : w_pivots s2 = w_pivots s ++ [i].
Proof. destruct (ma_same _ _ _ _ _ _ pv_moved) as (_ & _ & _ & _ & ->). reflexivity. Qed.
Lemma pv_edge f : f < m -> ~ In f (w_pivots s2) -> edge_at (w_edges s2) f = (rep' (fst (edge_at es f)), rep' (snd (edge_at es f))).
Proof.
  intros Hf Hn. rewrite pv_pivots, in_app_iff in Hn. simpl in Hn.
  rewrite (ma_edges _ _ _ _ _ _ pv_moved). cbn [delete_edge w_edges].
  assert (Hc : edge_at (w_edges s) f = (rep (fst (edge_at es f)), rep (snd (edge_at es f)))) by (apply (fi_cur _ _ _ I); tauto).
  destruct (mem f l) eqn:Em.
  - apply mem_In in Em. pose proof (pv_one f Em) as Hne. apply pv_l in Em as (_ & _ & _ & Hor). unfold moved. rewrite Hc in *. cbn [fst snd] in *.
    destruct (Nat.eqb_spec (rep (fst (edge_at es f))) b) as [E1|E1], (Nat.eqb_spec (rep (snd (edge_at es f))) b) as [E2|E2]; auto; try congruence. destruct Hor; congruence.
  - apply mem_false in Em. rewrite Hc. rewrite pv_l, Hc in Em. cbn [fst snd] in Em.
    destruct (Nat.eqb_spec (rep (fst (edge_at es f))) b) as [E1|E1]; [exfalso; apply Em; repeat split; auto; tauto|].
    destruct (Nat.eqb_spec (rep (snd (edge_at es f))) b) as [E2|E2]; [exfalso; apply Em; repeat split; auto; tauto|]. auto.
Qed.
Lemma pv_old f : f < m -> ~ In f (w_pivots s2) -> edge_at (w_edges s) f = (rep (fst (edge_at es f)), rep (snd (edge_at es f))) /\ f <> i /\ ~ In f (w_pivots s).
Proof. intros Hf Hn. rewrite pv_pivots, in_app_iff in Hn. simpl in Hn. split; [apply (fi_cur _ _ _ I)|]; auto; split; auto. Qed.

(** moving an edge from [b] to [a] adds its part at [b] to its part at [a] *)
Lemma inc_moved e v : fst e <> snd e \/ (fst e <> b /\ snd e <> b) ->
  inc ((if fst e =? b then a else fst e), (if snd e =? b then a else snd e)) v = if v =? b then 0%Z else if v =? a then (inc e a + inc e b)%Z else inc e v.
Proof.
  pose proof pv_ab as Hab. revert Hab. generalize a b. intros a0 b0 Hab He. unfold inc. destruct e as [p q]. cbn [fst snd] in *.
  destruct He as [He|[He1 He2]]; destruct (Nat.eqb_spec p b0), (Nat.eqb_spec q b0); repeat match goal with |- context [?x =? ?y] => destruct (Nat.eqb_spec x y) end; subst; try lia; try congruence.
Qed.
Lemma left_over_new x v : v < n -> v <> b -> left_over s2 x v = if v =? a then left_over s x a +! left_over s x b else left_over s x v.
Proof.
  intros Hv Hvb. pose proof pv_ab as Hab. unfold left_over.
  assert (Hterm : forall f, f < m -> (if mem f (w_pivots s2) then zero else fz (inc (edge_at (w_edges s2) f) v) *! x f) =
    if v =? a then (if mem f (w_pivots s) then zero else fz (inc (edge_at (w_edges s) f) a) *! x f) +! (if mem f (w_pivots s) then zero else fz (inc (edge_at (w_edges s) f) b) *! x f)
    else if mem f (w_pivots s) then zero else fz (inc (edge_at (w_edges s) f) v) *! x f).
  { intros f Hf. destruct (mem f (w_pivots s2)) eqn:Em.
    - apply mem_In in Em. rewrite pv_pivots, in_app_iff in Em. destruct Em as [Em|[<-|[]]].
      + apply mem_In in Em. rewrite Em. destruct (v =? a); [ring|auto].
      + rewrite (proj2 (mem_false _ _) pv_not). unfold inc. rewrite !Nat.eqb_refl.
        destruct (Nat.eqb_spec a b); [contradiction|]. destruct (Nat.eqb_spec b a); [congruence|].
        destruct (Nat.eqb_spec v a) as [->|Hva].
        * replace (fz (0 - 1)) with (f_neg o (fz 1)) by (rewrite <- (fz_neg o laws); reflexivity). replace (fz (1 - 0)) with (fz 1) by reflexivity. ring.
        * destruct (Nat.eqb_spec b v); [congruence|]. destruct (Nat.eqb_spec a v); [congruence|]. replace (fz (0 - 0)) with zero by (symmetry; apply (fz0 o laws)). ring.
    - apply mem_false in Em. destruct (pv_old f Hf Em) as (Eo & Hfi & Hfp). rewrite (proj2 (mem_false f (w_pivots s)) Hfp).
      rewrite (pv_edge f Hf Em).
      assert (Hx : edge_at (w_edges s2) f = ((if fst (edge_at (w_edges s) f) =? b then a else fst (edge_at (w_edges s) f)), (if snd (edge_at (w_edges s) f) =? b then a else snd (edge_at (w_edges s) f)))).
      { rewrite (pv_edge f Hf Em). now rewrite Eo. }
      rewrite <- (pv_edge f Hf Em), Hx, inc_moved.
      + destruct (Nat.eqb_spec v b); [congruence|]. destruct (v =? a); auto. rewrite (fl_zadd o laws). ring.
      + destruct (mem f l) eqn:El; [left; apply pv_one; now apply mem_In|]. right. apply mem_false in El. rewrite pv_l in El. tauto. }
  rewrite (big_ext o m _ _ Hterm). destruct (v =? a); [now rewrite big_add|auto].
Qed.
Lemma pv_row_matrix c : zv (w_matrix s2 row c) = if mem c (w_pivots s) then 0%Z else if c <? m then inc (edge_at (w_edges s) c) b else 0%Z.
Proof.
  pose proof pv_ab as Hab. rewrite (ma_matrix _ _ _ _ _ _ pv_moved), Nat.eqb_refl. cbn [andb delete_edge w_matrix w_edges].
  destruct (mem c l) eqn:El.
  - apply mem_In in El. pose proof (pv_one c El) as Hne. apply pv_l in El as (Hc & Hp & Hci & Hor). rewrite (proj2 (mem_false _ _) Hp).
    destruct (Nat.ltb_spec c m); [|lia]. unfold inc. destruct (Nat.eqb_spec (fst (edge_at (w_edges s) c)) b), (Nat.eqb_spec (snd (edge_at (w_edges s) c)) b); cbn [zv]; try lia; try congruence; destruct Hor; congruence.
  - apply mem_false in El. rewrite pv_l in El. unfold set_value. rewrite coo_put_at, Nat.eqb_refl. cbn [andb]. destruct (Nat.eqb_spec c i) as [->|Hci].
    + rewrite (proj2 (mem_false _ _) pv_not). destruct (Nat.ltb_spec i m); [|lia]. unfold inc. rewrite Nat.eqb_refl. destruct (Nat.eqb_spec a b); [contradiction|reflexivity].
    + destruct (w_matrix s row c) as [v|] eqn:Em.
      { apply (fi_mat _ _ _ I) in Em as (p & Hp & _). exfalso. assert (row < length (w_pivots s)) by (apply nth_error_Some; congruence). rewrite (proj1 (fi_row _ _ _ I)) in *. lia. }
      cbn [zv]. destruct (mem c (w_pivots s)) eqn:Ep; auto. apply mem_false in Ep. destruct (Nat.ltb_spec c m); auto. unfold inc.
      destruct (Nat.eqb_spec (snd (edge_at (w_edges s) c)) b); [exfalso; tauto|]. destruct (Nat.eqb_spec (fst (edge_at (w_edges s) c)) b); [exfalso; tauto|reflexivity].
Qed.
Lemma pv_row_sum x : big m (fun c => fz (zv (w_matrix s2 row c)) *! x c) = left_over s x b.
Proof.
  apply big_ext. intros c Hc. rewrite pv_row_matrix. destruct (mem c (w_pivots s)); [rewrite (fz0 o laws); ring|]. destruct (Nat.ltb_spec c m); [auto|lia].
Qed.
Lemma pv_old_row r c : r < row -> w_matrix s2 r c = w_matrix s r c.
Proof.
  intros Hr. rewrite (ma_matrix _ _ _ _ _ _ pv_moved). destruct (Nat.eqb_spec r row); [lia|]. cbn [andb delete_edge w_matrix]. unfold set_value. rewrite coo_put_at.
  destruct (Nat.eqb_spec r row); [lia|auto].
Qed.
Lemma pv_rhs : w_rhs s2 = w_rhs s ++ [load_at o (w_loads s) b].
Proof.
  destruct (ma_same _ _ _ _ _ _ pv_moved) as (_ & _ & -> & _). cbn [delete_edge w_rhs]. f_equal. f_equal. unfold load_at at 1.
  rewrite nth_upd by (rewrite (proj2 (proj2 (fi_len _ _ _ I))); apply pv_ends). destruct (Nat.eqb_spec b a) as [E|]; auto. symmetry in E. now apply pv_ab in E.
Qed.
Lemma pv_loads v : load_at o (w_loads s2) v = if v =? a then load_at o (w_loads s) a +! load_at o (w_loads s) b else load_at o (w_loads s) v.
Proof.
  destruct (ma_same _ _ _ _ _ _ pv_moved) as (-> & _). cbn [delete_edge w_loads]. unfold load_at at 1. rewrite nth_upd by (rewrite (proj2 (proj2 (fi_len _ _ _ I))); apply pv_ends).
  destruct (v =? a); auto.
Qed.
Lemma FI_pivot : FI (S i) (forward_step o s i) rep'.
Proof.
  rewrite pv_step. pose proof pv_ab as Hab. destruct pv_ends as (Han & Hbn & Hra & Hrb).
  pose proof pv_moved as Mv. pose proof pv_edge as PE. pose proof pv_pivots as HP. pose proof pv_loads as PLo. pose proof pv_rhs as PR. pose proof pv_old_row as POR.
  pose proof left_over_new as LON. pose proof pv_row_sum as PRS. pose proof pv_l as PL. pose proof pv_one as PO. pose proof pv_later as PLt.
  set (t := s2) in *. clearbody t. set (L := l) in *.
  assert (EL : L = w_adj s1 b) by reflexivity. clearbody L.
  destruct Mv as [[ML1 ML2] ME MA MN MC (MS1 & MS2 & MS3 & MS4 & MS5) MM MH].
  pose proof I as [I1 I2 I3 I4 I5 I6 I7 I8 I9 [I10 I11] [I12 I12'] I13 I14 I15 I16 I17].
  destruct I1 as (I1a & I1b & I1c).
  assert (Hplt : forall y, In y (w_pivots s) -> y < i) by (intros y Hy; now apply I4).
  constructor.
  - rewrite ML1, ML2, MS1. cbn [delete_edge w_edges w_hist w_loads]. unfold write_history. rewrite !upd_length. auto.
  - intros v Hv. destruct (I2 v Hv) as [H1 H2]. destruct (Nat.eqb_spec (rep v) b) as [E|E].
    + split; auto. rewrite Hra. destruct (Nat.eqb_spec a b); [contradiction|auto].
    + split; auto. rewrite H2. destruct (Nat.eqb_spec (rep v) b); [contradiction|auto].
  - exact PE.
  - intros f Hf. rewrite HP in Hf. apply in_app_iff in Hf as [Hf|[<-|[]]].
    + destruct (I4 f Hf) as (H1 & H2 & H3). rewrite H3. auto.
    + pose proof (I3 i Hi pv_not) as E. rewrite E. cbn [fst snd]. rewrite Nat.eqb_refl. repeat split; auto. destruct (_ =? _); auto.
  - intros v f. rewrite MA. rewrite !PL. cbn [delete_edge w_adj].
    assert (Ha' : In f (upd_adj b (erase i) (upd_adj a (erase i) (w_adj s)) a) <-> In f (w_adj s a) /\ f <> i).
    { rewrite upd_adj_neq by auto. rewrite upd_adj_eq, erase_In. tauto. }
    rewrite Ha'. clear Ha'. rewrite HP, in_app_iff. cbn [In].
    assert (Hcase : f < m -> ~ (In f (w_pivots s) \/ i = f \/ False) -> edge_at (w_edges t) f = (if fst (edge_at (w_edges s) f) =? b then a else fst (edge_at (w_edges s) f), if snd (edge_at (w_edges s) f) =? b then a else snd (edge_at (w_edges s) f))).
    { intros Hf Hn. rewrite PE; auto. 2: now rewrite HP, in_app_iff. rewrite (I3 f); auto. }
    split.
    + intros [(Hva & Hvb & H)|[(-> & H)|(-> & H & Hn)]].
      * rewrite !upd_adj_neq in H by auto. apply I5 in H as (H1 & H2 & H3).
        assert (Hfi : i <> f). { intros <-. destruct H3; [apply Hva|apply Hvb]; auto. }
        split; auto. split; [tauto|]. rewrite Hcase by tauto. cbn [fst snd].
        destruct H3 as [<-|<-]; [left|right]; destruct (Nat.eqb_spec (fst (edge_at (w_edges s) f)) b), (Nat.eqb_spec (snd (edge_at (w_edges s) f)) b); congruence.
      * destruct H as [(H1 & H2 & H3 & H4)|[H H3]].
        -- split; auto. split; [intuition|]. rewrite Hcase by intuition. cbn [fst snd]. destruct H4 as [-> | ->]; rewrite Nat.eqb_refl; auto.
        -- apply I5 in H as (H1 & H2 & H4). split; auto. split; [intuition|]. rewrite Hcase by intuition. cbn [fst snd].
           destruct H4 as [-> | ->]; (destruct (Nat.eqb_spec a b); [contradiction|auto]).
      * exfalso. apply Hn. rewrite <- PL, EL. exact H.
    + intros (H1 & H2 & H3). assert (Hfi : f <> i) by (intros ->; tauto). assert (Hfp : ~ In f (w_pivots s)) by tauto. rewrite Hcase in H3 by auto. cbn [fst snd] in H3.
      destruct (Nat.eq_dec v a) as [->|Hva].
      * right. left. split; auto.
        destruct (Nat.eqb_spec (fst (edge_at (w_edges s) f)) b) as [E1|E1]; [left; auto|]. destruct (Nat.eqb_spec (snd (edge_at (w_edges s) f)) b) as [E2|E2]; [left; auto|].
        right. split; auto. apply I5. auto.
      * destruct (Nat.eq_dec v b) as [->|Hvb].
        -- exfalso. destruct (Nat.eqb_spec (fst (edge_at (w_edges s) f)) b), (Nat.eqb_spec (snd (edge_at (w_edges s) f)) b); destruct H3; congruence.
        -- left. refine (conj Hva (conj Hvb _)). rewrite !upd_adj_neq by auto. apply I5. refine (conj H1 (conj Hfp _)).
           destruct (Nat.eqb_spec (fst (edge_at (w_edges s) f)) b), (Nat.eqb_spec (snd (edge_at (w_edges s) f)) b); destruct H3; try congruence; auto.
  - apply MN. intros v. cbn [delete_edge w_adj].
    assert (Hu : forall w k (adj : nat -> list nat), (forall v, NoDup (adj v)) -> forall v, NoDup (upd_adj w (erase k) adj v)).
    { intros w k adj' H' v'. destruct (Nat.eq_dec v' w) as [->|]; [rewrite upd_adj_eq; now apply erase_NoDup|rewrite upd_adj_neq; auto]. }
    apply Hu, Hu, I6.
  - intros f. rewrite MC. cbn [delete_edge w_contracted w_edges]. rewrite HP, in_app_iff. cbn [In]. rewrite ME. cbn [delete_edge w_edges]. rewrite PL. split.
    + intros [Hc|[Hl E]].
      * pose proof Hc as Hc'. apply I7 in Hc' as (H1 & H2 & H3). assert (Hfi : i <> f) by (intros ->; now apply (proj1 (mem_false _ _) Hcon)). split; auto. split; [tauto|].
        destruct (mem f L) eqn:El; auto. apply mem_In in El. now apply PO in El.
      * assert (Hl' : In f L) by (now apply PL). apply mem_In in Hl'. rewrite Hl'. split; [tauto|]. split; [intuition|auto].
    + intros (H1 & H2 & H3). destruct (mem f L) eqn:El.
      * right. apply mem_In in El. split; auto. now apply PL.
      * left. apply I7. tauto.
  - intros f Hf. rewrite HP, MS4. cbn [delete_edge w_free]. rewrite in_app_iff. simpl. destruct (Nat.eq_dec f i) as [->|]; auto. destruct (I8 f); auto. lia.
  - intros f Hf. rewrite MS4 in Hf. cbn [delete_edge w_free] in Hf. apply I9 in Hf as [H1 H2]. split; [lia|]. apply MC. left. exact H2.
  - rewrite HP, MS4. cbn [delete_edge w_free]. split; auto. now apply sorted_snoc.
  - rewrite HP, MS2. rewrite PR. cbn [delete_edge w_row]. rewrite !app_length. simpl. lia.
  - intros v Hv Hr. rewrite PLo.
    assert (Hvb : v <> b) by (intros ->; rewrite Hrb, Nat.eqb_refl in Hr; contradiction).
    destruct (Nat.eqb_spec v a) as [->|Hva].
    + rewrite (I13 a), (I13 b) by auto. rewrite <- (big_add o laws). apply big_ext. intros u Hu.
      destruct (Nat.eqb_spec (rep u) b) as [E|E].
      * rewrite E, Nat.eqb_refl. destruct (Nat.eqb_spec b a) as [E'|]; [symmetry in E'; contradiction|]. ring.
      * destruct (rep u =? a); ring.
    + rewrite (I13 v); auto.
      * apply big_ext. intros u Hu. destruct (Nat.eqb_spec (rep u) b) as [->|E]; auto.
        destruct (Nat.eqb_spec b v); [congruence|]. destruct (Nat.eqb_spec a v); [congruence|auto].
      * destruct (Nat.eqb_spec (rep v) b); auto. congruence.
  - intros r p Hr. rewrite HP in Hr. destruct (Nat.lt_ge_cases r (length (w_pivots s))) as [Hlt|Hge].
    + rewrite nth_error_app1 in Hr by auto. rewrite POR by lia. auto.
    + rewrite nth_error_app2 in Hr by auto. destruct (r - length (w_pivots s)) as [|q] eqn:Eq; [|destruct q; discriminate]. injection Hr as <-.
      assert (r = row) by lia. subst r. rewrite MM, Nat.eqb_refl. cbn [andb]. destruct (mem i L) eqn:El; [apply mem_In, PL in El; tauto|].
      cbn [delete_edge w_matrix]. unfold set_value. rewrite coo_put_at, !Nat.eqb_refl. reflexivity.
  - intros r c v Hr. rewrite MM in Hr. rewrite HP. destruct (Nat.eqb_spec r row) as [->|Hn].
    + exists i. split; [rewrite nth_error_app2 by lia; rewrite I12, Nat.sub_diag; reflexivity|]. cbn [andb] in Hr. destruct (mem c L) eqn:El.
      * apply mem_In in El. pose proof (PLt c El). apply PL in El. lia.
      * cbn [delete_edge w_matrix] in Hr. unfold set_value in Hr. rewrite coo_put_at, Nat.eqb_refl in Hr. cbn [andb] in Hr. destruct (Nat.eqb_spec c i) as [->|]; [lia|].
        apply I15 in Hr as (p & Hp & _). exfalso. assert (row < length (w_pivots s)) by (apply nth_error_Some; congruence). lia.
    + cbn [andb delete_edge w_matrix] in Hr. unfold set_value in Hr. rewrite coo_put_at in Hr. destruct (Nat.eqb_spec r row); [contradiction|]. cbn [andb] in Hr.
      apply I15 in Hr as (p & Hp & Hc). exists p. split; auto. rewrite nth_error_app1; auto. apply nth_error_Some. congruence.
  - intros f Hf. destruct (I16 f Hf) as [J1 J2]. rewrite MH. cbn [delete_edge w_hist]. unfold write_history.
    assert (HU : rows_at (upd i (rows_at (w_hist s) i ++ [row]) (w_hist s)) f = if f =? i then rows_at (w_hist s) i ++ [row] else rows_at (w_hist s) f) by (unfold rows_at at 1; rewrite nth_upd by lia; reflexivity).
    rewrite HU. clear HU.
    assert (Hrow : forall r, In r (rows_at (w_hist s) f) -> r < row).
    { intros r Hr. apply J2 in Hr. destruct (w_matrix s r f) as [v|] eqn:E; [|congruence]. apply I15 in E as (p & Hp & _). rewrite I12. apply nth_error_Some. congruence. }
    assert (Hnorow : w_matrix s row f = None).
    { destruct (w_matrix s row f) as [v|] eqn:E; auto. exfalso. assert (row < row); [apply Hrow, J2; congruence|lia]. }
    destruct (mem f L) eqn:El.
    + assert (Hfi : f <> i) by (apply mem_In, PL in El; tauto). destruct (Nat.eqb_spec f i); [contradiction|]. split.
      * now apply sorted_snoc.
      * intros r. rewrite in_app_iff, J2. simpl. rewrite MM, El. destruct (Nat.eqb_spec r row) as [->|Hn]; cbn [andb]; [split; [discriminate|auto]|].
        cbn [delete_edge w_matrix]. unfold set_value. rewrite coo_put_at. destruct (Nat.eqb_spec r row); [contradiction|]. cbn [andb]. split; [intros [|[E|[]]]; [auto|congruence]|auto].
    + destruct (Nat.eqb_spec f i) as [->|Hfi].
      * split; [now apply sorted_snoc|]. intros r. rewrite in_app_iff, J2. simpl. rewrite MM, El, andb_false_r. cbn [delete_edge w_matrix]. unfold set_value. rewrite coo_put_at, Nat.eqb_refl, andb_true_r.
        destruct (Nat.eqb_spec r row) as [->|Hn]; [split; [discriminate|auto]|]. split; [intros [|[E|[]]]; [auto|congruence]|auto].
      * split; auto. intros r. rewrite J2, MM, El, andb_false_r. cbn [delete_edge w_matrix]. unfold set_value. rewrite coo_put_at.
        destruct (Nat.eqb_spec f i); [contradiction|]. now rewrite andb_false_r.
  - intros x Hrows Hnodes.
    assert (Hb0 : left_over s x b = load_at o (w_loads s) b).
    { rewrite <- PRS. assert (Hr : row < w_row t) by (rewrite MS2; cbn [delete_edge w_row]; lia). specialize (Hrows row Hr). unfold row_holds in Hrows. rewrite Hrows, PR.
      unfold load_at. rewrite app_nth2 by lia. rewrite I12, I12', Nat.sub_diag. reflexivity. }
    apply I17.
    + intros r Hr. assert (Hr' : r < w_row t) by (rewrite MS2; cbn [delete_edge w_row]; lia). specialize (Hrows r Hr'). unfold row_holds in *.
      rewrite (big_ext o m _ (fun c => fz (zv (w_matrix t r c)) *! x c)) by (intros c _; now rewrite POR by auto). rewrite Hrows, PR.
      unfold load_at. rewrite app_nth1 by lia. reflexivity.
    + intros v Hv Hrv. destruct (Nat.eq_dec v b) as [->|Hvb]; [exact Hb0|].
      assert (Hrv' : rep' v = v) by (rewrite Hrv; destruct (Nat.eqb_spec v b); [contradiction|auto]).
      specialize (Hnodes v Hv Hrv'). rewrite LON, PLo in Hnodes by auto. destruct (Nat.eqb_spec v a) as [Eva|]; auto.
      rewrite Eva. rewrite Hb0 in Hnodes. transitivity ((left_over s x a +! load_at o (w_loads s) b) -! load_at o (w_loads s) b); [ring|]. rewrite Hnodes. ring.
Qed.
End Pivot.

Lemma FI_step i s rep : FI i s rep -> i < m -> step_clean s i = true -> exists rep', FI (S i) (forward_step o s i) rep'.
Proof.
  intros I Hi Hc. destruct (mem i (w_contracted s)) eqn:E; [exists rep; now apply FI_free|]. eexists. exact (FI_pivot i s rep I Hi E Hc).
Qed.
Lemma FI_run : forall k i s rep, FI i s rep -> i + k = m -> runs_clean o s (seq i k) = true -> exists rep', FI m (fold_left (forward_step o) (seq i k) s) rep'.
Proof.
  induction k as [|k IH]; intros i s rep I E Hc; simpl.
  - exists rep. now replace m with i by lia.
  - simpl in Hc. apply andb_true_iff in Hc as [H1 H2]. destruct (FI_step i s rep I) as [rep' I']; [lia|auto|]. apply (IH _ _ rep' I'); [lia|auto].
Qed.
Lemma FI_final : clean_run o es loads = true -> exists rep, FI m (forward_elimination o es loads) rep.
Proof. intros H. apply (FI_run m 0 _ _ FI_init); auto. Qed.

(** what is left in the end asks nothing, when the nodes are connected and the loads sum to zero *)
Lemma FI_end s rep : FI m s rep -> (forall u v, u < n -> v < n -> joined es u v) -> big n (fun u => load_at o loads u) = zero ->
  forall x, (forall r, r < w_row s -> row_holds (w_matrix s) (w_rhs s) x r) -> kcl x.
Proof.
  intros I Hj Hs x Hr. apply (fi_sem _ _ _ I x Hr).
  assert (Hsame : forall f, f < m -> rep (fst (edge_at es f)) = rep (snd (edge_at es f))).
  { intros f Hf. destruct (fi_part _ _ _ I f Hf) as [Hp|Hfr]; [now apply (fi_del _ _ _ I) in Hp|].
    apply (fi_free _ _ _ I) in Hfr as [_ Hc]. apply (fi_con _ _ _ I) in Hc as (_ & Hnp & E). rewrite (fi_cur _ _ _ I f Hf Hnp) in E. exact E. }
  assert (Hedge : forall a b, In (a, b) es -> rep a = rep b).
  { intros a b Hin. destruct (In_nth _ _ (0, 0) Hin) as (f & Hf & E). specialize (Hsame f Hf). assert (E' : edge_at es f = (a, b)) by exact E. rewrite E' in Hsame. exact Hsame. }
  assert (Hall : forall u v, u < n -> v < n -> rep u = rep v).
  { intros u v Hu Hv. specialize (Hj u v Hu Hv). clear Hu Hv. induction Hj; auto; rewrite IHHj; [|symmetry]; now apply Hedge. }
  intros v Hv Hrv. transitivity (f_0 o).
  - unfold left_over. apply big_zero; auto. intros f Hf. destruct (mem f (w_pivots s)) eqn:E; auto. apply mem_false in E.
    rewrite (fi_cur _ _ _ I f Hf E). unfold inc. cbn [fst snd]. rewrite (Hsame f Hf). rewrite Z.sub_diag, (fz0 o laws). ring.
  - rewrite (fi_loads _ _ _ I v Hv Hrv). transitivity (big n (fun u => fz (-1) *! load_at o loads u)).
    + rewrite (big_scale o laws). transitivity (fz (-1) *! zero); [ring|]. now rewrite <- Hs.
    + apply big_ext. intros u Hu. rewrite (Hall u v Hu Hv), Hrv, Nat.eqb_refl. change (fz (-1)) with (fz (- (1))). rewrite (fz_neg o laws). ring.
Qed.
End Forward.
