(** Facts about the elimination game of the link solver. *)
From Verif Require Import Common NatMap LinkSolver LinkSolverSpec.
From Coq Require Import Ring.

Lemma mem_In x l : mem x l = true <-> In x l.
Proof. unfold mem. rewrite existsb_exists. split; [intros (y & H & E); apply Nat.eqb_eq in E; now subst|intros H; exists x; split; [auto|apply Nat.eqb_refl]]. Qed.
Lemma mem_false x l : mem x l = false <-> ~ In x l.
Proof. rewrite <- mem_In. destruct (mem x l); split; congruence. Qed.
Lemma insert_In x y l : In y (insert x l) <-> y = x \/ In y l.
Proof.
  unfold insert. destruct (mem x l) eqn:E.
  - apply mem_In in E. split; [auto|intros [->|]; auto].
  - rewrite in_app_iff. simpl. split; [intros [|[<-|[]]]; auto|intros [->|]; auto].
Qed.
Lemma insert_NoDup x l : NoDup l -> NoDup (insert x l).
Proof. intros H. unfold insert. destruct (mem x l) eqn:E; auto. apply NoDup_app_one; auto. now apply mem_false. Qed.
Lemma erase_In x y l : In y (erase x l) <-> In y l /\ y <> x.
Proof. unfold erase. rewrite filter_In. destruct (Nat.eqb_spec y x); simpl; intuition congruence. Qed.
Lemma erase_NoDup x l : NoDup l -> NoDup (erase x l).
Proof. apply NoDup_filter. Qed.

Lemma upd_adj_eq v f adj : upd_adj v f adj v = f (adj v).
Proof. unfold upd_adj. now rewrite Nat.eqb_refl. Qed.
Lemma upd_adj_neq v f adj u : u <> v -> upd_adj v f adj u = adj u.
Proof. unfold upd_adj. intros H. now destruct (Nat.eqb_spec u v). Qed.

Lemma nth_upd {A} (d : A) i x l j : i < length l -> nth j (upd i x l) d = if j =? i then x else nth j l d.
Proof.
  intros H. destruct (Nat.eqb_spec j i) as [->|Hn].
  - apply nth_error_nth. now apply nth_error_upd_eq.
  - destruct (nth_error l j) as [a|] eqn:E.
    + rewrite (nth_error_nth _ _ _ E). apply nth_error_nth. now rewrite nth_error_upd_neq by auto.
    + pose proof E as E'. apply nth_error_None in E'. rewrite !nth_overflow; auto. rewrite upd_length. auto.
Qed.

Section Facts.
Context {F : Type}.
Variable o : flow_ops F.
Hypothesis laws : flow_laws o.
Notation "a +! b" := (f_add o a b) (at level 50, left associativity).
Notation "a *! b" := (f_mul o a b) (at level 40, left associativity).
Notation "a -! b" := (f_sub o a b) (at level 50, left associativity).
Notation zero := (f_0 o).
Notation fz := (f_z o).
Add Ring Fring : (fl_ring o laws).

Lemma fz0 : fz 0 = zero. Proof. apply (fl_z0 o laws). Qed.
Lemma fz_neg a : fz (- a) = f_neg o (fz a).
Proof.
  assert (H : fz (- a) +! fz a = zero) by (rewrite <- (fl_zadd o laws); replace (- a + a)%Z with 0%Z by lia; apply fz0).
  transitivity ((fz (- a) +! fz a) -! fz a); [ring|]. rewrite H. ring.
Qed.

(** ** sums *)
Fixpoint big (m : nat) (f : nat -> F) : F := match m with O => zero | S k => big k f +! f k end.
Lemma big_ext m f g : (forall i, i < m -> f i = g i) -> big m f = big m g.
Proof. induction m as [|m IH]; intros H; simpl; auto. rewrite IH, H by auto with arith. auto. Qed.
Lemma big_add m f g : big m (fun i => f i +! g i) = big m f +! big m g.
Proof. induction m as [|m IH]; simpl; [ring|]. rewrite IH. ring. Qed.
Lemma big_scale m k f : big m (fun i => k *! f i) = k *! big m f.
Proof. induction m as [|m IH]; simpl; [ring|]. rewrite IH. ring. Qed.
Lemma big_zero m f : (forall i, i < m -> f i = zero) -> big m f = zero.
Proof. induction m as [|m IH]; intros H; simpl; auto. rewrite IH, H by auto with arith. ring. Qed.
Lemma big_one m k f : k < m -> (forall i, i < m -> i <> k -> f i = zero) -> big m f = f k.
Proof.
  induction m as [|m IH]; intros Hk H; [lia|]. simpl. destruct (Nat.eq_dec k m) as [->|Hn].
  - rewrite big_zero; [ring|]. intros i Hi. apply H; lia.
  - rewrite IH; [|lia|intros i Hi Hne; apply H; lia]. rewrite (H m) by lia. ring.
Qed.
Lemma big_swap m k (f : nat -> nat -> F) : big m (fun i => big k (fun j => f i j)) = big k (fun j => big m (fun i => f i j)).
Proof. induction m as [|m IH]; simpl; [symmetry; apply big_zero; auto|]. now rewrite IH, <- big_add. Qed.

(** ** the matrix *)
Definition zv (v : option Z) : Z := match v with Some z => z | None => 0%Z end.
Lemma coo_put_at v r c m r' c' : coo_put v r c m r' c' = if (r' =? r) && (c' =? c) then v else m r' c'.
Proof. reflexivity. Qed.
Lemma add_to_value_zv v r c m r' c' : zv (add_to_value v r c m r' c') = (zv (m r' c') + (if ((r' =? r) && (c' =? c))%nat then v else 0))%Z.
Proof.
  unfold add_to_value. destruct (m r c) as [w|] eqn:E.
  - destruct (Z.eqb_spec (w + v) 0); rewrite coo_put_at; destruct ((r' =? r) && (c' =? c)) eqn:Eb; try (simpl; lia);
      apply andb_true_iff in Eb as [E1 E2]; apply Nat.eqb_eq in E1, E2; subst; rewrite E; simpl; lia.
  - destruct (Z.eqb_spec v 0) as [->|]; [destruct ((r' =? r) && (c' =? c)); lia|]. rewrite coo_put_at. destruct ((r' =? r) && (c' =? c)) eqn:Eb; try lia.
    apply andb_true_iff in Eb as [E1 E2]; apply Nat.eqb_eq in E1, E2; subst; rewrite E; simpl; lia.
Qed.
Lemma add_to_value_other v r c m r' c' : (r' <> r \/ c' <> c) -> add_to_value v r c m r' c' = m r' c'.
Proof.
  intros H. assert (Eb : (r' =? r) && (c' =? c) = false) by (destruct (Nat.eqb_spec r' r), (Nat.eqb_spec c' c); simpl; auto; lia).
  unfold add_to_value. destruct (m r c); [destruct (_ =? 0)%Z|destruct (v =? 0)%Z]; rewrite ?coo_put_at, ?Eb; auto.
Qed.

(** ** re-attaching the edges at the eliminated node *)
Definition moved (a b : nat) (e : edge) : edge := if fst e =? b then (a, snd e) else (fst e, a).
Lemma reattach_fields a b row (s : fw_state F) f : w_edges (reattach a b row s f) = upd f (moved a b (edge_at (w_edges s) f)) (w_edges s) /\
  w_adj (reattach a b row s f) = upd_adj a (insert f) (upd_adj b (erase f) (w_adj s)) /\
  w_contracted (reattach a b row s f) = (if fst (moved a b (edge_at (w_edges s) f)) =? snd (moved a b (edge_at (w_edges s) f)) then insert f (w_contracted s) else w_contracted s) /\
  w_loads (reattach a b row s f) = w_loads s /\ w_row (reattach a b row s f) = w_row s /\
  w_matrix (reattach a b row s f) = set_value (if fst (edge_at (w_edges s) f) =? b then (-1)%Z else 1%Z) row f (w_matrix s) /\
  w_rhs (reattach a b row s f) = w_rhs s /\ w_free (reattach a b row s f) = w_free s /\ w_pivots (reattach a b row s f) = w_pivots s /\
  w_hist (reattach a b row s f) = write_history f row (w_hist s).
Proof. unfold reattach, moved. destruct (fst (edge_at (w_edges s) f) =? b); cbn; intuition. Qed.

Record moved_all (a b row : nat) (l : list nat) (s s' : fw_state F) : Prop := {
  ma_len : length (w_edges s') = length (w_edges s) /\ length (w_hist s') = length (w_hist s);
  ma_edges : forall f, edge_at (w_edges s') f = if mem f l then moved a b (edge_at (w_edges s) f) else edge_at (w_edges s) f;
  ma_adj : forall v f, In f (w_adj s' v) <->
    (v <> a /\ v <> b /\ In f (w_adj s v)) \/ (v = a /\ (In f l \/ In f (w_adj s a))) \/ (v = b /\ In f (w_adj s b) /\ ~ In f l);
  ma_nodup : (forall v, NoDup (w_adj s v)) -> forall v, NoDup (w_adj s' v);
  ma_contracted : forall f, In f (w_contracted s') <->
    In f (w_contracted s) \/ In f l /\ fst (moved a b (edge_at (w_edges s) f)) = snd (moved a b (edge_at (w_edges s) f));
  ma_same : w_loads s' = w_loads s /\ w_row s' = w_row s /\ w_rhs s' = w_rhs s /\ w_free s' = w_free s /\ w_pivots s' = w_pivots s;
  ma_matrix : forall r c, w_matrix s' r c = if (r =? row) && mem c l then Some (if fst (edge_at (w_edges s) c) =? b then (-1)%Z else 1%Z) else w_matrix s r c;
  ma_hist : forall f, rows_at (w_hist s') f = if mem f l then rows_at (w_hist s) f ++ [row] else rows_at (w_hist s) f }.

Lemma reattach_all a b row l : a <> b -> NoDup l -> forall s : fw_state F, (forall f, In f l -> f < length (w_edges s)) -> length (w_hist s) = length (w_edges s) ->
  moved_all a b row l s (fold_left (reattach a b row) l s).
Proof.
  intros Hab. induction l as [|f l IH]; intros Hnd s Hlt Hh.
  { constructor; simpl; auto; intros; try tauto.
    - destruct (Nat.eq_dec v a) as [->|]; [intuition congruence|]. destruct (Nat.eq_dec v b) as [->|]; intuition congruence.
    - rewrite andb_false_r. auto. }
  cbn [fold_left]. inversion Hnd as [|? ? Hf Hnd']; subst.
  destruct (reattach_fields a b row s f) as (R1 & R2 & R3 & R4 & R5 & R6 & R7 & R8 & R9 & R10).
  set (s1 := reattach a b row s f) in *.
  assert (Hfl : f < length (w_edges s)) by (apply Hlt; left; auto).
  assert (Hl1 : length (w_edges s1) = length (w_edges s)) by (rewrite R1; apply upd_length).
  assert (Hh1 : length (w_hist s1) = length (w_hist s)) by (rewrite R10; apply upd_length).
  assert (He1 : forall g, edge_at (w_edges s1) g = if g =? f then moved a b (edge_at (w_edges s) f) else edge_at (w_edges s) g).
  { intros g. rewrite R1. unfold edge_at at 1. now rewrite nth_upd by auto. }
  assert (Hc1 : forall g, In g l -> edge_at (w_edges s1) g = edge_at (w_edges s) g).
  { intros g Hg. rewrite He1. destruct (Nat.eqb_spec g f) as [->|]; [contradiction|auto]. }
  destruct (IH Hnd' s1) as [M1 M2 M3 M4 M5 M6 M7 M8]; [intros g Hg; rewrite Hl1; apply Hlt; right; auto|lia|].
  assert (Hmem : forall g, mem g (f :: l) = (g =? f) || mem g l) by (intros; reflexivity).
  constructor.
  - lia.
  - intros g. rewrite M2, He1, Hmem. destruct (Nat.eqb_spec g f) as [->|]; auto. rewrite (proj2 (mem_false f l)) by auto. auto.
  - intros v g. rewrite M3, R2. destruct (Nat.eq_dec v a) as [->|Hva]; [|destruct (Nat.eq_dec v b) as [->|Hvb]].
    + rewrite upd_adj_eq, insert_In, !upd_adj_neq by auto. simpl. split; [|intuition].
      intros [(H & _)|[(_ & [H|[->|H]])|(H & _)]]; try tauto; right; left; auto.
    + rewrite (upd_adj_neq a) by auto. rewrite upd_adj_eq. rewrite erase_In. simpl. split.
      * intros [(_ & H & _)|[(H & _)|(_ & (H1 & H2) & H3)]]; try congruence. right. right. split; auto. split; auto. intros [<-|]; auto.
      * intros [(_ & H & _)|[(H & _)|(_ & H1 & H2)]]; try congruence. right. right. split; auto. split; [split; [auto|intros ->; auto]|auto].
    + rewrite (upd_adj_neq a) by auto. rewrite !upd_adj_neq by auto. tauto.
  - intros H v. apply M4. intros u. rewrite R2. destruct (Nat.eq_dec u a) as [->|].
    + rewrite upd_adj_eq. apply insert_NoDup. rewrite upd_adj_neq; auto.
    + rewrite upd_adj_neq by auto. destruct (Nat.eq_dec u b) as [->|]; [rewrite upd_adj_eq; now apply erase_NoDup|rewrite upd_adj_neq; auto].
  - intros g. rewrite M5, R3, He1.
    assert (Hx : In g (if fst (moved a b (edge_at (w_edges s) f)) =? snd (moved a b (edge_at (w_edges s) f)) then insert f (w_contracted s) else w_contracted s) <->
      In g (w_contracted s) \/ g = f /\ fst (moved a b (edge_at (w_edges s) f)) = snd (moved a b (edge_at (w_edges s) f))).
    { destruct (Nat.eqb_spec (fst (moved a b (edge_at (w_edges s) f))) (snd (moved a b (edge_at (w_edges s) f)))); [rewrite insert_In|]; tauto. }
    rewrite Hx. clear Hx. simpl. destruct (Nat.eqb_spec g f) as [->|Hn]; [|intuition; congruence]. intuition.
  - rewrite R4, R5, R7, R8, R9 in M6. exact M6.
  - intros r c. rewrite M7, R6, Hmem, He1. unfold set_value. rewrite coo_put_at. destruct (Nat.eqb_spec c f) as [->|].
    + rewrite (proj2 (mem_false f l)) by auto. destruct (r =? row); auto.
    + simpl. rewrite andb_false_r. auto.
  - intros g. rewrite M8, R10, Hmem. unfold write_history, rows_at. rewrite nth_upd by lia. destruct (Nat.eqb_spec g f) as [->|]; auto.
    rewrite (proj2 (mem_false f l)) by auto. auto.
Qed.
End Facts.
