(** Proofs about the structure of the admittance matrix. *)
From Verif Require Import Common NatMap GroupedIdx GroupedIdxFacts YBus YBusSpec.

(** ** counting sort *)
Lemma reorder_unique l n r : (forall x, In x l -> x < n) -> length r = length l -> (forall i, i < length l -> nth_error r (pos l i) = Some i) -> r = stable_order l n.
Proof.
  intros H Hlen Hr. assert (Hls : length (stable_order l n) = length l) by (rewrite stable_prefix_length; now apply offs_all).
  apply nth_error_ext. intros p. destruct (lt_dec p (length l)) as [Hp|Hp].
  - destruct (nth_error (stable_order l n) p) as [i|] eqn:Ei; [|apply nth_error_None in Ei; lia].
    assert (Hi : i < length l) by (eapply stable_in, nth_error_In; eauto).
    assert (p = pos l i).
    { assert (Hn := stable_nth l n i H Hi). eapply NoDup_nth_error; [apply (stable_NoDup l n)| |]; [lia|congruence]. }
    subst p. now apply Hr.
  - rewrite !(proj2 (nth_error_None _ _)); auto; lia.
Qed.
Lemma map_upd {A B} (f : A -> B) i x l : map f (upd i x l) = upd i (f x) (map f l).
Proof. revert i. induction l as [|y l IH]; intros [|i]; simpl; auto. now rewrite IH. Qed.

Section Pass.
Variable key : element_map -> nat.
Variable n : nat.
Variable vec : list element_map.
Hypothesis Hkey : forall e, In e vec -> key e < n.
Let l := map key vec.
Let at_ (i : nat) : element_map := nth i vec no_element.

Lemma firstn_snoc {A} k (v : list A) d : k < length v -> firstn (S k) v = firstn k v ++ [nth k v d].
Proof. revert k. induction v as [|a v IH]; intros [|k] Hk; simpl in *; try lia; auto. f_equal. apply IH; lia. Qed.

Lemma pass_sim k counter reorder : k <= length vec ->
  fold_left (place_element key) (rev (firstn k vec)) (counter, map at_ reorder) =
  let (c', r') := fold_left place (rev (combine (seq 0 k) (firstn k l))) (counter, reorder) in (c', map at_ r').
Proof.
  revert counter reorder. induction k as [|k IH]; intros counter reorder Hk; [reflexivity|].
  rewrite (firstn_snoc k vec no_element) by lia. rewrite (firstn_snoc k l 0) by (unfold l; rewrite map_length; lia).
  assert (Hlen : length (firstn k l) = k) by (apply firstn_length_le; unfold l; rewrite map_length; lia).
  replace (seq 0 (S k)) with (seq 0 (S (length (firstn k l)))) by now rewrite Hlen.
  rewrite combine_seq_snoc, !rev_app_distr, Hlen. cbn [rev app fold_left place Nat.add].
  unfold place_element at 2. cbn [fst snd]. rewrite <- IH by lia. rewrite map_upd.
  replace (nth k l 0) with (key (nth k vec no_element)); [reflexivity|].
  unfold l. rewrite (nth_indep _ 0 (key no_element)) by (rewrite map_length; lia). now rewrite map_nth.
Qed.

Lemma bucket_positions g : map at_ (positions_of l g) = filter (fun e => key e =? g) vec.
Proof.
  unfold positions_of, l, at_. rewrite map_length.
  assert (X : forall (v pre : list element_map),
    map (fun i => nth i (pre ++ v) no_element) (filter (fun i => nth i (map key (pre ++ v)) 0 =? g) (seq (length pre) (length v))) = filter (fun e => key e =? g) v).
  { induction v as [|e v IH]; intros pre; [reflexivity|]. cbn [length seq filter].
    assert (Ek : nth (length pre) (map key (pre ++ e :: v)) 0 = key e).
    { rewrite map_app, app_nth2; rewrite map_length; auto. now rewrite Nat.sub_diag. }
    rewrite Ek. specialize (IH (pre ++ [e])). rewrite app_length, Nat.add_1_r in IH. rewrite <- app_assoc in IH. cbn [app] in IH.
    destruct (key e =? g); [|exact IH]. cbn [map]. rewrite IH. f_equal. rewrite app_nth2 by auto. now rewrite Nat.sub_diag. }
  exact (X vec []).
Qed.

Lemma counting_pass_spec : counting_pass key n vec = flat_map (fun g => filter (fun e => key e =? g) vec) (seq 0 n).
Proof.
  unfold counting_pass. fold l.
  assert (H : forall x, In x l -> x < n) by (intros x Hx; apply in_map_iff in Hx as (e & <- & He); auto).
  assert (Hll : length l = length vec) by (unfold l; apply map_length).
  set (r0 := repeat (length vec) (length vec)).
  assert (E0 : repeat no_element (length vec) = map at_ r0).
  { unfold r0. replace no_element with (at_ (length vec)) by (unfold at_; now apply nth_overflow).
    clear. generalize (length vec) at 2 4. intros k. induction k; simpl; auto. now rewrite IHk. }
  rewrite E0. pose proof (pass_sim (length vec) (scan_from 0 (count_entries l n)) r0 (le_n _)) as S. rewrite firstn_all in S. rewrite S. clear S.
  destruct (place_loop l n H (length l) (cum_of l n) r0) as (c' & r' & E & Hlen & Hr); auto.
  - now apply cum_length.
  - unfold r0. rewrite repeat_length. lia.
  - intros v Hv. rewrite cum_nth by auto. rewrite firstn_all. apply offs_S.
  - intros i Hi. lia.
  - rewrite firstn_all in E. unfold cum_of in E. rewrite Hll in E. replace (firstn (length vec) l) with l by (rewrite <- Hll; symmetry; apply firstn_all).
    rewrite E. cbn [snd]. rewrite (reorder_unique l n r' H Hlen Hr). unfold stable_order.
    rewrite flat_map_concat_map, concat_map, map_map, <- flat_map_concat_map. apply flat_map_ext. apply bucket_positions.
Qed.
End Pass.

Definition bucket (vec : list element_map) (c : nat * nat) : list element_map := filter (fun e => pos_eqb (el_pos e) c) vec.
Definition grid (n : nat) : list (nat * nat) := list_prod (seq 0 n) (seq 0 n).
Definition nonempty {A} (l : list A) : bool := match l with [] => false | _ => true end.
Definition cells (vec : list element_map) (n : nat) : list (nat * nat) := filter (fun c => nonempty (bucket vec c)) (grid n).

Lemma filter_flat_map {A B} (f : B -> bool) (g : A -> list B) l : filter f (flat_map g l) = flat_map (fun x => filter f (g x)) l.
Proof. induction l as [|x l IH]; simpl; auto. now rewrite filter_app, IH. Qed.
Lemma flat_map_flat_map {A B C} (f : B -> list C) (g : A -> list B) l : flat_map f (flat_map g l) = flat_map (fun x => flat_map f (g x)) l.
Proof. induction l as [|x l IH]; simpl; auto. now rewrite flat_map_app, IH. Qed.
Lemma filter_filter {A} (f g : A -> bool) l : filter f (filter g l) = filter (fun x => f x && g x) l.
Proof. induction l as [|x l IH]; simpl; auto. destruct (g x) eqn:Eg; simpl; [|rewrite andb_false_r; auto]. rewrite andb_true_r. destruct (f x); simpl; now rewrite IH. Qed.
Lemma flat_map_map {A B C} (f : B -> list C) (g : A -> B) l : flat_map f (map g l) = flat_map (fun x => f (g x)) l.
Proof. induction l as [|x l IH]; simpl; auto. now rewrite IH. Qed.
Lemma flat_map_filter_nonempty {A B} (f : A -> list B) l : flat_map f (filter (fun x => nonempty (f x)) l) = flat_map f l.
Proof. induction l as [|x l IH]; simpl; auto. destruct (f x) eqn:E; simpl; auto. now rewrite E, IH. Qed.
Lemma list_prod_flat {A B} (l : list A) (l' : list B) : list_prod l l' = flat_map (fun x => map (pair x) l') l.
Proof. induction l; simpl; auto. now rewrite IHl. Qed.

Lemma counting_sort_spec vec n : (forall e, In e vec -> fst (el_pos e) < n /\ snd (el_pos e) < n) ->
  counting_sort_element vec n = flat_map (bucket vec) (cells vec n).
Proof.
  intros H. unfold counting_sort_element. rewrite (counting_pass_spec (fun e => snd (el_pos e)) n vec) by (intros e He; now apply H).
  rewrite counting_pass_spec.
  - unfold cells. rewrite flat_map_filter_nonempty. unfold grid. rewrite list_prod_flat, flat_map_flat_map. apply flat_map_ext. intros r.
    rewrite filter_flat_map, flat_map_map. apply flat_map_ext. intros c. rewrite filter_filter. unfold bucket. apply filter_ext. intros e. reflexivity.
  - intros e He. apply in_flat_map in He as (g & _ & He). apply filter_In in He as [He _]. now apply H.
Qed.

(** order of cells *)
Definition cell_lt (a b : nat * nat) : Prop := fst a < fst b \/ (fst a = fst b /\ snd a < snd b).
Lemma cell_lt_trans a b c : cell_lt a b -> cell_lt b c -> cell_lt a c.
Proof. unfold cell_lt. lia. Qed.
Lemma cell_lt_irr a : ~ cell_lt a a.
Proof. unfold cell_lt. lia. Qed.
Lemma cell_lt_total a b : cell_lt a b \/ a = b \/ cell_lt b a.
Proof. destruct a as [a a'], b as [b b']. unfold cell_lt. simpl. destruct (Nat.lt_total a b) as [|[->|]]; auto. destruct (Nat.lt_total a' b') as [|[->|]]; auto. Qed.

Lemma grid_sorted n : StronglySorted cell_lt (grid n).
Proof.
  unfold grid. rewrite list_prod_flat.
  assert (X : forall m s, StronglySorted cell_lt (flat_map (fun x => map (pair x) (seq 0 n)) (seq s m))).
  { induction m as [|m IH]; intros s; simpl; [constructor|]. apply StronglySorted_app; auto.
    - generalize 0 at 1. generalize n at 1. induction n0 as [|k IHk]; intros a; simpl; constructor; auto.
      apply Forall_forall. intros [x y] Hx. apply in_map_iff in Hx as (z & [= <- <-] & Hz). apply in_seq in Hz. unfold cell_lt. simpl. lia.
    - intros x y Hx Hy. apply in_map_iff in Hx as (z & <- & _). apply in_flat_map in Hy as (w & Hw & Hy). apply in_map_iff in Hy as (v & <- & _).
      apply in_seq in Hw. left. simpl. lia. }
  apply X.
Qed.
Lemma StronglySorted_filter {A} (R : A -> A -> Prop) f l : StronglySorted R l -> StronglySorted R (filter f l).
Proof.
  induction 1 as [|x l HS IH HF]; simpl; [constructor|]. destruct (f x); auto. constructor; auto.
  apply Forall_forall. intros y Hy. apply filter_In in Hy as [Hy _]. rewrite Forall_forall in HF. auto.
Qed.
Lemma cells_sorted vec n : StronglySorted cell_lt (cells vec n).
Proof. apply StronglySorted_filter, grid_sorted. Qed.
Lemma grid_In n c : In c (grid n) <-> fst c < n /\ snd c < n.
Proof. destruct c as [a b]. unfold grid. rewrite in_prod_iff, !in_seq. simpl. lia. Qed.
Lemma cells_In vec n c : In c (cells vec n) <-> (fst c < n /\ snd c < n) /\ bucket vec c <> [].
Proof.
  unfold cells. rewrite filter_In, grid_In. destruct (bucket vec c); simpl; split; intros [? ?]; split; auto; congruence.
Qed.
Lemma pos_eqb_eq a b : pos_eqb a b = true <-> a = b.
Proof. destruct a, b. unfold pos_eqb. simpl. rewrite andb_true_iff, !Nat.eqb_eq. split; [intros [-> ->]; auto|intros [= -> ->]; auto]. Qed.
Lemma bucket_In vec c e : In e (bucket vec c) <-> In e vec /\ el_pos e = c.
Proof. unfold bucket. rewrite filter_In, pos_eqb_eq. tauto. Qed.
