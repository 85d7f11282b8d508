(** Proofs about grouped index vectors and index mappings. *)
From Coq Require Import Sorting.Sorted Sorting.Permutation.
From Verif Require Import Common GroupedIdx.

Notation sorted := (StronglySorted le).

Lemma sorted_nth d : sorted d -> forall i j x y, i <= j -> nth_error d i = Some x -> nth_error d j = Some y -> x <= y.
Proof.
  induction 1 as [|a d Hd IH Ha]; intros [|i] [|j] x y Hij Hx Hy; simpl in *; try discriminate; try lia.
  - injection Hx as ->. injection Hy as ->. lia.
  - injection Hx as ->. rewrite Forall_forall in Ha. apply Ha. eapply nth_error_In; eauto.
  - eapply IH; [|eauto|eauto]; lia.
Qed.

Lemma ub_iff d g : sorted d -> forall e x, nth_error d e = Some x -> (e < upper_bound d g <-> x <= g).
Proof.
  induction 1 as [|a d Hd IH Ha]; intros e x Hx; [destruct e; discriminate|]. simpl.
  rewrite Forall_forall in Ha.
  destruct (Nat.ltb_spec g a) as [Hg|Hg].
  - destruct e; simpl in Hx; [injection Hx as ->; lia|]. apply nth_error_In, Ha in Hx. lia.
  - destruct e; simpl in Hx; [injection Hx as ->; lia|]. rewrite <- (IH e x Hx). lia.
Qed.

Lemma lb_iff d g : sorted d -> forall e x, nth_error d e = Some x -> (e < lower_bound d g <-> x < g).
Proof.
  induction 1 as [|a d Hd IH Ha]; intros e x Hx; [destruct e; discriminate|]. simpl.
  rewrite Forall_forall in Ha.
  destruct (Nat.ltb_spec a g) as [Hg|Hg].
  - destruct e; simpl in Hx; [injection Hx as ->; lia|]. rewrite <- (IH e x Hx). lia.
  - destruct e; simpl in Hx; [injection Hx as ->; lia|]. apply nth_error_In, Ha in Hx. lia.
Qed.

Lemma ub_skip d g k : k <= upper_bound d g -> k + upper_bound (skipn k d) g = upper_bound d g.
Proof.
  revert k; induction d as [|a d IH]; intros [|k] H; simpl in *; auto; try lia.
  destruct (g <? a); [lia|]. rewrite <- (IH k) by lia. lia.
Qed.

Lemma ub_mono d g g' : g <= g' -> upper_bound d g <= upper_bound d g'.
Proof.
  intros H. induction d as [|a d IH]; simpl; auto.
  destruct (Nat.ltb_spec g a), (Nat.ltb_spec g' a); lia.
Qed.

Lemma ub_all d g : (forall x, In x d -> x <= g) -> upper_bound d g = length d.
Proof.
  induction d as [|a d IH]; intros H; simpl; auto.
  assert (a <= g) by (apply H; simpl; auto). destruct (Nat.ltb_spec g a); [lia|].
  rewrite IH; auto. intros x Hx; apply H; simpl; auto.
Qed.

Lemma se_loop_spec d next g0 n :
  next <= upper_bound d g0 -> sparse_encode_loop d next (seq g0 n) = map (upper_bound d) (seq g0 n).
Proof.
  revert next g0; induction n as [|n IH]; intros next g0 H; simpl; auto.
  rewrite ub_skip by auto. f_equal. apply IH. apply ub_mono; lia.
Qed.

Lemma sparse_encode_spec d n : sparse_encode d n = 0 :: map (upper_bound d) (seq 0 n).
Proof. unfold sparse_encode. now rewrite se_loop_spec by lia. Qed.

Lemma fill_length l lo hi x : length (fill l lo hi x) = length l.
Proof. revert lo hi; induction l as [|y l IH]; intros [|lo] [|hi]; simpl; auto. Qed.

Lemma fill_nth l lo hi x e :
  nth_error (fill l lo hi x) e = if (lo <=? e) && (e <? hi) && (e <? length l) then Some x else nth_error l e.
Proof.
  revert lo hi e; induction l as [|y l IH]; intros [|lo] [|hi] [|e]; try reflexivity;
    cbn [fill nth_error length]; rewrite ?andb_false_r; auto.
  - rewrite IH. reflexivity.
  - rewrite IH. reflexivity.
Qed.

Lemma decode_loop_nth p : sorted p -> forall res g0 e, e < length res ->
  (forall k lo hi, nth_error p k = Some lo -> nth_error p (S k) = Some hi -> lo <= e < hi ->
     nth_error (sparse_decode_loop res p g0) e = Some (g0 + k)) /\
  ((forall k lo hi, nth_error p k = Some lo -> nth_error p (S k) = Some hi -> ~ lo <= e < hi) ->
     nth_error (sparse_decode_loop res p g0) e = nth_error res e).
Proof.
  induction 1 as [|a p Hp IH Ha]; intros res g0 e He.
  - split; [intros [|k] lo hi H; discriminate|auto].
  - destruct p as [|b p]; [split; [intros [|k] lo hi H1 H2; simpl in H2; [discriminate|destruct k; discriminate]|auto]|].
    replace (sparse_decode_loop res (a :: b :: p) g0) with (sparse_decode_loop (fill res a b g0) (b :: p) (S g0)) by reflexivity.
    assert (Hab : a <= b) by (rewrite Forall_forall in Ha; apply Ha; simpl; auto).
    specialize (IH (fill res a b g0) (S g0) e). rewrite fill_length in IH. specialize (IH He) as [IH1 IH2].
    split.
    + intros [|k] lo hi H1 H2 Hin.
      * simpl in H1, H2. injection H1 as <-. injection H2 as <-. rewrite IH2.
        -- rewrite fill_nth. replace ((a <=? e) && (e <? b) && (e <? length res)) with true by lia.
           f_equal; lia.
        -- intros k lo hi H1 H2 Hx. assert (b <= lo); [|lia].
           eapply (sorted_nth _ Hp 0 k); [lia|reflexivity|eauto].
      * rewrite (IH1 k lo hi) by auto. f_equal; lia.
    + intros Hno. rewrite IH2.
      * rewrite fill_nth. destruct ((a <=? e) && (e <? b) && (e <? length res)) eqn:E; auto.
        exfalso. apply (Hno 0 a b); auto. lia.
      * intros k lo hi H1 H2. apply (Hno (S k)); auto.
Qed.

Lemma decode_loop_length res p g : length (sparse_decode_loop res p g) = length res.
Proof.
  revert res g; induction p as [|a [|b p] IH]; intros res g; auto.
  replace (sparse_decode_loop res (a :: b :: p) g) with (sparse_decode_loop (fill res a b g) (b :: p) (S g)) by reflexivity.
  rewrite IH. apply fill_length.
Qed.

Lemma sparse_decode_length p : length (sparse_decode p) = last p 0.
Proof. unfold sparse_decode. now rewrite decode_loop_length, repeat_length. Qed.

(** Every position below the last offset lies in exactly one segment. *)
Lemma segment_exists p e : sorted p -> nth_error p 0 = Some 0 -> e < last p 0 ->
  exists k lo hi, nth_error p k = Some lo /\ nth_error p (S k) = Some hi /\ lo <= e < hi.
Proof.
  intros Hs H0. assert (Hlo : exists a, nth_error p 0 = Some a /\ a <= e) by (exists 0; split; auto; lia).
  clear H0. induction Hs as [|a p Hp IH Ha]; intros Hlast; [simpl in Hlast; lia|].
  destruct p as [|b p].
  - destruct Hlo as (x & Hx & Hle). simpl in *. injection Hx as ->. lia.
  - destruct (le_lt_dec b e) as [Hbe|Hbe].
    + destruct IH as (k & lo & hi & H1 & H2 & H3); eauto; [exists b; auto|].
      exists (S k), lo, hi. auto.
    + destruct Hlo as (x & Hx & Hle). simpl in Hx. injection Hx as ->.
      exists 0, x, b. auto.
Qed.

Lemma sparse_decode_nth p e k lo hi : sorted p -> nth_error p k = Some lo -> nth_error p (S k) = Some hi ->
  lo <= e < hi -> nth_error (sparse_decode p) e = Some k.
Proof.
  intros Hs H1 H2 H3. unfold sparse_decode.
  assert (Hl : hi <= last p 0).
  { clear - Hs H2. revert k H2. induction Hs as [|a p Hp IH Ha]; intros k H2; [destruct k; discriminate|].
    destruct p as [|b p]; [destruct k; discriminate|]. destruct k.
    - simpl in H2. injection H2 as <-. destruct p; simpl; [lia|].
      rewrite Forall_forall in Ha. inversion Hp as [|? ? ? Hb]. subst.
      change (b <= last (n :: p) 0). rewrite Forall_forall in Hb. apply Hb.
      destruct (exists_last (l := n :: p)) as (l' & z & E); [discriminate|].
      rewrite E, last_last. apply in_or_app; simpl; auto.
    - apply (IH k). exact H2. }
  destruct (decode_loop_nth p Hs (repeat 0 (last p 0)) 0 e) as [H _]; [rewrite repeat_length; lia|].
  rewrite (H k lo hi) by auto. reflexivity.
Qed.

Lemma map_ub_nth d n g : nth_error (0 :: map (upper_bound d) (seq 0 n)) (S g) = if g <? n then Some (upper_bound d g) else None.
Proof.
  simpl. rewrite nth_error_map. destruct (Nat.ltb_spec g n).
  - rewrite (nth_error_nth' _ 0) by (rewrite seq_length; auto). now rewrite seq_nth.
  - rewrite (proj2 (nth_error_None _ _)); auto. rewrite seq_length; auto.
Qed.

Lemma encode_nth d n g :
  nth_error (sparse_encode d n) g =
  match g with 0 => Some 0 | S g' => if g' <? n then Some (upper_bound d g') else None end.
Proof. rewrite sparse_encode_spec. destruct g; [reflexivity|apply map_ub_nth]. Qed.

Lemma sorted_map_seq (f : nat -> nat) a n : (forall i j, i <= j -> f i <= f j) -> sorted (map f (seq a n)).
Proof.
  intros H. revert a; induction n as [|n IH]; intros a; simpl; constructor; auto.
  rewrite Forall_forall. intros x Hx. apply in_map_iff in Hx as (y & <- & Hy). apply in_seq in Hy. apply H; lia.
Qed.

Lemma encode_sorted d n : sorted (sparse_encode d n).
Proof.
  rewrite sparse_encode_spec. constructor.
  - apply sorted_map_seq. intros; now apply ub_mono.
  - rewrite Forall_forall. intros; lia.
Qed.

Lemma encode_last d n : (forall x, In x d -> x < n) -> last (sparse_encode d n) 0 = length d.
Proof.
  intros H. rewrite sparse_encode_spec. destruct n as [|n].
  - destruct d as [|a d]; auto. exfalso. specialize (H a). simpl in H. lia.
  - rewrite seq_S, map_app. cbn [map]. rewrite app_comm_cons, last_last. simpl. apply ub_all. intros x Hx. apply H in Hx. lia.
Qed.

Lemma lb_ub d g : lower_bound d (S g) = upper_bound d g.
Proof.
  induction d as [|a d IH]; simpl; auto.
  destruct (Nat.ltb_spec a (S g)), (Nat.ltb_spec g a); try lia.
Qed.
Lemma lb_0 d : lower_bound d 0 = 0.
Proof. destruct d; auto. Qed.

Lemma decode_encode d n : sorted d -> (forall x, In x d -> x < n) -> sparse_decode (sparse_encode d n) = d.
Proof.
  intros Hs Hn. apply nth_error_ext. intros e.
  destruct (nth_error d e) as [g|] eqn:Eg.
  - assert (Hg : g < n) by (apply Hn; eapply nth_error_In; eauto).
    eapply sparse_decode_nth; [apply encode_sorted| | |].
    + rewrite encode_nth. instantiate (1 := lower_bound d g). destruct g as [|g].
      * now rewrite lb_0.
      * replace (g <? n) with true by lia. now rewrite lb_ub.
    + rewrite encode_nth. replace (g <? n) with true by lia. reflexivity.
    + assert (H1 := ub_iff d g Hs e g Eg). assert (H2 := lb_iff d g Hs e g Eg). lia.
  - apply nth_error_None. rewrite sparse_decode_length, encode_last by auto. now apply nth_error_None.
Qed.

Lemma sorted_of_nth d : (forall i j x y, i <= j -> nth_error d i = Some x -> nth_error d j = Some y -> x <= y) -> sorted d.
Proof.
  induction d as [|a d IH]; intros H; constructor.
  - apply IH. intros i j x y Hij Hx Hy. apply (H (S i) (S j)); auto. lia.
  - rewrite Forall_forall. intros x Hx. apply In_nth_error in Hx as [n Hn]. apply (H 0 (S n)); auto. lia.
Qed.

Lemma decode_ranges p e g : sorted p -> nth_error p 0 = Some 0 ->
  nth_error (sparse_decode p) e = Some g <->
  exists lo hi, nth_error p g = Some lo /\ nth_error p (S g) = Some hi /\ lo <= e < hi.
Proof.
  intros Hs H0. split.
  - intros H. assert (He : e < last p 0) by (rewrite <- sparse_decode_length; apply nth_error_Some; congruence).
    destruct (segment_exists p e Hs H0 He) as (k & lo & hi & H1 & H2 & H3).
    assert (E := sparse_decode_nth p e k lo hi Hs H1 H2 H3). rewrite H in E. injection E as ->. eauto.
  - intros (lo & hi & H1 & H2 & H3). eapply sparse_decode_nth; eauto.
Qed.

Lemma decode_sorted p : sorted p -> nth_error p 0 = Some 0 -> sorted (sparse_decode p).
Proof.
  intros Hs H0. apply sorted_of_nth. intros i j x y Hij Hx Hy.
  apply decode_ranges in Hx as (lo & hi & A1 & A2 & A3); auto.
  apply decode_ranges in Hy as (lo' & hi' & B1 & B2 & B3); auto.
  destruct (le_lt_dec x y) as [|Hlt]; auto. exfalso.
  assert (hi' <= lo) by (eapply (sorted_nth _ Hs (S y) x); eauto). lia.
Qed.

Lemma decode_bound p x : sorted p -> nth_error p 0 = Some 0 -> In x (sparse_decode p) -> x < length p - 1.
Proof.
  intros Hs H0 Hin. apply In_nth_error in Hin as [e He].
  apply decode_ranges in He as (lo & hi & A1 & A2 & A3); auto.
  assert (S x < length p) by (apply nth_error_Some; congruence). lia.
Qed.

Lemma encode_decode p : sorted p -> nth_error p 0 = Some 0 -> sparse_encode (sparse_decode p) (length p - 1) = p.
Proof.
  intros Hs H0. apply nth_error_ext. intros g. rewrite encode_nth. destruct g as [|g]; [auto|].
  destruct (Nat.ltb_spec g (length p - 1)) as [Hg|Hg].
  - destruct (nth_error p (S g)) as [hi|] eqn:Eh; [|apply nth_error_None in Eh; lia]. f_equal.
    assert (Hds := decode_sorted p Hs H0).
    assert (Hlast : hi <= last p 0).
    { destruct (exists_last (l := p)) as (l' & z & E); [destruct p; discriminate|].
      rewrite E, last_last. rewrite E in Eh, Hs.
      eapply (sorted_nth _ Hs (S g) (length l')); eauto.
      - assert (S g < length (l' ++ [z])) by (apply nth_error_Some; congruence). rewrite app_length in H; simpl in H; lia.
      - rewrite nth_error_app2, Nat.sub_diag by lia. reflexivity. }
    (* e < ub <-> value <= g <-> e < hi *)
    assert (Hiff : forall e, e < last p 0 -> (e < upper_bound (sparse_decode p) g <-> e < hi)).
    { intros e He. destruct (nth_error (sparse_decode p) e) as [x|] eqn:Ex;
        [|apply nth_error_None in Ex; rewrite sparse_decode_length in Ex; lia].
      rewrite (ub_iff _ g Hds e x Ex).
      apply decode_ranges in Ex as (lo & hi' & A1 & A2 & A3); auto. split; intros H.
      - assert (hi' <= hi) by (eapply (sorted_nth _ Hs (S x) (S g)); eauto; lia). lia.
      - destruct (le_lt_dec x g) as [|Hlt]; auto. exfalso.
        assert (hi <= lo) by (eapply (sorted_nth _ Hs (S g) x); eauto). lia. }
    assert (Hub := upper_bound_le (sparse_decode p) g). rewrite sparse_decode_length in Hub.
    destruct (lt_eq_lt_dec (upper_bound (sparse_decode p) g) hi) as [[H|H]|H]; auto; exfalso.
    + specialize (Hiff (upper_bound (sparse_decode p) g)). lia.
    + specialize (Hiff hi). lia.
  - symmetry. apply nth_error_None. lia.
Qed.

Lemma equal_range_full v g : equal_range_in v 0 (length v) g = (lower_bound v g, upper_bound v g).
Proof. unfold equal_range_in. simpl. rewrite Nat.sub_0_r, firstn_all. reflexivity. Qed.

Lemma dense_range_spec d g e : sorted (d_vec d) ->
  fst (dense_range d g) <= e < snd (dense_range d g) <-> nth_error (d_vec d) e = Some g.
Proof.
  intros Hs. unfold dense_range. rewrite equal_range_full. simpl.
  destruct (nth_error (d_vec d) e) as [x|] eqn:Ex.
  - assert (H1 := ub_iff _ g Hs e x Ex). assert (H2 := lb_iff _ g Hs e x Ex).
    assert (Some x = Some g <-> x = g) by (split; congruence). rewrite H. lia.
  - split; [|discriminate]. intros H. apply nth_error_None in Ex.
    assert (Hub := upper_bound_le (d_vec d) g). lia.
Qed.

Lemma sparse_range_dense d n g : sorted d -> g < n ->
  sparse_range (sparse_from_dense d n) g = Some (dense_range (mkDense n d) g).
Proof.
  intros Hs Hg. unfold dense_range. cbn [d_vec]. rewrite equal_range_full.
  unfold sparse_range. replace (sparse_from_dense d n) with (sparse_encode d n) by reflexivity. rewrite !encode_nth. replace (g <? n) with true by lia. destruct g as [|g].
  - now rewrite lb_0.
  - replace (g <? n) with true by lia. now rewrite lb_ub.
Qed.

Lemma ub_app_le l1 l2 x : (forall y, In y l1 -> y <= x) -> upper_bound (l1 ++ l2) x = length l1 + upper_bound l2 x.
Proof.
  induction l1 as [|a l1 IH]; intros H; simpl; auto.
  assert (a <= x) by (apply H; simpl; auto). destruct (Nat.ltb_spec x a); [lia|].
  rewrite IH; auto. intros y Hy; apply H; simpl; auto.
Qed.

Lemma sparse_group_spec d n e g : sorted d -> (forall x, In x d -> x < n) -> nth_error d e = Some g ->
  sparse_group (sparse_from_dense d n) e = g.
Proof.
  intros Hs Hn He. unfold sparse_group. replace (sparse_from_dense d n) with (sparse_encode d n) by reflexivity.
  assert (Hg : g < n) by (apply Hn; eapply nth_error_In; eauto).
  assert (Hes := encode_sorted d n).
  (* upper_bound = S g: position g has lower_bound d g <= e, position S g has upper_bound d g > e *)
  assert (H1 := ub_iff _ e Hes g). assert (H2 := ub_iff _ e Hes (S g)).
  rewrite encode_nth in H1, H2. replace (g <? n) with true in H2 by lia.
  specialize (H2 _ eq_refl). assert (Hu := ub_iff d g Hs e g He). assert (Hl := lb_iff d g Hs e g He).
  assert (H1' : g < upper_bound (sparse_encode d n) e).
  { destruct g as [|g]; [apply (H1 _ eq_refl); lia|].
    replace (g <? n) with true in H1 by lia. apply (H1 _ eq_refl). rewrite lb_ub in Hl. lia. }
  lia.
Qed.

(** ** The dense iterator *)
Definition it_valid (d : dense) (i : giter) : Prop := (it_lo i, it_hi i) = dense_range d (it_group i).

Lemma find_gt_ub l g : find_gt l g = upper_bound l g.
Proof. induction l as [|x l IH]; simpl; [auto|]. destruct (g <? x); congruence. Qed.

Lemma it_begin_valid d : it_valid d (dense_begin d).
Proof. unfold it_valid, dense_begin. cbn [it_lo it_hi it_group]. symmetry. apply surjective_pairing. Qed.

Lemma lb_skip l g k : k <= lower_bound l g -> k + lower_bound (skipn k l) g = lower_bound l g.
Proof.
  revert k; induction l as [|a l IH]; intros [|k] H; simpl in *; auto; try lia.
  destruct (a <? g); [|lia]. rewrite <- (IH k) by lia. lia.
Qed.

Lemma lb_le_ub l g : lower_bound l g <= upper_bound l g.
Proof.
  induction l as [|a l IH]; simpl; auto. destruct (Nat.ltb_spec a g), (Nat.ltb_spec g a); lia.
Qed.

Lemma it_increment_valid d i : it_valid d i -> it_valid d (it_increment d i).
Proof.
  unfold it_valid, dense_range. rewrite !equal_range_full. intros [= H1 H2].
  unfold it_increment. simpl. rewrite find_gt_ub, H2. rewrite lb_ub, ub_skip; auto. apply ub_mono; lia.
Qed.

Lemma it_advance_valid d i n : 0 < n -> it_valid d i -> it_valid d (it_advance d i n).
Proof.
  intros Hn. unfold it_valid, dense_range. rewrite !equal_range_full. intros [= H1 H2].
  unfold it_advance, equal_range_in. cbn [it_lo it_hi it_group fst snd]. rewrite H2.
  assert (Hle : length (skipn (upper_bound (d_vec d) (it_group i)) (d_vec d)) <= length (d_vec d) - upper_bound (d_vec d) (it_group i)).
  { rewrite skipn_length; lia. }
  rewrite firstn_all2 by exact Hle.
  rewrite ub_skip by (apply ub_mono; lia).
  rewrite lb_skip; auto.
  destruct n as [|n]; [lia|]. replace (it_group i + S n) with (S (it_group i + n)) by lia.
  rewrite lb_ub. apply ub_mono; lia.
Qed.

Lemma ub_firstn l g k : upper_bound l g <= k -> upper_bound (firstn k l) g = upper_bound l g.
Proof.
  revert k; induction l as [|a l IH]; intros [|k] H; simpl in *; auto.
  - destruct (g <? a); auto; lia.
  - destruct (g <? a); auto. rewrite IH; lia.
Qed.
Lemma lb_firstn l g k : lower_bound l g <= k -> lower_bound (firstn k l) g = lower_bound l g.
Proof.
  revert k; induction l as [|a l IH]; intros [|k] H; simpl in *; auto.
  - destruct (a <? g); auto; lia.
  - destruct (a <? g); auto. rewrite IH; lia.
Qed.
Lemma lb_mono l g g' : g <= g' -> lower_bound l g <= lower_bound l g'.
Proof.
  intros H. induction l as [|a l IH]; simpl; auto.
  destruct (Nat.ltb_spec a g), (Nat.ltb_spec a g'); lia.
Qed.

Lemma it_retreat_valid d i n : 0 < n <= it_group i -> it_valid d i -> it_valid d (it_retreat d i n).
Proof.
  intros Hn. unfold it_valid, dense_range. rewrite !equal_range_full. intros [= H1 H2].
  unfold it_retreat, equal_range_in. cbn [it_lo it_hi it_group fst snd skipn]. rewrite H1, Nat.sub_0_r.
  assert (Hub : upper_bound (d_vec d) (it_group i - n) <= lower_bound (d_vec d) (it_group i)).
  { destruct (it_group i) as [|g]; [lia|]. rewrite lb_ub. apply ub_mono. lia. }
  assert (Hl := lb_le_ub (d_vec d) (it_group i - n)).
  rewrite ub_firstn, lb_firstn by lia. reflexivity.
Qed.

Definition find_lt (g : nat) := fix find_lt (l : list nat) := match l with [] => 0 | x :: l' => if x <? g then 0 else S (find_lt l') end.

Lemma find_lt_rev g l : sorted l -> length l - find_lt g (rev l) = lower_bound l g.
Proof.
  intros Hs.
  assert (H : forall l, sorted l -> length l = find_lt g (rev l) + lower_bound l g).
  { clear. induction l as [|a l IH] using rev_ind; intros Hs; auto.
    rewrite rev_app_distr. cbn [rev app find_lt]. rewrite app_length. simpl length.
    assert (Hsl : sorted l).
    { apply sorted_of_nth. intros i j x y Hij Hx Hy. eapply (sorted_nth _ Hs i j); eauto;
      rewrite nth_error_app1; auto; apply nth_error_Some; congruence. }
    destruct (Nat.ltb_spec a g) as [Hlt|Hge].
    - (* a < g so all < g *)
      assert (lower_bound (l ++ [a]) g = length l + 1); [|lia].
      assert (HA : forall x, In x l -> x < g).
      { intros x Hx. apply In_nth_error in Hx as [k Hk]. assert (k < length l) by (apply nth_error_Some; congruence).
        enough (x <= a) by lia.
        eapply (sorted_nth _ Hs k (length l)).
        - lia.
        - rewrite nth_error_app1; auto.
        - rewrite nth_error_app2, Nat.sub_diag by lia. reflexivity. }
      clear - HA Hlt. induction l as [|b l IH]; simpl.
      + destruct (Nat.ltb_spec a g); lia.
      + destruct (Nat.ltb_spec b g); [rewrite IH; auto; intros; apply HA; simpl; auto|].
        specialize (HA b). simpl in HA. lia.
    - rewrite IH by auto.
      assert (lower_bound (l ++ [a]) g = lower_bound l g); [|simpl; lia].
      clear - Hge. induction l as [|b l IH]; simpl.
      + destruct (Nat.ltb_spec a g); lia.
      + destruct (b <? g); auto. }
  rewrite (H l Hs) at 1. lia.
Qed.

Lemma sorted_firstn k l : sorted l -> sorted (firstn k l).
Proof.
  intros Hs. apply sorted_of_nth. intros i j x y Hij Hx Hy. rewrite nth_error_firstn in Hx, Hy.
  destruct (i <? k), (j <? k); try discriminate. eapply (sorted_nth _ Hs); eauto.
Qed.

Lemma it_decrement_valid d i : sorted (d_vec d) -> 0 < it_group i -> it_valid d i -> it_valid d (it_decrement d i).
Proof.
  intros Hs Hg. unfold it_valid, dense_range. rewrite !equal_range_full. intros [= H1 H2].
  unfold it_decrement. cbn [it_lo it_hi it_group].
  change (fix find_lt (l : list nat) : nat := _) with (find_lt (it_group i - 1)).
  rewrite H1. destruct (it_group i) as [|g] eqn:Eg; [lia|]. simpl. rewrite Nat.sub_0_r.
  rewrite lb_ub. f_equal.
  assert (Hlen : upper_bound (d_vec d) g <= length (d_vec d)) by apply upper_bound_le.
  assert (HF := find_lt_rev g (firstn (upper_bound (d_vec d) g) (d_vec d)) (sorted_firstn _ _ Hs)).
  rewrite firstn_length_le in HF by auto. rewrite HF. apply lb_firstn. apply lb_le_ub.
Qed.

(** ** Index mapping: counting sort *)
Definition cnt (l : list nat) (v : nat) : nat := count_occ Nat.eq_dec l v.
Definition offs (l : list nat) (v : nat) : nat := length (filter (fun x => x <? v) l).

Lemma offs_S l v : offs l (S v) = offs l v + cnt l v.
Proof.
  unfold offs, cnt. induction l as [|a l IH]; simpl; auto.
  destruct (Nat.eq_dec a v) as [->|Hn].
  - replace (v <? S v) with true by lia. replace (v <? v) with false by lia. simpl. lia.
  - destruct (Nat.ltb_spec a (S v)), (Nat.ltb_spec a v); simpl; lia.
Qed.

Lemma offs_all l n : (forall x, In x l -> x < n) -> offs l n = length l.
Proof.
  unfold offs. induction l as [|a l IH]; intros H; simpl; auto.
  assert (a < n) by (apply H; simpl; auto). replace (a <? n) with true by lia. simpl. rewrite IH; auto.
  intros x Hx; apply H; simpl; auto.
Qed.

Lemma count_entries_gen l c : (forall x, In x l -> x < length c) ->
  length (fold_left (fun c j => upd j (S (nth j c 0)) c) l c) = length c /\
  forall v, nth v (fold_left (fun c j => upd j (S (nth j c 0)) c) l c) 0 = nth v c 0 + cnt l v.
Proof.
  revert c; induction l as [|a l IH]; intros c H; simpl.
  - split; auto.
  - destruct (IH (upd a (S (nth a c 0)) c)) as [H1 H2].
    { intros x Hx. rewrite upd_length. apply H; simpl; auto. }
    rewrite upd_length in H1. split; auto. intros v. rewrite H2. unfold cnt; simpl.
    destruct (Nat.eq_dec a v) as [->|Hn].
    + rewrite nth_upd_eq by (apply H; simpl; auto). lia.
    + rewrite nth_upd_neq by auto. reflexivity.
Qed.

Lemma count_entries_nth l n v : (forall x, In x l -> x < n) -> nth v (count_entries l n) 0 = cnt l v.
Proof.
  intros H. unfold count_entries. destruct (count_entries_gen l (repeat 0 n)) as [_ H2].
  - intros; rewrite repeat_length; auto.
  - rewrite H2. now rewrite nth_repeat.
Qed.
Lemma count_entries_length l n : (forall x, In x l -> x < n) -> length (count_entries l n) = n.
Proof.
  intros H. unfold count_entries. destruct (count_entries_gen l (repeat 0 n)) as [H1 _].
  - intros; rewrite repeat_length; auto.
  - now rewrite H1, repeat_length.
Qed.

Lemma scan_from_length acc l : length (scan_from acc l) = length l.
Proof. revert acc; induction l; intros; simpl; auto. Qed.

Lemma scan_from_nth acc l v : v < length l -> nth v (scan_from acc l) 0 = acc + list_sum (firstn (S v) l).
Proof.
  revert acc v; induction l as [|a l IH]; intros acc [|v] H; simpl in *; try lia.
  rewrite IH by lia. simpl. lia.
Qed.

Lemma sum_counts l n v : (forall x, In x l -> x < n) -> v <= n -> list_sum (firstn v (count_entries l n)) = offs l v.
Proof.
  intros H. induction v as [|v IH]; intros Hv.
  - unfold offs. simpl. induction l as [|a l IHl]; simpl; auto.
    apply IHl. intros x Hx; apply H; simpl; auto.
  - assert (E : firstn (S v) (count_entries l n) = firstn v (count_entries l n) ++ [nth v (count_entries l n) 0]).
    { assert (Hlen := count_entries_length l n H).
      clear - Hlen Hv. revert Hlen Hv. generalize (count_entries l n) as c. revert v. induction n as [|n IH]; intros v c Hlen Hv; [lia|].
      destruct c as [|a c]; simpl in Hlen; [lia|]. destruct v as [|v]; [reflexivity|]. cbn [firstn nth app].
      f_equal. apply IH; lia. }
    rewrite E, list_sum_app, IH by lia. rewrite count_entries_nth by auto. simpl. rewrite offs_S. lia.
Qed.

Definition cum_of (l : list nat) (n : nat) : list nat := scan_from 0 (count_entries l n).

Lemma cum_nth l n v : (forall x, In x l -> x < n) -> v < n -> nth v (cum_of l n) 0 = offs l (S v).
Proof.
  intros H Hv. unfold cum_of. rewrite scan_from_nth by (rewrite count_entries_length; auto).
  rewrite sum_counts by (auto; lia). reflexivity.
Qed.
Lemma cum_length l n : (forall x, In x l -> x < n) -> length (cum_of l n) = n.
Proof. intros H. unfold cum_of. now rewrite scan_from_length, count_entries_length. Qed.

(** The stable grouping: for each group in order, the positions holding that group, in order. *)
Definition positions_of (l : list nat) (g : nat) : list nat :=
  filter (fun i => nth i l 0 =? g) (seq 0 (length l)).
Definition stable_order (l : list nat) (n : nat) : list nat :=
  flat_map (positions_of l) (seq 0 n).
Definition pos (l : list nat) (i : nat) : nat := offs l (nth i l 0) + cnt (firstn i l) (nth i l 0).

Lemma positions_gen (l0 l : list nat) g : forall k,
  (forall i, i < length l -> nth (k + i) l0 0 = nth i l 0) ->
  length (filter (fun i => nth i l0 0 =? g) (seq k (length l))) = cnt l g /\
  forall i, i < length l -> nth i l 0 = g ->
    nth_error (filter (fun i => nth i l0 0 =? g) (seq k (length l))) (cnt (firstn i l) g) = Some (k + i).
Proof.
  unfold cnt. induction l as [|a l IH]; intros k H; simpl.
  - split; auto; intros; lia.
  - assert (Ha : nth k l0 0 = a) by (specialize (H 0); rewrite Nat.add_0_r in H; apply H; simpl; lia).
    rewrite Ha. destruct (IH (S k)) as [IH1 IH2].
    { intros i Hi. replace (S k + i) with (k + S i) by lia. rewrite H by (simpl; lia). reflexivity. }
    destruct (Nat.eqb_spec a g) as [->|Hne].
    + destruct (Nat.eq_dec g g) as [_|]; [|congruence]. simpl. split; [now rewrite IH1|].
      intros [|i] Hi Hg; simpl.
      * f_equal; lia.
      * simpl in Hg. destruct (Nat.eq_dec g g) as [_|]; [|congruence]. simpl. rewrite IH2 by (auto; lia).
        f_equal; lia.
    + destruct (Nat.eq_dec a g) as [|_]; [congruence|]. split; auto.
      intros [|i] Hi Hg; simpl in *; [congruence|]. destruct (Nat.eq_dec a g) as [|_]; [congruence|].
      rewrite IH2 by (auto; lia). f_equal; lia.
Qed.

Lemma positions_length l g : length (positions_of l g) = cnt l g.
Proof. unfold positions_of. apply (positions_gen l l g 0). intros; auto. Qed.
Lemma positions_nth l g i : i < length l -> nth i l 0 = g -> nth_error (positions_of l g) (cnt (firstn i l) g) = Some i.
Proof. intros H1 H2. unfold positions_of. apply (positions_gen l l g 0); auto. Qed.

Lemma stable_prefix_length l n : length (stable_order l n) = offs l n.
Proof.
  unfold stable_order. induction n as [|n IH].
  - simpl. unfold offs. induction l; simpl; auto.
  - rewrite seq_S, flat_map_app, app_length, IH. simpl. rewrite app_nil_r, positions_length, offs_S. lia.
Qed.

Lemma stable_split l n g : g < n ->
  exists rest, stable_order l n = stable_order l g ++ positions_of l g ++ rest.
Proof.
  intros H. unfold stable_order. exists (flat_map (positions_of l) (seq (S g) (n - S g))).
  replace n with (g + (1 + (n - S g))) at 1 by lia. rewrite seq_app, flat_map_app, seq_app, flat_map_app. simpl.
  rewrite app_nil_r. do 3 f_equal. f_equal; lia.
Qed.

Lemma stable_nth l n i : (forall x, In x l -> x < n) -> i < length l -> nth_error (stable_order l n) (pos l i) = Some i.
Proof.
  intros H Hi. unfold pos. set (g := nth i l 0).
  assert (Hg : g < n) by (apply H; apply nth_In; auto).
  destruct (stable_split l n g Hg) as [rest ->].
  rewrite nth_error_app2 by (rewrite stable_prefix_length; lia). rewrite stable_prefix_length.
  replace (offs l g + cnt (firstn i l) g - offs l g) with (cnt (firstn i l) g) by lia.
  assert (E := positions_nth l g i Hi eq_refl).
  rewrite nth_error_app1; auto. apply nth_error_Some; congruence.
Qed.

Lemma positions_in l g i : In i (positions_of l g) <-> i < length l /\ nth i l 0 = g.
Proof. unfold positions_of. rewrite filter_In, in_seq, Nat.eqb_eq. split; intros [? ?]; split; auto; lia. Qed.

Lemma NoDup_seq_filter f a n : NoDup (filter f (seq a n)).
Proof. apply NoDup_filter, seq_NoDup. Qed.

Lemma stable_NoDup l n : NoDup (stable_order l n).
Proof.
  apply NoDup_flat_map_intro.
  - intros x _. apply NoDup_seq_filter.
  - intros n1 n2 x1 x2 y H1 H2 Hy1 Hy2. apply positions_in in Hy1 as [_ Hy1]. apply positions_in in Hy2 as [_ Hy2].
    assert (E : forall k x, nth_error (seq 0 n) k = Some x -> x = k).
    { intros k x Hk. assert (k < length (seq 0 n)) by (apply nth_error_Some; congruence).
      rewrite seq_length in H. rewrite (nth_error_nth' _ 0) in Hk by (rewrite seq_length; auto).
      rewrite seq_nth in Hk by auto. simpl in Hk. congruence. }
    apply E in H1, H2. congruence.
Qed.

Lemma stable_in l n i : In i (stable_order l n) -> i < length l.
Proof. unfold stable_order. rewrite in_flat_map. intros (g & _ & Hi). now apply positions_in in Hi. Qed.

(** The backward loop. *)
Lemma combine_seq_snoc a (l : list nat) x : combine (seq a (S (length l))) (l ++ [x]) = combine (seq a (length l)) l ++ [(a + length l, x)].
Proof.
  revert a; induction l as [|y l IH]; intros a.
  - simpl. do 2 f_equal. lia.
  - specialize (IH (S a)). cbn [length]. change (seq a (S (S (length l)))) with (a :: seq (S a) (S (length l))).
    cbn [app combine]. rewrite IH. simpl. do 2 f_equal. do 2 f_equal. lia.
Qed.

Lemma place_loop (l : list nat) n : (forall x, In x l -> x < n) ->
  forall k counter reorder, k <= length l -> length counter = n -> length reorder = length l ->
  (forall v, v < n -> nth v counter 0 = offs l v + cnt (firstn k l) v) ->
  (forall i, k <= i < length l -> nth_error reorder (pos l i) = Some i) ->
  exists counter' reorder', fold_left place (rev (combine (seq 0 k) (firstn k l))) (counter, reorder) = (counter', reorder') /\
    length reorder' = length l /\ forall i, i < length l -> nth_error reorder' (pos l i) = Some i.
Proof.
  intros Hl. induction k as [|k IH]; intros counter reorder Hk Hlc Hlr Hc Hr.
  - simpl. exists counter, reorder. repeat split; auto. intros i Hi. apply Hr. lia.
  - assert (E : firstn (S k) l = firstn k l ++ [nth k l 0]).
    { clear - Hk. revert k Hk. induction l as [|a l IH]; intros [|k] Hk; simpl in *; try lia; auto. f_equal. apply IH; lia. }
    assert (Hlen : length (firstn k l) = k) by (apply firstn_length_le; lia).
    rewrite E. replace (seq 0 (S k)) with (seq 0 (S (length (firstn k l)))) by now rewrite Hlen.
    rewrite combine_seq_snoc, rev_app_distr, Hlen. cbn [rev app fold_left place Nat.add].
    set (v := nth k l 0) in *. assert (Hv : v < n) by (apply Hl; apply nth_In; lia).
    assert (Hcv : nth v counter 0 - 1 = pos l k).
    { rewrite Hc by auto. rewrite E. unfold pos. fold v. unfold cnt. rewrite count_occ_app. simpl.
      destruct (Nat.eq_dec v v); [lia|congruence]. }
    rewrite Hcv.
    assert (Hp : forall i, i < length l -> pos l i < length l).
    { intros i Hi. assert (Hn := stable_nth l n i Hl Hi).
      assert (pos l i < length (stable_order l n)) by (apply nth_error_Some; congruence).
      rewrite stable_prefix_length, offs_all in H; auto. }
    assert (Hinj : forall i j, i < length l -> j < length l -> pos l i = pos l j -> i = j).
    { intros i j Hi Hj Hij. assert (H1 := stable_nth l n i Hl Hi). assert (H2 := stable_nth l n j Hl Hj).
      rewrite Hij in H1. congruence. }
    apply IH; try lia.
    + now rewrite upd_length.
    + now rewrite upd_length.
    + intros w Hw. destruct (Nat.eq_dec v w) as [<-|Hne].
      * rewrite nth_upd_eq by lia. unfold pos. reflexivity.
      * rewrite nth_upd_neq by auto. rewrite Hc by auto. rewrite E. unfold cnt. rewrite count_occ_app. simpl.
        destruct (Nat.eq_dec v w); [congruence|lia].
    + intros i Hi. destruct (Nat.eq_dec i k) as [->|Hne].
      * apply nth_error_upd_eq. rewrite Hlr. apply Hp. lia.
      * rewrite nth_error_upd_neq; [apply Hr; lia|]. intros Heq. apply Hne. symmetry. apply Hinj; auto; lia.
Qed.

Lemma sparse_mapping_spec l n : (forall x, In x l -> x < n) ->
  build_sparse_mapping l n = (0 :: map (fun v => offs l (S v)) (seq 0 n), stable_order l n).
Proof.
  intros H. unfold build_sparse_mapping. fold (cum_of l n).
  assert (HL : forall v, v < n -> nth v (cum_of l n) 0 = offs l (S v)) by (intros; now apply cum_nth).
  destruct (place_loop l n H (length l) (cum_of l n) (repeat 0 (length l))) as (c' & r' & E & Hlen & Hr); auto.
  - now apply cum_length.
  - apply repeat_length.
  - intros v Hv. rewrite HL by auto. rewrite firstn_all. apply offs_S.
  - intros i Hi. lia.
  - rewrite firstn_all in E. rewrite E. f_equal.
    + f_equal. apply nth_error_ext. intros v. destruct (lt_dec v n) as [Hv|Hv].
      * rewrite (nth_error_nth' _ 0) by (rewrite cum_length; auto). rewrite HL by auto.
        rewrite nth_error_map, (nth_error_nth' _ 0) by (rewrite seq_length; auto). now rewrite seq_nth.
      * rewrite !(proj2 (nth_error_None _ _)); auto; rewrite ?cum_length, ?map_length, ?seq_length; auto; lia.
    + assert (Hls : length (stable_order l n) = length l) by (rewrite stable_prefix_length; now apply offs_all).
      apply nth_error_ext. intros p. destruct (lt_dec p (length l)) as [Hp|Hp].
      * destruct (nth_error (stable_order l n) p) as [i|] eqn:Ei; [|apply nth_error_None in Ei; lia].
        assert (Hi : i < length l) by (eapply stable_in, nth_error_In; eauto).
        assert (p = pos l i).
        { assert (Hn := stable_nth l n i H Hi). eapply NoDup_nth_error; [apply (stable_NoDup l n)| |]; [lia|congruence]. }
        subst p. now apply Hr.
      * rewrite !(proj2 (nth_error_None _ _)); auto; lia.
Qed.

(** indptr decodes to the sorted values. *)
Lemma offs_mono l v w : v <= w -> offs l v <= offs l w.
Proof. intros H. induction H as [|w H IH]; auto. rewrite offs_S. lia. Qed.

Lemma indptr_sorted l n : sorted (0 :: map (fun v => offs l (S v)) (seq 0 n)).
Proof.
  constructor.
  - apply (sorted_map_seq (fun v => offs l (S v))). intros; apply offs_mono; lia.
  - rewrite Forall_forall; intros; lia.
Qed.

Lemma offs_0 l : offs l 0 = 0.
Proof. unfold offs. induction l; simpl; auto. Qed.

Lemma indptr_nth l n g : g <= n -> nth_error (0 :: map (fun v => offs l (S v)) (seq 0 n)) g = Some (offs l g).
Proof.
  intros H. destruct g as [|g]; simpl; [now rewrite offs_0|].
  rewrite nth_error_map, (nth_error_nth' _ 0) by (rewrite seq_length; lia). now rewrite seq_nth by lia.
Qed.

Lemma cnt_firstn_lt l i : i < length l -> cnt (firstn i l) (nth i l 0) < cnt l (nth i l 0).
Proof.
  intros H. unfold cnt.
  replace (count_occ Nat.eq_dec l (nth i l 0)) with (count_occ Nat.eq_dec (firstn i l ++ skipn i l) (nth i l 0))
    by now rewrite firstn_skipn.
  rewrite count_occ_app.
  destruct (skipn i l) as [|a r] eqn:E.
  - assert (length (skipn i l) = 0) by now rewrite E. rewrite skipn_length in H0. lia.
  - assert (nth i l 0 = a).
    { rewrite <- (firstn_skipn i l) at 1. rewrite app_nth2; rewrite firstn_length_le by lia; auto. now rewrite Nat.sub_diag, E. }
    rewrite H0. simpl. destruct (Nat.eq_dec a a); [lia|congruence].
Qed.

Lemma decode_indptr l n : (forall x, In x l -> x < n) ->
  sparse_decode (0 :: map (fun v => offs l (S v)) (seq 0 n)) = map (fun i => nth i l 0) (stable_order l n).
Proof.
  intros H. apply nth_error_ext. intros p.
  assert (Hlast : last (0 :: map (fun v => offs l (S v)) (seq 0 n)) 0 = length l).
  { destruct n as [|n].
    - destruct l as [|a l]; auto. specialize (H a). simpl in H; lia.
    - rewrite seq_S, map_app. cbn [map]. rewrite app_comm_cons, last_last. simpl. now apply offs_all. }
  destruct (lt_dec p (length l)) as [Hp|Hp].
  - destruct (nth_error (stable_order l n) p) as [i|] eqn:Ei.
    2: { apply nth_error_None in Ei. rewrite stable_prefix_length, offs_all in Ei; auto; lia. }
    assert (Hi : i < length l) by (eapply stable_in, nth_error_In; eauto).
    assert (p = pos l i).
    { assert (Hn := stable_nth l n i H Hi). eapply NoDup_nth_error; [apply (stable_NoDup l n)| |congruence].
      rewrite stable_prefix_length, offs_all; auto. }
    rewrite nth_error_map, Ei. simpl. set (g := nth i l 0) in *.
    assert (Hg : g < n) by (apply H; apply nth_In; auto).
    eapply sparse_decode_nth; [apply indptr_sorted|apply indptr_nth; lia|apply indptr_nth; lia|].
    rewrite H0. unfold pos. fold g. rewrite offs_S. assert (Hc := cnt_firstn_lt l i Hi). fold g in Hc. lia.
  - rewrite !(proj2 (nth_error_None _ _)); auto.
    + rewrite map_length, stable_prefix_length, offs_all; auto; lia.
    + rewrite sparse_decode_length, Hlast. lia.
Qed.

(** ** Comparison sort *)
Definition lex_le (a b : nat * nat) : Prop := fst a < fst b \/ (fst a = fst b /\ snd a <= snd b).

Lemma lex_antisym a b : lex_le a b -> lex_le b a -> a = b.
Proof.
  destruct a as [a1 a2], b as [b1 b2]. unfold lex_le; simpl. intros [?|[? ?]] [?|[? ?]]; try lia.
  f_equal; lia.
Qed.

Lemma sorted_perm_unique l1 l2 : StronglySorted lex_le l1 -> StronglySorted lex_le l2 -> Permutation l1 l2 -> l1 = l2.
Proof.
  intros H1. revert l2. induction H1 as [|a l1 H1 IH Ha]; intros l2 H2 HP.
  - now apply Permutation_nil in HP.
  - destruct H2 as [|b l2 H2 Hb]; [apply Permutation_sym, Permutation_nil in HP; discriminate|].
    assert (a = b).
    { rewrite Forall_forall in Ha, Hb.
      assert (Hin1 : In a (b :: l2)) by (eapply Permutation_in; [exact HP|simpl; auto]).
      assert (Hin2 : In b (a :: l1)) by (eapply Permutation_in; [apply Permutation_sym, HP|simpl; auto]).
      destruct Hin1 as [|Hin1]; auto. destruct Hin2 as [|Hin2]; auto.
      apply lex_antisym; auto. }
    subst b. f_equal. apply IH; auto. eapply Permutation_cons_inv; eauto.
Qed.

Definition stable_pairs (l : list nat) (n : nat) : list (nat * nat) := map (fun i => (nth i l 0, i)) (stable_order l n).

Lemma StronglySorted_app {A} (R : A -> A -> Prop) l1 l2 : StronglySorted R l1 -> StronglySorted R l2 ->
  (forall x y, In x l1 -> In y l2 -> R x y) -> StronglySorted R (l1 ++ l2).
Proof.
  intros H1 H2 HR. induction H1 as [|a l1 H1 IH Ha]; simpl; auto. constructor.
  - apply IH. intros x y Hx Hy. apply HR; simpl; auto.
  - rewrite Forall_forall in *. intros x Hx. apply in_app_or in Hx as [Hx|Hx]; auto. apply HR; simpl; auto.
Qed.

Lemma filter_seq_sorted f a n : StronglySorted lt (filter f (seq a n)).
Proof.
  revert a; induction n as [|n IH]; intros a; simpl; [constructor|].
  destruct (f a); auto. constructor; auto. rewrite Forall_forall. intros x Hx.
  apply filter_In in Hx as [Hx _]. apply in_seq in Hx. lia.
Qed.

Lemma stable_pairs_sorted l n : StronglySorted lex_le (stable_pairs l n).
Proof.
  unfold stable_pairs, stable_order. induction n as [|n IH]; [constructor|].
  rewrite seq_S, flat_map_app, map_app. simpl. rewrite app_nil_r. apply StronglySorted_app; auto.
  - assert (HF : forall i, In i (positions_of l n) -> nth i l 0 = n) by (intros i Hi; now apply positions_in in Hi).
    assert (HS := filter_seq_sorted (fun i => nth i l 0 =? n) 0 (length l)). fold (positions_of l n) in HS.
    clear - HF HS. induction HS as [|i r HS IH Hi]; simpl; constructor.
    + apply IH. intros; apply HF; simpl; auto.
    + rewrite Forall_forall in *. intros [v j] Hj. apply in_map_iff in Hj as (j' & E & Hj). injection E as <- <-.
      right. simpl. rewrite !HF by (simpl; auto). split; auto. apply Nat.lt_le_incl. auto.
  - intros [v i] [w j] Hx Hy. apply in_map_iff in Hx as (i' & E & Hx). injection E as <- <-.
    apply in_map_iff in Hy as (j' & E & Hy). injection E as <- <-.
    apply in_flat_map in Hx as (g & Hg & Hx). apply in_seq in Hg.
    apply positions_in in Hx as [_ Hx]. apply positions_in in Hy as [_ Hy]. left. simpl. lia.
Qed.

Lemma combine_map_nth (l : list nat) : combine l (seq 0 (length l)) = map (fun i => (nth i l 0, i)) (seq 0 (length l)).
Proof.
  assert (H : forall k, combine l (seq k (length l)) = map (fun i => (nth (i - k) l 0, i)) (seq k (length l))).
  { induction l as [|a l IH]; intros k; simpl; auto. rewrite Nat.sub_diag. f_equal.
    rewrite IH. apply map_ext_in. intros i Hi. apply in_seq in Hi. f_equal.
    replace (i - k) with (S (i - S k)) by lia. reflexivity. }
  rewrite H. apply map_ext. intros i. now rewrite Nat.sub_0_r.
Qed.

Lemma stable_perm l n : (forall x, In x l -> x < n) -> Permutation (stable_order l n) (seq 0 (length l)).
Proof.
  intros H. apply NoDup_Permutation.
  - apply stable_NoDup.
  - apply seq_NoDup.
  - intros i. rewrite in_seq. split; intros Hi.
    + apply stable_in in Hi. lia.
    + eapply nth_error_In. apply (stable_nth l n i); auto. lia.
Qed.

Section SortContract.
  Variable sort : list (nat * nat) -> list (nat * nat).
  Hypothesis sort_sorted : forall l, StronglySorted lex_le (sort l).
  Hypothesis sort_perm : forall l, Permutation l (sort l).

  Lemma comparison_spec l n : (forall x, In x l -> x < n) ->
    build_dense_mapping_comparison_sort sort l = (map (fun i => nth i l 0) (stable_order l n), stable_order l n).
  Proof.
    intros H. unfold build_dense_mapping_comparison_sort.
    assert (E : sort (combine l (seq 0 (length l))) = stable_pairs l n).
    { apply sorted_perm_unique; [apply sort_sorted|apply stable_pairs_sorted|].
      eapply Permutation_trans; [apply Permutation_sym, sort_perm|].
      rewrite combine_map_nth. unfold stable_pairs. apply Permutation_map, Permutation_sym, stable_perm; auto. }
    rewrite E. unfold stable_pairs. rewrite !map_map. simpl. now rewrite map_id.
  Qed.
End SortContract.

Lemma counting_spec l n : (forall x, In x l -> x < n) ->
  build_dense_mapping_counting_sort l n = (map (fun i => nth i l 0) (stable_order l n), stable_order l n).
Proof.
  intros H. unfold build_dense_mapping_counting_sort. rewrite sparse_mapping_spec by auto. now rewrite decode_indptr.
Qed.
