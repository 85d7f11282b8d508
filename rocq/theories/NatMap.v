(** std::map<Idx, A> and std::set<Idx> as lists that are ordered by key, and std::ranges::sort on indices. *)
From Verif Require Import Common.
From Coq Require Export Sorting.Sorted Permutation.

Section Map.
Context {A : Type}.
(** std::map::find *)
Fixpoint mfind (k : nat) (m : list (nat * A)) : option A :=
  match m with [] => None | (k', v) :: m' => if k =? k' then Some v else mfind k m' end.
(** m[k] = v *)
Fixpoint mset (k : nat) (v : A) (m : list (nat * A)) : list (nat * A) :=
  match m with
  | [] => [(k, v)]
  | (k', v') :: m' => if k <? k' then (k, v) :: m else if k =? k' then (k, v) :: m' else (k', v') :: mset k v m'
  end.
(** std::map::erase *)
Definition merase (k : nat) (m : list (nat * A)) : list (nat * A) := filter (fun kv => negb (fst kv =? k)) m.
Definition keys (m : list (nat * A)) : list nat := map fst m.
Definition msorted (m : list (nat * A)) : Prop := StronglySorted lt (keys m).

Lemma mfind_mset_eq k v m : mfind k (mset k v m) = Some v.
Proof.
  induction m as [|[k' v'] m IH]; simpl; [now rewrite Nat.eqb_refl|].
  destruct (Nat.ltb_spec k k'); simpl; [now rewrite Nat.eqb_refl|]. destruct (Nat.eqb_spec k k'); simpl; [now rewrite Nat.eqb_refl|].
  destruct (Nat.eqb_spec k k'); [lia|auto].
Qed.
Lemma mfind_mset_neq k k0 v m : k0 <> k -> mfind k0 (mset k v m) = mfind k0 m.
Proof.
  intros Hn. induction m as [|[k' v'] m IH]; simpl; [destruct (Nat.eqb_spec k0 k); congruence|].
  destruct (Nat.ltb_spec k k'); simpl; [destruct (Nat.eqb_spec k0 k); congruence|]. destruct (Nat.eqb_spec k k'); simpl.
  - subst k'. destruct (Nat.eqb_spec k0 k); congruence.
  - destruct (k0 =? k'); auto.
Qed.
Lemma mfind_merase_eq k m : mfind k (merase k m) = None.
Proof.
  unfold merase. induction m as [|[k' v'] m IH]; simpl; auto. destruct (Nat.eqb_spec k' k); simpl; auto.
  destruct (Nat.eqb_spec k k'); [congruence|auto].
Qed.
Lemma mfind_merase_neq k k0 m : k0 <> k -> mfind k0 (merase k m) = mfind k0 m.
Proof.
  intros Hn. unfold merase. induction m as [|[k' v'] m IH]; simpl; auto. destruct (Nat.eqb_spec k' k); simpl.
  - subst k'. destruct (Nat.eqb_spec k0 k); congruence.
  - destruct (k0 =? k'); auto.
Qed.
Lemma mfind_In k v m : mfind k m = Some v -> In (k, v) m.
Proof. induction m as [|[k' v'] m IH]; simpl; [discriminate|]. destruct (Nat.eqb_spec k k'); [intros [= ->]; subst; auto|auto]. Qed.
Lemma mfind_keys k m : mfind k m <> None <-> In k (keys m).
Proof.
  induction m as [|[k' v'] m IH]; simpl; [tauto|]. destruct (Nat.eqb_spec k k'); [subst; split; auto; discriminate|].
  rewrite IH. split; [auto|intros [|]; [congruence|auto]].
Qed.
Lemma In_mfind k v m : msorted m -> In (k, v) m -> mfind k m = Some v.
Proof.
  unfold msorted. induction m as [|[k' v'] m IH]; simpl; [tauto|]. intros HS [[= -> ->]|Hin]; [now rewrite Nat.eqb_refl|].
  inversion HS as [|? ? HS' HF]; subst. destruct (Nat.eqb_spec k k').
  - subst k'. rewrite Forall_forall in HF. specialize (HF k (in_map fst _ _ Hin)). lia.
  - auto.
Qed.
Lemma keys_mset k v m x : In x (keys (mset k v m)) <-> x = k \/ In x (keys m).
Proof.
  rewrite <- !mfind_keys. destruct (Nat.eq_dec x k) as [->|Hn].
  - rewrite mfind_mset_eq. split; [auto|discriminate].
  - rewrite mfind_mset_neq by auto. tauto.
Qed.
Lemma msorted_mset k v m : msorted m -> msorted (mset k v m).
Proof.
  unfold msorted. induction m as [|[k' v'] m IH]; intros HS; simpl; [repeat constructor|].
  inversion HS as [|? ? HS' HF]; subst. destruct (Nat.ltb_spec k k'); simpl.
  - constructor; auto. constructor; auto. eapply Forall_impl; [|exact HF]. intros; lia.
  - destruct (Nat.eqb_spec k k'); simpl; [subst; constructor; auto|]. constructor; [auto|].
    apply Forall_forall. intros x Hx. apply keys_mset in Hx as [->|Hx]; [lia|]. rewrite Forall_forall in HF. auto.
Qed.
Lemma keys_merase k m : keys (merase k m) = filter (fun x => negb (x =? k)) (keys m).
Proof. unfold keys, merase. induction m as [|[k' v'] m IH]; simpl; auto. destruct (k' =? k); simpl; congruence. Qed.
Lemma filter_sorted (f : nat -> bool) l : StronglySorted lt l -> StronglySorted lt (filter f l).
Proof.
  induction 1 as [|x l HS IH HF]; simpl; [constructor|]. destruct (f x); auto. constructor; auto.
  rewrite Forall_forall in *. intros y Hy. apply filter_In in Hy. apply HF. tauto.
Qed.
Lemma msorted_merase k m : msorted m -> msorted (merase k m).
Proof. unfold msorted. rewrite keys_merase. apply filter_sorted. Qed.
Lemma sorted_NoDup l : StronglySorted lt l -> NoDup l.
Proof. induction 1 as [|x l HS IH HF]; constructor; auto. intros Hin. rewrite Forall_forall in HF. specialize (HF x Hin). lia. Qed.
End Map.
Arguments keys {A}.

(** std::set<Idx>: ordered lists *)
Fixpoint sinsert (x : nat) (l : list nat) : list nat :=
  match l with [] => [x] | y :: l' => if x <? y then x :: l else if x =? y then l else y :: sinsert x l' end.
Definition serase (x : nat) (l : list nat) : list nat := filter (fun y => negb (y =? x)) l.
Definition sset (l : list nat) : list nat := fold_left (fun s x => sinsert x s) l [].
Lemma sinsert_In x y l : In y (sinsert x l) <-> y = x \/ In y l.
Proof.
  induction l as [|z l IH]; simpl; [intuition congruence|]. destruct (Nat.ltb_spec x z); simpl; [intuition congruence|].
  destruct (Nat.eqb_spec x z); simpl; [subst; intuition congruence|]. rewrite IH. intuition congruence.
Qed.
Lemma serase_In x y l : In y (serase x l) <-> In y l /\ y <> x.
Proof. unfold serase. rewrite filter_In. destruct (Nat.eqb_spec y x); simpl; intuition congruence. Qed.
Lemma sinsert_sorted x l : StronglySorted lt l -> StronglySorted lt (sinsert x l).
Proof.
  induction 1 as [|y l HS IH HF]; simpl; [repeat constructor|]. destruct (Nat.ltb_spec x y).
  - constructor; [constructor; auto|]. constructor; auto. eapply Forall_impl; [|exact HF]. intros; lia.
  - destruct (Nat.eqb_spec x y); [constructor; auto|]. constructor; auto. apply Forall_forall. intros z Hz. apply sinsert_In in Hz as [->|Hz]; [lia|].
    rewrite Forall_forall in HF. auto.
Qed.
Lemma sset_In l y : In y (sset l) <-> In y l.
Proof.
  unfold sset. assert (X : forall s, In y (fold_left (fun s x => sinsert x s) l s) <-> In y s \/ In y l).
  { induction l as [|x l IH]; intros s; simpl; [tauto|]. rewrite IH, sinsert_In. intuition congruence. }
  rewrite X. simpl. tauto.
Qed.
Lemma sset_sorted l : StronglySorted lt (sset l).
Proof.
  unfold sset. assert (X : forall s, StronglySorted lt s -> StronglySorted lt (fold_left (fun s x => sinsert x s) l s)).
  { induction l as [|x l IH]; intros s Hs; simpl; auto. apply IH. now apply sinsert_sorted. }
  apply X. constructor.
Qed.

(** std::ranges::sort *)
Fixpoint insert_sorted (x : nat) (l : list nat) : list nat :=
  match l with [] => [x] | y :: l' => if x <=? y then x :: l else y :: insert_sorted x l' end.
Definition sort_idx (l : list nat) : list nat := fold_right insert_sorted [] l.
Lemma insert_perm x l : Permutation (insert_sorted x l) (x :: l).
Proof. induction l as [|y l IH]; simpl; auto. destruct (x <=? y); auto. rewrite IH. constructor. Qed.
Lemma sort_perm l : Permutation (sort_idx l) l.
Proof. induction l as [|x l IH]; simpl; auto. rewrite insert_perm. now constructor. Qed.
Lemma insert_sorted_sorted x l : StronglySorted le l -> StronglySorted le (insert_sorted x l).
Proof.
  induction 1 as [|y l HS IH HF]; simpl; [repeat constructor|]. destruct (Nat.leb_spec x y).
  - constructor; [constructor; auto|]. constructor; auto. eapply Forall_impl; [|exact HF]. intros; lia.
  - constructor; auto. apply Forall_forall. intros z Hz. apply (Permutation_in _ (insert_perm x l)) in Hz as [->|Hz]; [lia|].
    rewrite Forall_forall in HF. auto.
Qed.
Lemma sort_sorted l : StronglySorted le (sort_idx l).
Proof. induction l; simpl; [constructor|now apply insert_sorted_sorted]. Qed.
Lemma sorted_perm_eq l : forall l', StronglySorted le l -> StronglySorted le l' -> Permutation l l' -> l = l'.
Proof.
  induction l as [|x l IH]; intros l' H1 H2 HP; [now apply Permutation_nil in HP|].
  destruct l' as [|y l']; [symmetry in HP; now apply Permutation_nil in HP|].
  inversion H1 as [|? ? H1' F1]; subst. inversion H2 as [|? ? H2' F2]; subst. rewrite Forall_forall in F1, F2.
  assert (x = y).
  { assert (In x (y :: l')) as [->|Hx] by (eapply Permutation_in; [exact HP|left; auto]); auto.
    assert (In y (x :: l)) as [->|Hy] by (eapply Permutation_in; [symmetry; exact HP|left; auto]); auto.
    specialize (F1 _ Hy). specialize (F2 _ Hx). lia. }
  subst y. f_equal. apply IH; auto. now apply Permutation_cons_inv in HP.
Qed.
Lemma sort_eq_iff l l' : sort_idx l = sort_idx l' <-> Permutation l l'.
Proof.
  split; intros H.
  - now rewrite <- (sort_perm l), H, sort_perm.
  - apply sorted_perm_eq; try apply sort_sorted. now rewrite !sort_perm.
Qed.
Lemma NoDup_app_one {A} (l : list A) x : NoDup l -> ~ In x l -> NoDup (l ++ [x]).
Proof.
  induction l as [|y l IH]; intros HN Hx; simpl; [constructor; auto|]. inversion HN; subst. constructor.
  - rewrite in_app_iff. simpl. intros [H|[H|[]]]; [auto|]. apply Hx. left; auto.
  - apply IH; auto. intros H. apply Hx. right; auto.
Qed.
