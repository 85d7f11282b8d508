(** The renumbering of the nodes found by the search: it is a permutation with a complete fill-in list. *)
From Verif Require Import Common NatMap SparseOrdering SparseOrderingSpec SparseOrderingFacts SparseOrderingProps Topology TopologyDfs.

(** ** Marking of the cycles *)
Section Mark.
Variable pr : nat -> nat.
Variable L : list nat.
Hypothesis L_pr : forall x, In x L -> In (pr x) L.

Definition up (c : nat -> bool) : Prop := forall y, In y L -> c y = true -> c (pr y) = true.
Definition unmarked (c : nat -> bool) : nat := length (filter (fun x => negb (c x)) L).

Lemma anc_L x y : In x L -> anc pr x y -> In y L.
Proof. intros Hx [k <-]. induction k; simpl; auto. Qed.

Lemma mark_up_spec fuel : forall x c, In x L -> unmarked c < fuel -> (forall y, In y L -> c y = true -> c (pr y) = true \/ pr y = x) ->
  exists c', mark_up fuel pr x c = Some c' /\ up c' /\ (forall y, c y = true -> c' y = true) /\ c' x = true /\
    (forall y, c' y = true -> c y = true \/ anc pr x y).
Proof.
  induction fuel as [|fuel IH]; intros x c Hx Hf HI; [lia|]. cbn [mark_up]. destruct (c x) eqn:E.
  - exists c. refine (conj eq_refl (conj _ (conj _ (conj E _)))); auto. intros y Hy Hc. destruct (HI y Hy Hc) as [|H]; auto. now rewrite H.
  - destruct (IH (pr x) (fupd x true c)) as (c' & E' & H1 & H2 & H3 & H4); auto.
    + assert (unmarked (fupd x true c) < unmarked c); [|lia]. apply filter_length_strict with x; auto.
      * intros y. destruct (Nat.eq_dec y x) as [->|Hn]; [now rewrite fupd_eq|now rewrite fupd_neq].
      * now rewrite E.
      * now rewrite fupd_eq.
    + intros y Hy Hc. destruct (Nat.eq_dec y x) as [->|Hn]; [auto|]. rewrite fupd_neq in Hc by auto.
      destruct (Nat.eq_dec (pr y) x) as [Hp|Hp]; [left; rewrite Hp; apply fupd_eq|]. rewrite fupd_neq by auto. destruct (HI y Hy Hc); auto; congruence.
    + exists c'. refine (conj E' (conj H1 (conj _ (conj _ _)))).
      * intros y Hy. apply H2. destruct (Nat.eq_dec y x) as [->|Hn]; [apply fupd_eq|now rewrite fupd_neq].
      * apply H2. apply fupd_eq.
      * intros y Hy. apply H4 in Hy as [Hy|Hy]; [|right; now apply anc_step].
        destruct (Nat.eq_dec y x) as [->|Hn]; [right; apply anc_refl|]. rewrite fupd_neq in Hy by auto. auto.
Qed.

Lemma up_anc c x y : up c -> In x L -> c x = true -> anc pr x y -> c y = true.
Proof.
  intros HU Hx Hc [k <-]. assert (In (Nat.iter k pr x) L /\ c (Nat.iter k pr x) = true) as [_ ?]; auto.
  induction k as [|k [H1 H2]]; simpl; auto.
Qed.

Lemma mark_all_spec fuel bs : forall c, (forall b, In b bs -> In (fst b) L) -> length L < fuel -> up c ->
  exists c', mark_all fuel pr bs c = Some c' /\ up c' /\
    (forall y, c' y = true <-> c y = true \/ exists b, In b bs /\ anc pr (fst b) y).
Proof.
  unfold mark_all. induction bs as [|b bs IH]; intros c Hb Hf HU.
  { exists c. refine (conj eq_refl (conj HU _)). intros y. split; auto. intros [H|(? & [] & _)]; auto. }
  cbn [foldM_opt]. destruct (mark_up_spec fuel (fst b) c) as (c1 & -> & U1 & M1 & R1 & S1).
  - apply Hb. left; auto.
  - assert (unmarked c <= length L); [|lia]. unfold unmarked. clear. induction L as [|x l IH]; simpl; auto. destruct (negb (c x)); simpl; lia.
  - intros y Hy Hc. left. auto.
  - destruct (IH c1) as (c' & E' & U' & S'); auto.
    { intros b' H. apply Hb. right; auto. }
    exists c'. refine (conj E' (conj U' _)). intros y. rewrite S'. split.
    + intros [H|(b' & H1 & H2)].
      * apply S1 in H as [H|H]; auto. right. exists b. simpl; auto.
      * right. exists b'. simpl; auto.
    + intros [H|(b' & [<-|H1] & H2)]; eauto. left. eapply up_anc; eauto. apply Hb. left; auto.
Qed.
End Mark.

(** ** Patterns *)
Lemma before_In order x y : before order x y -> In x order /\ In y order.
Proof. intros (l1 & l2 & -> & H). split; apply in_or_app; right; simpl; auto. Qed.
Lemma before_app_r a b x y : before b x y -> before (a ++ b) x y.
Proof. intros (l1 & l2 & -> & H). exists (a ++ l1), l2. rewrite <- app_assoc. auto. Qed.
Lemma NoDup_app_disj {A} (a b : list A) x : NoDup (a ++ b) -> In x a -> ~ In x b.
Proof.
  induction a as [|y a IH]; simpl; [tauto|]. intros H. inversion H; subst. intros [->|Hx]; auto. intros Hb. apply H2. apply in_or_app; auto.
Qed.
Lemma before_app_inv a b x y : NoDup (a ++ b) -> In x b -> before (a ++ b) x y -> before b x y.
Proof.
  intros HN Hx (l1 & l2 & E & H). apply in_split in Hx as (b1 & b2 & ->).
  destruct (NoDup_split_unique (a ++ b1 ++ x :: b2) x (a ++ b1) b2 HN l1 l2) as [<- <-]; [now rewrite <- app_assoc|auto|].
  exists b1, b2. auto.
Qed.

Section Patterns.
Variable E : nat -> nat -> Prop.
Variables far mid : list nat.
Definition Em (v w : nat) : Prop := In v mid /\ In w mid /\ E v w.
Hypothesis nodup : NoDup (far ++ mid).
Hypothesis E_in : forall v w, E v w -> In v (far ++ mid) /\ In w (far ++ mid).
(** rows of [far] have one later neighbour at most *)
Hypothesis far_leaf : forall u v w, In u far -> E u v -> E u w -> before (far ++ mid) u v -> before (far ++ mid) u w -> v = w.

Lemma filled_mid_in v w : filled Em mid v w -> In v mid /\ In w mid.
Proof. induction 1 as [v w (H1 & H2 & _)|u v w H1 H2 _ _ _ _ _]; [auto|]. apply before_In in H1, H2. tauto. Qed.

Lemma filled_app v w : filled E (far ++ mid) v w <-> E v w \/ filled Em mid v w.
Proof.
  split.
  - induction 1 as [v w H|u v w H1 H2 Hn _ IH1 _ IH2]; auto. right.
    pose proof (before_In _ _ _ H1) as [Hu _]. apply in_app_iff in Hu as [Hu|Hu].
    + exfalso. assert (Hm : forall x, E u x \/ filled Em mid u x -> E u x).
      { intros x [H|H]; auto. apply filled_mid_in in H as [H _]. destruct (NoDup_app_disj far mid u nodup Hu H). }
      apply Hn. eapply far_leaf; eauto.
    + assert (Hm : forall x, before (far ++ mid) u x -> E u x \/ filled Em mid u x -> before mid u x /\ filled Em mid u x).
      { intros x Hb Hx. apply before_app_inv in Hb; auto. split; auto. destruct Hx as [Hx|Hx]; auto. apply filled_edge.
        refine (conj Hu (conj _ Hx)). now apply before_In in Hb. }
      destruct (Hm v H1 IH1), (Hm w H2 IH2). apply filled_fill with u; auto.
  - intros [H|H]; [now apply filled_edge|]. induction H as [v w (_ & _ & H)|u v w H1 H2 Hn _ IH1 _ IH2]; [now apply filled_edge|].
    apply filled_fill with u; auto using before_app_r.
Qed.

Lemma complete_app fills : complete_fill_in Em mid fills -> complete_fill_in E (far ++ mid) fills.
Proof.
  intros [H1 H2 H3].
  assert (Hin : forall v w, In (v, w) fills -> In v mid /\ In w mid) by (intros v w H; apply filled_mid_in; apply H1; auto).
  constructor; auto.
  - intros v w. rewrite filled_app, H1. unfold Em. tauto.
  - intros v w H HE. destruct (Hin v w H). apply (H2 v w H). unfold Em. auto.
Qed.
End Patterns.

(** relabelling by positions *)
Definition at_pos (l : list nat) (E : nat -> nat -> Prop) (i j : nat) : Prop :=
  exists x y, nth_error l i = Some x /\ nth_error l j = Some y /\ E x y.

Lemma before_seq n i j : before (seq 0 n) i j <-> i < j < n.
Proof.
  split.
  - intros (l1 & l2 & E & H). assert (Hl : i = length l1).
    { assert (nth (length l1) (seq 0 n) 0 = i) by (rewrite E, app_nth2, Nat.sub_diag; auto). rewrite <- H0. rewrite seq_nth; auto.
      apply (f_equal (@length nat)) in E. rewrite seq_length, app_length in E. simpl in E. lia. }
    apply In_nth with (d := 0) in H as (k & Hk & E2).
    assert (E3 : nth (length l1 + S k) (seq 0 n) 0 = j) by (rewrite E, app_nth2_plus; exact E2).
    apply (f_equal (@length nat)) in E. rewrite seq_length, app_length in E. simpl in E. rewrite seq_nth in E3; lia.
  - intros [H1 H2]. exists (seq 0 i), (seq (S i) (n - S i)). split.
    + replace n with (i + S (n - S i)) at 1 by lia. rewrite seq_app. simpl. reflexivity.
    + apply in_seq. lia.
Qed.
Lemma before_nth (l : list nat) i j x y : NoDup l -> nth_error l i = Some x -> nth_error l j = Some y -> before l x y <-> i < j.
Proof.
  intros HN Hi Hj. split.
  - intros (l1 & l2 & E & H). assert (i = length l1).
    { apply (NoDup_nth_error l); auto; [apply nth_error_Some; congruence|]. rewrite Hi, E, nth_error_app2, Nat.sub_diag; auto. }
    apply In_nth_error in H as [k Hk]. assert (j = length l1 + S k).
    { apply (NoDup_nth_error l); auto; [apply nth_error_Some; congruence|]. rewrite Hj, E, nth_error_app2 by lia.
      now replace (length l1 + S k - length l1) with (S k) by lia. }
    lia.
  - intros H. apply nth_error_split in Hi as (l1 & l2 & -> & E). exists l1, l2. split; auto.
    rewrite nth_error_app2 in Hj by lia. replace (j - length l1) with (S (j - S (length l1))) in Hj by lia. eapply nth_error_In; exact Hj.
Qed.

Section F2.
Variable l : list nat.
Hypothesis nodup_l : NoDup l.
Definition labels (fills fp : list (nat * nat)) : Prop :=
  Forall2 (fun f p => nth_error l (fst p) = Some (fst f) /\ nth_error l (snd p) = Some (snd f)) fills fp.
Lemma pos_inj i j x : nth_error l i = Some x -> nth_error l j = Some x -> i = j.
Proof. intros Hi Hj. apply (NoDup_nth_error l); auto; [apply nth_error_Some; congruence|congruence]. Qed.
Lemma labels_mem fills fp : labels fills fp -> forall i j x y, nth_error l i = Some x -> nth_error l j = Some y -> In (i, j) fp <-> In (x, y) fills.
Proof.
  intros HF i j x y Hx Hy. induction HF as [|[a b] [p q] fs ps [Ha Hb] HF IH]; [simpl; tauto|]. simpl in Ha, Hb. simpl. rewrite IH.
  split; (intros [[= -> ->]|H]; [left|right; auto]).
  - congruence.
  - f_equal; eapply pos_inj; eauto.
Qed.
Lemma labels_range fills fp : labels fills fp -> forall i j, In (i, j) fp -> exists x y, nth_error l i = Some x /\ nth_error l j = Some y.
Proof.
  intros HF i j H. induction HF as [|[a b] [p q] fs ps [Ha Hb] HF IH]; [destruct H|]. destruct H as [[= -> ->]|H]; [simpl in *; eauto|auto].
Qed.
Lemma labels_nodup fills fp : labels fills fp -> NoDup fills -> NoDup fp.
Proof.
  intros HF HN. induction HF as [|[a b] [p q] fs ps [Ha Hb] HF IH]; [constructor|]. inversion HN; subst. constructor; auto.
  intros Hin. apply H1. simpl in *. now apply (labels_mem fs ps HF p q a b).
Qed.
End F2.

Lemma relabel (l : list nat) (E : nat -> nat -> Prop) fills fp : NoDup l -> (forall v w, E v w -> In v l /\ In w l) ->
  complete_fill_in E l fills -> labels l fills fp -> complete_fill_in (at_pos l E) (seq 0 (length l)) fp.
Proof.
  intros HN HE [H1 H2 [H3 H4]] HF.
  pose proof (pos_inj l HN) as inj.
  assert (Hfil : forall i j, filled (at_pos l E) (seq 0 (length l)) i j <-> at_pos l (filled E l) i j).
  { intros i j. split.
    - induction 1 as [i j (x & y & Hx & Hy & Hxy)|u i j Hb1 Hb2 Hn _ (xu & x & A1 & A2 & A3) _ (xu' & y & B1 & B2 & B3)].
      + exists x, y. auto using filled_edge.
      + rewrite A1 in B1. injection B1 as <-. exists x, y. refine (conj A2 (conj B2 _)). apply before_seq in Hb1, Hb2.
        apply filled_fill with xu; auto.
        * apply (before_nth l u i xu x HN A1 A2). lia.
        * apply (before_nth l u j xu y HN A1 B2). lia.
        * intros ->. apply Hn. eapply inj; eauto.
    - intros (x & y & Hx & Hy & H). revert i j Hx Hy. induction H as [x y H|u x y Hb1 Hb2 Hn _ IH1 _ IH2]; intros i j Hx Hy.
      + apply filled_edge. exists x, y. auto.
      + assert (Hu : In u l) by (apply before_In in Hb1; tauto). apply In_nth_error in Hu as [k Hk]. apply filled_fill with k.
        * apply before_seq. split; [now apply (before_nth l k i u x HN Hk Hx)|apply nth_error_Some; congruence].
        * apply before_seq. split; [now apply (before_nth l k j u y HN Hk Hy)|apply nth_error_Some; congruence].
        * intros ->. congruence.
        * auto.
        * auto. }
  pose proof (labels_mem l HN fills fp HF) as Hmem. pose proof (labels_range l fills fp HF) as Hran.
  constructor.
  - intros i j. rewrite Hfil. split.
    + intros (x & y & Hx & Hy & H). apply H1 in H as [H|[H|H]].
      * left. exists x, y. auto.
      * right. left. now apply (Hmem i j x y).
      * right. right. now apply (Hmem j i y x).
    + intros [(x & y & Hx & Hy & H)|[H|H]].
      * exists x, y. refine (conj Hx (conj Hy _)). apply H1. auto.
      * destruct (Hran _ _ H) as (x & y & Hx & Hy). exists x, y. refine (conj Hx (conj Hy _)). apply H1. right. left. now apply (Hmem i j x y).
      * destruct (Hran _ _ H) as (y & x & Hy & Hx). exists x, y. refine (conj Hx (conj Hy _)). apply H1. right. right. now apply (Hmem j i y x).
  - intros i j H (x & y & Hx & Hy & He). apply (Hmem i j x y Hx Hy) in H. exact (H2 x y H He).
  - split; [now apply (labels_nodup l HN fills fp)|].
    intros i j H H'. destruct (Hran _ _ H) as (x & y & Hx & Hy). apply (Hmem i j x y Hx Hy) in H. apply (Hmem j i y x Hy Hx) in H'. exact (H4 x y H H').
Qed.

Lemma permuted_find n l i x : NoDup l -> nth_error l i = Some x -> mfind x (permuted n l) = Some (n + i).
Proof.
  intros HN Hx. unfold permuted.
  assert (X : forall l (HN : NoDup l) k m, (forall y, In y l -> mfind y m = None) ->
    forall j y, nth_error l j = Some y -> mfind y (fold_left (fun m ix => mset (snd ix) (n + fst ix) m) (combine (seq k (length l)) l) m) = Some (n + (k + j))).
  { clear. induction l as [|z l IH]; intros HN k m Hm [|j] y Hy; simpl in Hy; try discriminate; inversion HN; subst; simpl.
    - injection Hy as ->. rewrite Nat.add_0_r.
      assert (Y : forall v l k m, ~ In y l -> mfind y m = Some v -> mfind y (fold_left (fun m ix => mset (snd ix) (n + fst ix) m) (combine (seq k (length l)) l) m) = Some v).
      { clear. induction l as [|z l IH]; intros k m Hn Hm; simpl; auto. apply IH; [intros H; apply Hn; right; auto|].
        rewrite mfind_mset_neq; auto. intros ->. apply Hn. left; auto. }
      apply Y; auto. apply mfind_mset_eq.
    - replace (k + S j) with (S k + j) by lia. apply IH; auto. intros y' Hy'. rewrite mfind_mset_neq; [apply Hm; right; auto|]. intros ->. auto. }
  rewrite (X l HN 0 [] (fun _ _ => eq_refl) i x Hx). reflexivity.
Qed.

Lemma before_antisym l x y : NoDup l -> before l x y -> before l y x -> False.
Proof.
  intros HN H1 H2. pose proof (before_In _ _ _ H1) as [Hx Hy]. apply In_nth_error in Hx as [i Hi]. apply In_nth_error in Hy as [j Hj].
  apply (before_nth l i j x y HN Hi Hj) in H1. apply (before_nth l j i y x HN Hj Hi) in H2. lia.
Qed.
Lemma before_filter f l x y : before l x y -> f x = true -> f y = true -> before (filter f l) x y.
Proof.
  intros (l1 & l2 & -> & H) Hx Hy. rewrite filter_app. simpl. rewrite Hx. exists (filter f l1), (filter f l2). split; auto. apply filter_In. auto.
Qed.
Lemma earlier_rev l x y : earlier l x y -> before (rev l) y x.
Proof.
  intros (l1 & l2 & -> & H). rewrite rev_app_distr. simpl. rewrite <- app_assoc. exists (rev l2), (rev l1). split; auto. now apply -> in_rev.
Qed.
Lemma earlier_before l x y : earlier l x y -> before l x y.
Proof.
  intros (l1 & l2 & -> & H). apply in_split in H as (a & b & ->). exists a, (b ++ y :: l2). rewrite <- app_assoc. split; auto.
  apply in_or_app. right. left. auto.
Qed.
Lemma before_app_l a b x y : before a x y -> before (a ++ b) x y.
Proof. intros (l1 & l2 & -> & H). exists l1, (l2 ++ b). rewrite <- app_assoc. split; auto. apply in_or_app; auto. Qed.

(** ** The search tree *)
Section Tree.
Variable pr : nat -> nat.
Variable L : list nat.
Variable bs : list (nat * nat).
Variable r : nat.
Variable adj : nat -> nat -> Prop.
Hypothesis adj_sym : forall x y, adj x y -> adj y x.
Hypothesis adj_irr : forall x, ~ adj x x.
Hypothesis L_nodup : NoDup L.
Hypothesis L_root : In r L.
Hypothesis pr_root : pr r = r.
Hypothesis tree : forall x, In x L -> x <> r -> earlier L (pr x) x /\ adj (pr x) x.
Hypothesis classified : forall x y, In x L -> adj x y -> In y L /\ (pr x = y \/ pr y = x \/ In (x, y) bs \/ In (y, x) bs).
Hypothesis backs : forall x y, In (x, y) bs -> In x L /\ In y L /\ adj x y /\ pr x <> y /\ anc pr x y.

Definition E (x y : nat) : Prop := In x L /\ adj x y.
Lemma E_L x y : E x y -> In x L /\ In y L.
Proof. intros [H1 H2]. split; auto. now apply (classified x y). Qed.
Lemma L_pr x : In x L -> In (pr x) L.
Proof.
  intros Hx. destruct (Nat.eq_dec x r) as [->|Hn]; [now rewrite pr_root|]. destruct (tree x Hx Hn) as [(l1 & l2 & -> & H) _]. apply in_or_app; auto.
Qed.
Lemma pr_neq x : In x L -> x <> r -> pr x <> x.
Proof.
  intros Hx Hn H. destruct (tree x Hx Hn) as [HE _]. rewrite H in HE. apply earlier_before in HE. exact (before_antisym L x x L_nodup HE HE).
Qed.
Lemma anc_root x : In x L -> anc pr x r.
Proof.
  assert (X : forall k x l1 l2, length l1 <= k -> L = l1 ++ x :: l2 -> anc pr x r).
  { induction k as [|k IH]; intros y l1 l2 Hl HL; (destruct (Nat.eq_dec y r) as [->|Hn]; [apply anc_refl|]);
      assert (Hy : In y L) by (rewrite HL; apply in_or_app; right; left; auto);
      destruct (tree y Hy Hn) as [(m1 & m2 & EL & Hin) _]; destruct (NoDup_split_unique L y m1 m2 L_nodup l1 l2 EL HL) as [-> ->].
    - destruct l1; [destruct Hin|simpl in Hl; lia].
    - apply anc_step. apply in_split in Hin as (a & b & ->). apply (IH (pr y) a (b ++ y :: l2)).
      + rewrite app_length in Hl. simpl in Hl. lia.
      + rewrite EL, <- app_assoc. reflexivity. }
  intros Hx. apply in_split in Hx as (l1 & l2 & HL). eapply X; [apply le_n|exact HL].
Qed.
Lemma anc_from_root y : anc pr r y -> y = r.
Proof. intros [k <-]. induction k; simpl; congruence. Qed.

(** the marked nodes *)
Variable cyc : nat -> bool.
Hypothesis cyc_iff : forall y, In y L -> (cyc y = true <-> exists b, In b bs /\ anc pr (fst b) y).
Definition far : list nat := filter (fun x => negb (cyc x)) (rev L).
Definition cyclic : list nat := filter cyc L.

Lemma cyc_up y : In y L -> cyc y = true -> cyc (pr y) = true.
Proof.
  intros Hy Hc. apply cyc_iff in Hc as (b & Hb & k & Hk); auto. apply cyc_iff; [now apply L_pr|]. exists b. split; auto. exists (S k). simpl. now rewrite Hk.
Qed.
Lemma cyc_back x y : In (x, y) bs -> cyc x = true /\ cyc y = true.
Proof.
  intros H. destruct (backs x y H) as (Hx & Hy & _ & _ & Ha). split; apply cyc_iff; auto; exists (x, y); split; auto. apply anc_refl.
Qed.

Lemma far_In x : In x far <-> In x L /\ cyc x = false.
Proof. unfold far. rewrite filter_In, <- in_rev. destruct (cyc x); simpl; intuition congruence. Qed.
Lemma cyclic_In x : In x cyclic <-> In x L /\ cyc x = true.
Proof. apply filter_In. Qed.

Lemma order_ok mid : NoDup mid -> (forall x, In x mid <-> In x cyclic) -> NoDup (far ++ mid) /\ forall x, In x (far ++ mid) <-> In x L.
Proof.
  intros HN HM. split.
  - assert (Hf : NoDup far) by (apply NoDup_filter, NoDup_rev, L_nodup).
    assert (Hd : forall x, In x far -> ~ In x mid) by (intros x H1 H2; apply HM, cyclic_In in H2; apply far_In in H1; intuition congruence).
    revert Hf Hd. generalize far as f. induction f as [|x f IH]; intros Hf Hd; simpl; auto. inversion Hf; subst. constructor.
    + rewrite in_app_iff. intros [H|H]; [auto|]. apply (Hd x); auto. left; auto.
    + apply IH; auto. intros y H. apply Hd. right; auto.
  - intros x. rewrite in_app_iff, far_In, HM, cyclic_In. destruct (cyc x); intuition congruence.
Qed.

Lemma far_one mid : NoDup (far ++ mid) -> forall u v w, In u far -> E u v -> E u w ->
  before (far ++ mid) u v -> before (far ++ mid) u w -> v = w.
Proof.
  intros HN u v w Hu.
  assert (X : forall y, E u y -> before (far ++ mid) u y -> y = pr u).
  { intros y [HuL Ha] Hb. apply far_In in Hu as [_ Hc]. destruct (classified u y HuL Ha) as (HyL & [H|[H|[H|H]]]).
    - auto.
    - exfalso. assert (Hyr : y <> r) by (intros ->; rewrite pr_root in H; subst; now apply (adj_irr u)).
      assert (Hcy : cyc y = false). { destruct (cyc y) eqn:Ec; auto. apply cyc_up in Ec; auto. rewrite H in Ec. congruence. }
      destruct (tree y HyL Hyr) as [He _]. rewrite H in He. apply earlier_rev in He.
      apply (before_filter (fun x => negb (cyc x))) in He; [|now rewrite Hcy|now rewrite Hc].
      apply (before_antisym _ _ _ HN Hb). apply before_app_l. exact He.
    - apply cyc_back in H as [H _]. congruence.
    - apply cyc_back in H as [_ H]. congruence. }
  intros H1 H2 B1 B2. rewrite (X v), (X w); auto.
Qed.

Lemma finish_order mid fills fp : NoDup mid -> (forall x, In x mid <-> In x cyclic) ->
  complete_fill_in (Em E mid) mid fills -> labels (far ++ mid) fills fp ->
  NoDup (far ++ mid) /\ (forall x, In x (far ++ mid) <-> In x L) /\ complete_fill_in (at_pos (far ++ mid) E) (seq 0 (length (far ++ mid))) fp.
Proof.
  intros HN HM HC HF. destruct (order_ok mid HN HM) as [H1 H2]. refine (conj H1 (conj H2 _)).
  assert (HE : forall v w, E v w -> In v (far ++ mid) /\ In w (far ++ mid)) by (intros v w H; rewrite !H2; now apply E_L).
  apply relabel with fills; auto. apply complete_app; auto. apply far_one; auto.
Qed.

(** no cycles *)
Lemma radial_ok : bs = [] -> (far = rev L) /\ cyclic = [].
Proof.
  intros Hb. assert (Hc : forall x, In x L -> cyc x = false).
  { intros x Hx. destruct (cyc x) eqn:Ec; auto. apply cyc_iff in Ec as (b & H & _); auto. rewrite Hb in H. destruct H. }
  split.
  - unfold far. assert (H : forall x, In x (rev L) -> cyc x = false) by (intros x Hx; apply Hc; now apply in_rev).
    revert H. generalize (rev L) as l. induction l as [|x l IH]; intros H; simpl; auto. rewrite H by (left; auto). simpl. f_equal. apply IH. intros; apply H; right; auto.
  - unfold cyclic. revert Hc. generalize L as l. induction l as [|x l IH]; intros H; simpl; auto. rewrite H by (left; auto). apply IH. intros; apply H; right; auto.
Qed.

(** three marked nodes at most: a triangle *)
Lemma triangle : bs <> [] -> length cyclic < 4 -> forall v w, In v cyclic -> In w cyclic -> v <> w -> adj v w.
Proof.
  intros Hb Hlen. destruct bs as [|[x y] bs'] eqn:Ebs; [congruence|]. rewrite <- Ebs in *.
  assert (Hxy : In (x, y) bs) by (rewrite Ebs; left; auto). clear Ebs bs' Hb.
  destruct (backs x y Hxy) as (Hx & Hy & Ha & Hne & Hanc). destruct (cyc_back x y Hxy) as [Cx Cy].
  assert (Hxr : x <> r) by (intros ->; apply anc_from_root in Hanc; subst; now apply (adj_irr r)).
  assert (Nxy : x <> y) by (intros ->; now apply (adj_irr y)).
  assert (Nxp : x <> pr x) by (intros H; symmetry in H; now apply (pr_neq x)).
  assert (Hp : In (pr x) L) by (now apply L_pr). assert (Cp : cyc (pr x) = true) by (now apply cyc_up).
  assert (Hall : forall z, In z cyclic -> z = x \/ z = pr x \/ z = y).
  { intros z Hz. destruct (Nat.eq_dec z x); auto. destruct (Nat.eq_dec z (pr x)); auto. destruct (Nat.eq_dec z y); auto. exfalso.
    assert (HN4 : NoDup [z; x; pr x; y]).
    { constructor; [simpl; intros [H|[H|[H|[]]]]; congruence|]. constructor; [simpl; intros [H|[H|[]]]; congruence|].
      constructor; [simpl; intros [H|[]]; congruence|]. constructor; [simpl; tauto|constructor]. }
    apply NoDup_incl_length with (l' := cyclic) in HN4; [simpl in HN4; lia|].
    intros t [<-|[<-|[<-|[<-|[]]]]]; auto; apply cyclic_In; auto. }
  apply anc_inv in Hanc as [?|Hanc]; [congruence|].
  (* the predecessor of [pr x] is [y] *)
  assert (Hpp : pr (pr x) = y).
  { apply anc_inv in Hanc as [?|Hanc]; [congruence|].
    assert (Hpr : pr x <> r). { intros H. rewrite H, pr_root in Hanc. apply anc_from_root in Hanc. congruence. }
    assert (Hc : In (pr (pr x)) cyclic) by (apply cyclic_In; split; [now apply L_pr|now apply cyc_up]).
    destruct (Hall _ Hc) as [H|[H|H]]; auto.
    - exfalso. destruct (tree x Hx Hxr) as [E1 _]. destruct (tree (pr x) Hp Hpr) as [E2 _]. rewrite H in E2.
      apply earlier_before in E1, E2. exact (before_antisym L _ _ L_nodup E1 E2).
    - exfalso. now apply (pr_neq (pr x)). }
  assert (Hpr : pr x <> r). { intros H. rewrite H, pr_root in Hpp. congruence. }
  assert (A1 : adj (pr x) x) by (now apply tree). assert (A2 : adj y (pr x)) by (rewrite <- Hpp; now apply tree).
  intros v w Hv Hw Hn. destruct (Hall v Hv) as [->|[->| ->]]; destruct (Hall w Hw) as [->|[->| ->]]; auto; congruence.
Qed.

(** the graph handed to the minimum degree ordering *)
Lemma nearest_spec : let d := nearest_neighbours pr cyclic bs in
  msorted d /\ (forall x, V d x <-> (In x cyclic /\ x <> r) \/ exists y, In (x, y) bs) /\
  (forall v w, G d v w <-> (In v cyclic /\ v <> r /\ w = pr v) \/ In (v, w) bs).
Proof.
  cbn zeta. unfold nearest_neighbours.
  assert (X : forall l d, (forall x, In x l -> In x L) -> (forall x, In x l -> mfind x d = None) -> NoDup l ->
    let d' := fold_left (fun d x => if pr x =? x then d else mset x [pr x] d) l d in
    (msorted d -> msorted d') /\ forall x, mfind x d' = if in_dec Nat.eq_dec x l then (if x =? r then None else Some [pr x]) else mfind x d).
  { induction l as [|z l IH]; intros d Hl Hm HN; cbn zeta; [simpl; auto|]. inversion HN; subst. cbn [fold_left].
    set (d1 := if pr z =? z then d else mset z [pr z] d).
    assert (Hd1 : forall x, mfind x d1 = if x =? z then (if z =? r then None else Some [pr z]) else mfind x d).
    { intros x. unfold d1. destruct (Nat.eqb_spec (pr z) z) as [Ez|Ez].
      - assert (z = r) as ->. { destruct (Nat.eq_dec z r); auto. exfalso. apply (pr_neq z); auto. apply Hl. left; auto. }
        rewrite Nat.eqb_refl. destruct (Nat.eqb_spec x r); auto. subst. apply Hm. left; auto.
      - destruct (Nat.eqb_spec z r) as [->|]; [congruence|]. destruct (Nat.eqb_spec x z) as [->|]; [apply mfind_mset_eq|now apply mfind_mset_neq]. }
    destruct (IH d1) as [A1 A2]; auto.
    { intros x Hx. apply Hl. right; auto. }
    { intros x Hx. rewrite Hd1. destruct (Nat.eqb_spec x z); [subst; tauto|]. apply Hm. right; auto. }
    split.
    - intros HS. apply A1. unfold d1. destruct (pr z =? z); auto. now apply msorted_mset.
    - intros x. rewrite A2. destruct (in_dec Nat.eq_dec x (z :: l)) as [Hi|Hi]; destruct (in_dec Nat.eq_dec x l) as [Hj|Hj]; auto.
      + destruct Hi as [<-|]; [|tauto]. rewrite Hd1, Nat.eqb_refl. auto.
      + exfalso. apply Hi. right; auto.
      + rewrite Hd1. destruct (Nat.eqb_spec x z); auto. subst. exfalso. apply Hi. left; auto. }
  destruct (X cyclic []) as [A1 A2].
  { intros x Hx. apply cyclic_In in Hx. tauto. }
  { reflexivity. }
  { apply NoDup_filter, L_nodup. }
  set (d0 := fold_left _ cyclic []) in *.
  assert (S0 : msorted d0) by (apply A1; constructor).
  assert (V0 : forall x, V d0 x <-> In x cyclic /\ x <> r).
  { intros x. rewrite V_find, A2. destruct (in_dec Nat.eq_dec x cyclic); [|split; [intros (? & ?); discriminate|tauto]].
    destruct (Nat.eqb_spec x r); [split; [intros (? & ?); discriminate|tauto]|]. split; eauto. }
  assert (G0 : forall v w, G d0 v w <-> In v cyclic /\ v <> r /\ w = pr v).
  { intros v w. unfold G. rewrite A2. destruct (in_dec Nat.eq_dec v cyclic); [|split; [intros (? & ? & ?); discriminate|tauto]].
    destruct (Nat.eqb_spec v r); [split; [intros (? & ? & ?); discriminate|tauto]|]. split.
    - intros (l & [= <-] & [H|[]]). auto.
    - intros (_ & _ & ->). eexists. split; [reflexivity|left; auto]. }
  assert (Y : forall bl d, let d' := fold_left (fun d b => if in_graph (fst b) (snd b) d then d else push (fst b) (snd b) d) bl d in
    (msorted d -> msorted d') /\ (forall x, V d' x <-> V d x \/ exists y, In (x, y) bl) /\ (forall v w, G d' v w <-> G d v w \/ In (v, w) bl)).
  { clear. induction bl as [|[a b] bl IH]; intros d; cbn zeta.
    { simpl. refine (conj (fun H => H) (conj _ _)); intros; [|tauto]. split; auto. intros [H|(? & [])]; auto. }
    cbn [fold_left fst snd]. set (d1 := if in_graph a b d then d else push a b d).
    assert (B : (msorted d -> msorted d1) /\ (forall x, V d1 x <-> V d x \/ x = a) /\ (forall v w, G d1 v w <-> G d v w \/ (v = a /\ w = b))).
    { unfold d1. destruct (in_graph a b d) eqn:Eg.
      - apply in_graph_G in Eg. refine (conj (fun H => H) (conj _ _)).
        + intros x. split; auto. intros [H| ->]; auto. exact (G_V _ _ _ Eg).
        + intros v w. split; auto. intros [H|[-> ->]]; auto.
      - refine (conj (fun H => msorted_mset _ _ _ H) (conj _ _)); intros; [rewrite push_V; tauto|apply push_G]. }
    destruct B as (B1 & B2 & B3). destruct (IH d1) as (C1 & C2 & C3). refine (conj _ (conj _ _)); auto.
    - intros x. rewrite C2, B2. simpl. split.
      + intros [[H| ->]|(y & H)]; eauto.
      + intros [H|(y & [[= -> ->]|H])]; eauto.
    - intros v w. rewrite C3, B3. simpl. intuition congruence. }
  destruct (Y bs d0) as (C1 & C2 & C3). refine (conj (C1 S0) (conj _ _)).
  - intros x. rewrite C2, V0. tauto.
  - intros v w. rewrite C3, G0. tauto.
Qed.

Lemma nearest_pattern v w : pattern (nearest_neighbours pr cyclic bs) v w <-> Em E cyclic v w.
Proof.
  destruct nearest_spec as (S & _ & HG). unfold pattern, Em, E. rewrite !given_G, !HG by auto. rewrite !cyclic_In.
  assert (A : forall v w, (In v L /\ cyc v = true) /\ v <> r /\ w = pr v \/ In (v, w) bs -> (In v L /\ cyc v = true) /\ (In w L /\ cyc w = true) /\ adj v w).
  { intros a b [((H1 & H2) & H3 & ->)|H].
    - refine (conj (conj H1 H2) (conj (conj (L_pr _ H1) (cyc_up _ H1 H2)) _)). apply adj_sym. now apply tree.
    - destruct (backs a b H) as (H1 & H2 & H3 & _). destruct (cyc_back a b H). auto. }
  split.
  - intros [H|H].
    + destruct (A v w H) as (H1 & H2 & H3). tauto.
    + destruct (A w v H) as (H1 & H2 & H3). apply adj_sym in H3. tauto.
  - intros ((H1 & H2) & (H3 & H4) & _ & Ha). destruct (classified v w H1 Ha) as (_ & [H|[H|[H|H]]]); auto.
    + left. left. refine (conj (conj H1 H2) (conj _ (eq_sym H))). intros ->. rewrite pr_root in H. subst. now apply (adj_irr w).
    + right. left. refine (conj (conj H3 H4) (conj _ (eq_sym H))). intros ->. rewrite pr_root in H. subst. now apply (adj_irr v).
Qed.

Lemma complete_ext (E1 E2 : nat -> nat -> Prop) l1 l2 fills : (forall v w, E1 v w <-> E2 v w) -> (forall x y, before l1 x y <-> before l2 x y) ->
  complete_fill_in E1 l1 fills -> complete_fill_in E2 l2 fills.
Proof.
  intros HE HB [H1 H2 H3].
  assert (Hf : forall v w, filled E1 l1 v w <-> filled E2 l2 v w).
  { intros v w. split.
    - induction 1 as [v w H|u v w B1 B2 Hn _ IH1 _ IH2]; [apply filled_edge; now apply HE|]. apply filled_fill with u; auto; now apply HB.
    - induction 1 as [v w H|u v w B1 B2 Hn _ IH1 _ IH2]; [apply filled_edge; now apply HE|]. apply filled_fill with u; auto; now apply HB. }
  constructor; auto.
  - intros v w. rewrite <- Hf, <- HE. apply H1.
  - intros v w H He. apply (H2 v w H). now apply HE.
Qed.

Lemma ordering_ok : bs <> [] -> exists reordered fills,
  minimum_degree_ordering (nearest_neighbours pr cyclic bs) = Some (reordered, fills) /\ NoDup reordered /\
  (forall x, In x reordered <-> In x cyclic) /\ complete_fill_in (Em E reordered) reordered fills.
Proof.
  intros Hb. destruct nearest_spec as (S & HV & HG). set (d := nearest_neighbours pr cyclic bs) in *.
  assert (Hp : forall v w, pattern d v w <-> Em E cyclic v w) by (exact nearest_pattern).
  destruct (C18_ordering d) as (reordered & fills & H1 & H2 & H3 & H4).
  - exact S.
  - intros v Hv. assert (H : pattern d v v) by (left; auto). apply Hp in H as (_ & _ & _ & H). now apply (adj_irr v).
  - left. destruct bs as [|[x y] bs'] eqn:Ebs; [congruence|]. exists x, y. apply given_G; auto. apply HG. right. left; auto.
  - exists reordered, fills. refine (conj H1 (conj H2 _)).
    assert (HR : forall x, In x reordered <-> In x cyclic).
    { intros x. rewrite H3. change (In x (map fst d)) with (V d x). rewrite HV. setoid_rewrite Hp. split.
      - intros [[[H _]|(y & H)]|(w & H & _)]; auto. apply cyclic_In. destruct (backs x y H) as (Hx & _). destruct (cyc_back x y H). auto.
      - intros Hx. destruct (Nat.eq_dec x r) as [->|Hn]; [|auto]. right.
        (* a node of the cycle whose predecessor is the root *)
        destruct bs as [|[a b] bs'] eqn:Ebs; [congruence|]. rewrite <- Ebs in *. assert (Hab : In (a, b) bs) by (rewrite Ebs; left; auto).
        destruct (backs a b Hab) as (Ha & Hb' & Hadj & _ & Hanc). destruct (cyc_back a b Hab) as [Ca _].
        assert (Har : a <> r) by (intros ->; apply anc_from_root in Hanc; subst; now apply (adj_irr r)).
        destruct (anc_root a Ha) as [k Hk].
        assert (X : forall k a, In a L -> cyc a = true -> a <> r -> Nat.iter k pr a = r -> exists z, In z L /\ cyc z = true /\ z <> r /\ pr z = r).
        { pose proof L_pr as LP. pose proof cyc_up as CU. clear - LP CU. induction k as [|k IH]; intros a Ha Ca Hn Hk; simpl in Hk; [congruence|].
          destruct (Nat.eq_dec (Nat.iter k pr a) r) as [E|E]; [eauto|].
          exists (Nat.iter k pr a). refine (conj _ (conj _ (conj E Hk))).
          - clear - Ha LP. induction k; simpl; auto.
          - assert (In (Nat.iter k pr a) L /\ cyc (Nat.iter k pr a) = true) as [_ ?]; auto.
            clear - Ha Ca LP CU. induction k as [|k [I1 I2]]; simpl; auto. }
        destruct (X k a Ha Ca Har Hk) as (z & Hz1 & Hz2 & Hz3 & Hz4). exists z. apply cyclic_In in Hx as [Hr1 Hr2].
        refine (conj _ (conj _ (conj Hr1 _))); [now apply cyclic_In|now apply cyclic_In|]. rewrite <- Hz4. now apply tree. }
    split; [exact HR|]. revert H4. apply complete_ext; [|tauto]. intros v w. rewrite Hp. unfold Em. rewrite !HR. tauto.
Qed.
End Tree.

Section Reorder.
Variable pr : nat -> nat.
Variable L : list nat.
Variable bs : list (nat * nat).
Variable r : nat.
Variable adj : nat -> nat -> Prop.
Hypothesis adj_sym : forall x y, adj x y -> adj y x.
Hypothesis adj_irr : forall x, ~ adj x x.
Hypothesis L_nodup : NoDup L.
Hypothesis L_root : In r L.
Hypothesis pr_root : pr r = r.
Hypothesis tree : forall x, In x L -> x <> r -> earlier L (pr x) x /\ adj (pr x) x.
Hypothesis classified : forall x y, In x L -> adj x y -> In y L /\ (pr x = y \/ pr y = x \/ In (x, y) bs \/ In (y, x) bs).
Hypothesis backs : forall x y, In (x, y) bs -> In x L /\ In y L /\ adj x y /\ pr x <> y /\ anc pr x y.

Definition numbered (l : list nat) (fills : list (nat * nat)) : Prop :=
  NoDup l /\ (forall x, In x l <-> In x L) /\ complete_fill_in (at_pos l adj) (seq 0 (length l)) fills.

Lemma at_pos_E l i j : (forall x, In x l <-> In x L) -> at_pos l (E L adj) i j <-> at_pos l adj i j.
Proof.
  intros HL. unfold at_pos, E. split; intros (x & y & H1 & H2 & H3); exists x, y; refine (conj H1 (conj H2 _)); [tauto|].
  split; auto. apply HL. now apply nth_error_In in H1.
Qed.

Lemma radial_spec : bs = [] -> numbered (rev L) [].
Proof.
  intros Hb.
  assert (HI : forall y, In y L -> (false = true <-> exists b, In b bs /\ anc pr (fst b) y)).
  { intros y _. rewrite Hb. split; [discriminate|intros (? & [] & _)]. }
  destruct (radial_ok pr L bs (fun _ => false) HI Hb) as [Hf Hc].
  destruct (finish_order pr L bs r adj adj_irr L_nodup L_root pr_root tree classified backs (fun _ => false) HI [] [] []) as (H1 & H2 & H3).
  - constructor.
  - intros x. rewrite Hc. tauto.
  - constructor; [|intros ? ? []|split; [constructor|intros ? ? []]]. intros v w. split; [|intros [H|[[]|[]]]; now apply filled_edge].
    induction 1 as [v w H|u v w (l1 & l2 & B & _) _ _ _ _ _ _]; auto. destruct l1; discriminate.
  - constructor.
  - rewrite Hf, app_nil_r in *. refine (conj H1 (conj H2 _)).
    revert H3. apply complete_ext; [|tauto]. intros v w. now apply at_pos_E.
Qed.

Lemma reorder_spec fuel cyc : bs <> [] -> length L < fuel -> (forall x, In x L -> cyc x = false) ->
  exists l fills cyc', reorder_node fuel pr L bs cyc = Some (l, fills, cyc') /\ numbered l fills /\ forall x, ~ In x L -> cyc' x = cyc x.
Proof.
  intros Hb Hf Hc. unfold reorder_node.
  assert (LP : forall x, In x L -> In (pr x) L) by (exact (L_pr pr L bs r adj L_nodup L_root pr_root tree classified backs)).
  destruct (mark_all_spec pr L LP fuel bs cyc) as (c & -> & HU & HS).
  { intros [x y] H. apply (backs x y H). }
  { lia. }
  { intros y Hy H. rewrite Hc in H by auto. discriminate. }
  assert (HI : forall y, In y L -> (c y = true <-> exists b, In b bs /\ anc pr (fst b) y)).
  { intros y Hy. rewrite HS, (Hc y Hy). split; [intros [H|H]; [discriminate|auto]|auto]. }
  assert (HO : forall x, ~ In x L -> c x = cyc x).
  { intros x Hx. destruct (cyc x) eqn:E1; [apply HS; auto|]. destruct (c x) eqn:E2; auto. exfalso.
    apply HS in E2 as [E2|(b & Hin & Ha)]; [congruence|]. apply Hx. apply (anc_L pr L LP (fst b)); auto. destruct b as [u v]. apply (backs u v Hin). }
  pose proof (finish_order pr L bs r adj adj_irr L_nodup L_root pr_root tree classified backs c HI) as FIN.
  pose proof (order_ok L L_nodup c) as OK.
  unfold far in *. set (f := filter (fun x => negb (c x)) (rev L)) in *. change (filter c L) with (cyclic L c).
  destruct (Nat.ltb_spec (length (cyclic L c)) 4) as [H4|H4].
  - exists (f ++ rev (cyclic L c)), [], c. refine (conj eq_refl (conj _ HO)).
    destruct (FIN (rev (cyclic L c)) [] []) as (H1 & H2 & H3).
    + apply NoDup_rev, NoDup_filter, L_nodup.
    + intros x. now rewrite <- in_rev.
    + pose proof (triangle pr L bs r adj adj_sym adj_irr L_nodup L_root pr_root tree classified backs c HI Hb H4) as HT.
      constructor; [|intros ? ? []|split; [constructor|intros ? ? []]]. intros v w. split; [|intros [H|[[]|[]]]; now apply filled_edge].
      intros H. left. assert (X : forall v, In v (rev (cyclic L c)) -> In v (cyclic L c) /\ In v L).
      { intros z Hz. apply in_rev in Hz. split; auto. apply filter_In in Hz. tauto. }
      induction H as [v w H|u v w H1 H2 Hn _ _ _ _]; auto.
      apply before_In in H1 as [_ H1]. apply before_In in H2 as [_ H2]. refine (conj H1 (conj H2 (conj _ _))); [now apply X|].
      apply X in H1. apply X in H2. apply HT; tauto.
    + constructor.
    + refine (conj H1 (conj H2 _)). revert H3. apply complete_ext; [|tauto]. intros v w. now apply at_pos_E.
  - destruct (ordering_ok pr L bs r adj adj_sym adj_irr L_nodup L_root pr_root tree classified backs c HI Hb) as (ro & fills & -> & HN & HR & HC).
    eexists _, _, c. refine (conj eq_refl (conj _ HO)).
    destruct (OK ro HN HR) as [N1 N2].
    match goal with |- numbered _ ?fp => destruct (FIN ro fills fp HN HR HC) as (H1 & H2 & H3) end.
    + assert (HIN : forall v w, In (v, w) fills -> In v ro /\ In w ro).
      { intros v w H. assert (HF : filled (Em (E L adj) ro) ro v w) by (apply (fill_exact _ _ _ HC); auto).
        destruct HF as [v w (A & B & _)|u v w A B _ _ _]; auto. apply before_In in A. apply before_In in B. tauto. }
      unfold labels. clear HC FIN. revert HIN. induction fills as [|[v w] fs IH]; intros HIN; simpl; constructor.
      * simpl. assert (X : forall v, In v ro -> nth_error (f ++ ro) (map_at (permuted (length f) ro) v) = Some v).
        { intros z Hz. apply In_nth_error in Hz as [i Hi]. unfold map_at. rewrite (permuted_find _ _ i z); auto.
          rewrite nth_error_app2 by lia. now replace (length f + i - length f) with i by lia. }
        destruct (HIN v w (or_introl eq_refl)). auto.
      * apply IH. intros a b H. apply HIN. right; auto.
    + refine (conj H1 (conj H2 _)). revert H3. apply complete_ext; [|tauto]. intros v w. now apply at_pos_E.
Qed.
End Reorder.
