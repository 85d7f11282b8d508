(** The loop of the minimum degree ordering: invariant and result. *)
From Verif Require Import Common NatMap SparseOrdering SparseOrderingSpec SparseOrderingFacts.

Section Loop.
Variable edge : nat -> nat -> Prop.
Variable V0 : nat -> Prop.

(** [x] has been eliminated, and [y] had not been then. *)
Definition bef (al : list nat) (x y : nat) : Prop := exists l1 l2, al = l1 ++ x :: l2 /\ ~ In y (l1 ++ [x]) /\ V0 y.
Inductive fil (al : list nat) : nat -> nat -> Prop :=
| fil_edge v w : edge v w -> fil al v w
| fil_fill u v w : bef al u v -> bef al u w -> v <> w -> fil al u v -> fil al u w -> fil al v w.
Definition F (fills : list (nat * nat)) (v w : nat) : Prop := edge v w \/ In (v, w) fills \/ In (w, v) fills.

Record inv (d : graph) (al : list nat) (fills : list (nat * nat)) : Prop := {
  inv_wf : wf d;
  inv_nodup : NoDup al;
  inv_disj : forall x, In x al -> ~ V d x;
  inv_all : forall x, V0 x <-> In x al \/ V d x;
  inv_G : forall v w, V d v -> V d w -> (F fills v w <-> G d v w);
  inv_closed : forall l1 u l2 v w, al = l1 ++ u :: l2 -> v <> w -> ~ In v (l1 ++ [u]) -> ~ In w (l1 ++ [u]) ->
    F fills u v -> F fills u w -> F fills v w;
  inv_sound : forall v w, F fills v w -> fil al v w;
  inv_once : unordered_once fills;
  inv_new : forall v w, In (v, w) fills -> V0 v /\ V0 w /\ v <> w /\ ~ edge v w /\ ~ edge w v }.

Lemma bef_app al l x y : bef al x y -> bef (al ++ l) x y.
Proof. intros (l1 & l2 & -> & H & H'). exists l1, (l2 ++ l). rewrite <- app_assoc. auto. Qed.
Lemma fil_app al l v w : fil al v w -> fil (al ++ l) v w.
Proof. induction 1; [now apply fil_edge|]. eapply fil_fill; eauto using bef_app. Qed.

Hypothesis edge_sym : forall v w, edge v w -> edge w v.
Hypothesis edge_irr : forall v, ~ edge v v.
Hypothesis edge_V : forall v w, edge v w -> V0 v.

Lemma F_sym fills v w : F fills v w -> F fills w v.
Proof. unfold F. intuition. Qed.
Lemma fil_sym al v w : fil al v w -> fil al w v.
Proof. induction 1; [apply fil_edge; auto|]. eapply fil_fill; eauto. Qed.

Lemma app_cons_cases {A} (al bl l1 l2 : list A) u : al ++ bl = l1 ++ u :: l2 ->
  (exists m, al = l1 ++ u :: m) \/ (exists m, l1 = al ++ m /\ bl = m ++ u :: l2).
Proof.
  revert l1. induction al as [|a al IH]; intros l1 E; simpl in *; [right; exists l1; auto|].
  destruct l1 as [|b l1]; simpl in E; injection E as -> E; [left; exists al; auto|].
  destruct (IH _ E) as [(m & ->)|(m & -> & ->)]; [left; exists m; auto|right; exists m; auto].
Qed.

Lemma inv_step u d d' rl Fn al fills : inv d al fills -> V d u -> step_result u d d' rl Fn ->
  inv d' (al ++ u :: rl) (fills ++ Fn).
Proof.
  intros [HW HN HD HA HG HC HS HO HNew] Hu [RW [RN RU] RT RV RG [RO RF] RGF _].
  assert (HF : forall v w, F (fills ++ Fn) v w <-> F fills v w \/ In (v, w) Fn \/ In (w, v) Fn).
  { intros v w. unfold F. rewrite !in_app_iff. tauto. }
  assert (HFV : forall v w, F fills v w -> V0 v /\ V0 w).
  { intros v w [H|[H|H]]; [split; [eapply edge_V; eauto|eapply edge_V, edge_sym; eauto]| |]; apply HNew in H; tauto. }
  assert (HVd' : forall x, V d' x -> ~ In x al /\ V d x) by (intros x H; apply RV in H as (H & _); split; auto; intros ?; now apply (HD x)).
  assert (HFn : forall v w, In (v, w) Fn \/ In (w, v) Fn -> V d' v /\ V d' w /\ v <> w /\ G d u v /\ G d u w /\ ~ G d v w).
  { intros v w [H|H]; apply RF in H as (H1 & H2 & H3 & H4 & H5 & H6); repeat split; auto. intros X. apply H4. now apply wf_sym. }
  assert (Hual : ~ In u al) by (intros H; now apply (HD u)).
  assert (HrlV : forall v, In v rl -> V d v). { intros v Hv. apply RT in Hv as [Hv _]. eapply G_V2; eauto. }
  (* two rows coupled to u or to a twin of u, both not eliminated before *)
  assert (Hpair : forall v w, G d u v -> G d u w -> v <> w -> F (fills ++ Fn) v w).
  { intros v w Hv Hw Hn. pose proof (G_V2 _ _ _ HW Hv) as Vv. pose proof (G_V2 _ _ _ HW Hw) as Vw.
    assert (Hvu : v <> u) by (intros ->; now apply (wf_irr d HW u)). assert (Hwu : w <> u) by (intros ->; now apply (wf_irr d HW u)).
    destruct (in_dec Nat.eq_dec v rl) as [Hr|Hr].
    { apply HF. left. apply HG; auto. apply RT in Hr as [_ Hr]. destruct (proj1 (Hr w) (or_introl Hw)) as [?| ->]; [auto|congruence]. }
    destruct (in_dec Nat.eq_dec w rl) as [Hr'|Hr'].
    { apply HF. left. apply HG; auto. apply RT in Hr' as [_ Hr']. apply wf_sym; auto. destruct (proj1 (Hr' v) (or_introl Hv)) as [?| ->]; [auto|congruence]. }
    assert (Vv' : V d' v) by (apply RV; auto). assert (Vw' : V d' w) by (apply RV; auto).
    assert (G d' v w) by (apply RG; auto 8). apply RGF in H; auto. apply HF. destruct H as [H|H]; auto. left. apply HG; auto. }
  constructor; auto.
  - (* NoDup *)
    assert (X : forall l : list nat, NoDup l -> forall a : list nat, NoDup a -> (forall x, In x l -> ~ In x a) -> NoDup (a ++ l)).
    { clear. intros l Hl a Ha. induction a as [|y a IH]; intros Hx; simpl; auto. inversion Ha; subst. constructor.
      - rewrite in_app_iff. intros [?|H]; [auto|]. apply (Hx y H). left; auto.
      - apply IH; auto. intros x Hxl Hxa. apply (Hx x Hxl). right; auto. }
    apply X; auto; [constructor; auto|]. intros x [<-|Hx]; auto. intros Hal. apply (HD x Hal). auto.
  - intros x Hx Hv. apply HVd' in Hv as Hv2. apply RV in Hv as (_ & Hv & Hv'). apply in_app_iff in Hx as [Hx|[Hx|Hx]]; [tauto|congruence|auto].
  - intros x. rewrite HA, RV, in_app_iff. simpl. split.
    + intros [H|H]; auto. destruct (Nat.eq_dec u x); auto. destruct (in_dec Nat.eq_dec x rl); auto.
    + intros [[H|[<-|H]]|[H _]]; auto.
  - intros v w Hv Hw. rewrite HF. rewrite RGF by auto. rewrite HG; [tauto| |]; apply HVd'; auto.
  - intros l1 x l2 v w E Hn Hv Hw Hxv Hxw.
    assert (Hnal : forall y, In x al -> F (fills ++ Fn) x y -> F fills x y).
    { intros y Hx H. apply HF in H as [H|H]; auto. apply HFn in H as (H & _). apply HVd' in H. tauto. }
    apply app_cons_cases in E as [(m & E)|(m & -> & E)].
    + assert (Hx : In x al) by (rewrite E; apply in_or_app; right; left; auto).
      apply HF. left. eapply HC; eauto.
    + (* x = u or a twin *)
      assert (Hsame : In x (u :: rl)) by (rewrite E; apply in_or_app; right; left; auto).
      assert (HxV : V d x) by (destruct Hsame as [<-|Hsame]; auto).
      assert (Hxu : forall y, ~ In y ((al ++ m) ++ [x]) -> F (fills ++ Fn) x y -> G d u y).
      { intros y Hy H. assert (Hx' : ~ V d' x) by (rewrite RV; destruct Hsame as [<-|Hsame]; tauto).
        apply HF in H as [H|H]; [|apply HFn in H; tauto].
        assert (Hyn : ~ In y al /\ (y <> u)).
        { split; [intros ?; apply Hy; rewrite !in_app_iff; auto|]. intros ->. apply Hy. rewrite !in_app_iff.
          destruct m as [|m0 m]; simpl in E; injection E as <- E; [right; left; auto|left; right; left; auto]. }
        assert (Vy : V d y). { destruct (HFV _ _ H) as [_ H']. apply HA in H' as [H'|H']; tauto. }
        apply HG in H; auto. destruct Hsame as [<-|Hsame]; auto. apply RT in Hsame as [_ Hsame].
        destruct (proj2 (Hsame y) (or_introl H)); tauto. }
      apply Hpair; auto.
  - intros v w H. apply HF in H as [H|H]; [apply fil_app; auto|]. apply HFn in H as (H1 & H2 & H3 & H4 & H5 & _).
    assert (Hb : forall y, V d' y -> bef (al ++ u :: rl) u y).
    { intros y Hy. exists al, rl. split; auto. apply HVd' in Hy as Hy'. apply RV in Hy as (? & ? & ?). split; [|apply HA; auto].
      rewrite in_app_iff. simpl. intuition congruence. }
    apply fil_fill with u; auto.
    + apply fil_app, HS, HG; auto. apply HVd'; auto.
    + apply fil_app, HS, HG; auto. apply HVd'; auto.
  - destruct HO as [HO1 HO2], RO as [RO1 RO2].
    assert (X : forall v w, In (v, w) Fn -> ~ F fills v w).
    { intros v w H H'. apply RF in H as (H1 & H2 & _ & H3 & _). apply H3. apply HG; auto; apply HVd'; auto. }
    split.
    + clear - HO1 RO1 X. induction fills as [|[v w] f IH]; simpl; auto. inversion HO1; subst. constructor.
      * rewrite in_app_iff. intros [?|H]; [auto|]. apply (X _ _ H). right. left. left. auto.
      * apply IH; auto. intros a b H H'. apply (X _ _ H). unfold F in *. simpl. intuition.
    + intros v w H H'. apply in_app_iff in H as [H|H]; apply in_app_iff in H' as [H'|H'].
      * now apply (HO2 v w).
      * apply (X _ _ H'). right. right. auto.
      * apply (X _ _ H). right. right. auto.
      * now apply (RO2 v w).
  - intros v w H. apply in_app_iff in H as [H|H]; [auto|]. pose proof H as H0. apply RF in H as (H1 & H2 & H3 & H4 & _).
    apply HVd' in H1 as [_ H1]; apply HVd' in H2 as [_ H2]. rewrite !HA. split; [auto|split; [auto|split; [auto|]]].
    assert (X : ~ edge v w) by (intros H; apply H4, HG; auto; left; auto). split; auto.
Qed.

Lemma two_vertices d : wf d -> length d = 2 -> (exists v w, G d v w) ->
  exists a b, d = [(a, [b]); (b, [a])] /\ a <> b.
Proof.
  intros HW HL (v & w & H). destruct d as [|[a la] [|[b lb] [|? ?]]]; simpl in HL; try lia. exists a, b.
  pose proof (wf_sorted _ HW) as HS. unfold msorted in HS. simpl in HS. inversion HS as [|? ? _ HF]; subst. inversion HF as [|? ? Hab _]; subst.
  assert (Ha : mfind a [(a, la); (b, lb)] = Some la) by (simpl; now rewrite Nat.eqb_refl).
  assert (Hb : mfind b [(a, la); (b, lb)] = Some lb) by (simpl; destruct (Nat.eqb_spec b a); [lia|now rewrite Nat.eqb_refl]).
  assert (HVV : forall x y, G [(a, la); (b, lb)] x y -> x = a /\ y = b \/ x = b /\ y = a).
  { intros x y Hg. pose proof (G_V _ _ _ Hg) as H1. pose proof (G_V2 _ _ _ HW Hg) as H2. unfold V in H1, H2. simpl in H1, H2.
    destruct H1 as [<-|[<-|[]]], H2 as [<-|[<-|[]]]; auto; exfalso; now apply (wf_irr _ HW _ Hg). }
  assert (Hg : G [(a, la); (b, lb)] a b /\ G [(a, la); (b, lb)] b a).
  { destruct (HVV _ _ H) as [[-> ->]|[-> ->]]; split; auto; now apply wf_sym. }
  destruct Hg as [Hg1 Hg2]. split; [|lia].
  assert (la = [b]).
  { apply (G_find _ _ _ _ Ha) in Hg1. apply Permutation_length_1_inv. apply NoDup_Permutation; [repeat constructor; simpl; tauto|exact (wf_nodup _ HW _ _ Ha)|].
    intros x. simpl. split; [intros [<-|[]]; auto|]. intros Hx. apply (G_find _ _ _ _ Ha) in Hx. apply HVV in Hx. left. lia. }
  assert (lb = [a]).
  { apply (G_find _ _ _ _ Hb) in Hg2. apply Permutation_length_1_inv. apply NoDup_Permutation; [repeat constructor; simpl; tauto|exact (wf_nodup _ HW _ _ Hb)|].
    intros x. simpl. split; [intros [<-|[]]; auto|]. intros Hx. apply (G_find _ _ _ _ Hb) in Hx. apply HVV in Hx. left. lia. }
  congruence.
Qed.

(** the last two vertices *)
Lemma inv_last a b u al fills : a <> b -> u = a \/ u = b -> inv [(a, [b]); (b, [a])] al fills ->
  inv [] (al ++ [u; if u =? a then b else a]) fills.
Proof.
  intros Hab Hu [HW HN HD HA HG HC HS HO HNew]. set (o := if u =? a then b else a).
  assert (Ho : o <> u /\ forall x, x = a \/ x = b <-> x = u \/ x = o).
  { unfold o. destruct Hu as [-> | ->]; [rewrite Nat.eqb_refl; intuition congruence|]. destruct (Nat.eqb_spec b a); [congruence|intuition]. }
  destruct Ho as [Ho1 Ho2].
  assert (HVd : forall x, V [(a, [b]); (b, [a])] x <-> x = u \/ x = o) by (intros x; rewrite <- Ho2; unfold V; simpl; intuition).
  assert (HFV : forall v w, F fills v w -> V0 v /\ V0 w).
  { intros v w [H|[H|H]]; [split; [eapply edge_V; eauto|eapply edge_V, edge_sym; eauto]| |]; apply HNew in H; tauto. }
  assert (HV0 : forall x, V0 x <-> In x (al ++ [u; o])). { intros x. rewrite HA, HVd, in_app_iff. simpl. intuition. }
  constructor; auto.
  - constructor; [constructor| | |discriminate].
    + intros v w (? & ? & ?). discriminate.
    + intros v (? & ? & ?). discriminate.
  - replace (al ++ [u; o]) with ((al ++ [u]) ++ [o]) by (rewrite <- app_assoc; auto).
    apply NoDup_app_one; [apply NoDup_app_one; auto|].
    + intros H. apply (HD u H). apply HVd. auto.
    + rewrite in_app_iff. simpl. intros [H|[H|[]]]; [|congruence]. apply (HD o H). apply HVd. auto.
  - intros x. rewrite HV0. unfold V. simpl. tauto.
  - intros v w [].
  - intros l1 x l2 v w E Hn Hv Hw Hxv Hxw. apply app_cons_cases in E as [(m & E)|(m & -> & E)]; [eapply HC; eauto|].
    exfalso. apply HFV in Hxv as [_ Hv0]; apply HFV in Hxw as [_ Hw0]. rewrite HV0 in Hv0, Hw0. rewrite !in_app_iff in *. simpl in *.
    destruct m as [|m0 [|m1 m]]; simpl in E; [injection E as -> E|injection E as -> -> E|destruct m; discriminate]; simpl in *; intuition congruence.
  - intros v w H. apply fil_app. auto.
Qed.

Lemma loop_spec n : forall d dgd al fills, inv d al fills -> degrees_ok dgd d -> length d <= n -> (d = [] -> n = 0) ->
  (exists v w, G d v w) \/ length d <= 1 ->
  exists al' fills', ordering_loop n d dgd al fills = Some (al', fills') /\ inv [] al' fills'.
Proof.
  induction n as [|n IH]; intros d dgd al fills HI HD HL Hz HE.
  { simpl. destruct d; [eauto|simpl in HL; lia]. }
  destruct d as [|kv d0] eqn:Ed.
  { discriminate (Hz eq_refl). }
  rewrite <- Ed in *. assert (Hd : d <> []) by congruence. clear Ed.
  destruct (min_element_spec dgd d HD Hd) as (u & l & Hu & Hl & Hmin). cbn [ordering_loop]. rewrite Hu.
  destruct (Nat.eqb_spec (length d) 2) as [E2|E2].
  - destruct HE as [HE|HE]; [|lia]. destruct (two_vertices d (inv_wf _ _ _ HI) E2 HE) as (a & b & -> & Hab).
    do 2 eexists. split; [reflexivity|]. rewrite <- app_assoc. simpl. apply inv_last; auto.
    simpl in Hl. destruct (Nat.eqb_spec u a); auto. destruct (Nat.eqb_spec u b); auto. discriminate.
  - destruct (step_spec u l d dgd fills (inv_wf _ _ _ HI) HD Hl Hmin) as (d' & dgd' & rl & Fn & -> & HD' & HR).
    assert (HVu : V d u) by (apply V_find; eauto).
    pose proof (inv_step u d d' rl Fn al fills HI HVu HR) as HI'.
    replace (al ++ u :: rl) with ((al ++ [u]) ++ rl) in HI' by (rewrite <- app_assoc; auto).
    destruct d' as [|kv' d0'] eqn:Ed'; [eauto|]. rewrite <- Ed' in *.
    apply IH; auto.
    + assert (length (keys d') < length (keys d)).
      { pose proof (sorted_NoDup _ (wf_sorted _ (inv_wf _ _ _ HI'))) as N1.
        assert (N2 : NoDup (u :: keys d')). { constructor; auto. intros H. apply (sr_V _ _ _ _ _ HR) in H. tauto. }
        apply NoDup_incl_length with (l' := keys d) in N2; [simpl in N2; lia|].
        intros x [<-|Hx]; auto. apply (sr_V _ _ _ _ _ HR) in Hx. tauto. }
      unfold keys in H. rewrite !map_length in H. lia.
    + congruence.
    + left. destruct HE as [(v & w & HE)|HE].
      * destruct l as [|l0 l].
        -- (* u isolated: the edge v w remains *)
           assert (Hni : forall x, ~ G d u x) by (intros x Hx; apply (G_find _ _ _ _ Hl) in Hx; destruct Hx).
           assert (Hrl : rl = []). { destruct rl as [|r rl]; auto. destruct (sr_twins _ _ _ _ _ HR r (or_introl eq_refl)) as [H _]. destruct (Hni _ H). }
           subst rl. pose proof (inv_wf _ _ _ HI) as HW. exists v, w. apply (sr_G _ _ _ _ _ HR).
           assert (forall x, V d x -> x <> u -> V d' x) by (intros x H1 H2; apply (sr_V _ _ _ _ _ HR); simpl; auto).
           refine (conj _ (conj _ (conj _ (or_introl HE)))).
           ++ apply H; [eapply G_V; eauto|]. intros ->. now apply (Hni w).
           ++ apply H; [eapply G_V2; eauto|]. intros ->. apply (Hni v). now apply wf_sym.
           ++ intros ->. now apply (wf_irr d HW w).
        -- assert (Hx : exists w, G d u w) by (exists l0; apply (G_find _ _ _ _ Hl); left; auto).
           destruct kv' as [k' a']. assert (Hk : V d' k') by (rewrite Ed'; left; auto).
           exists k'. exact (sr_nonisolated _ _ _ _ _ HR Hx k' Hk).
      * exfalso. assert (Hk : V d' (fst kv')) by (rewrite Ed'; left; auto). apply (sr_V _ _ _ _ _ HR) in Hk as (H1 & H2 & _).
        destruct d as [|[k0 a0] [|? ?]]; simpl in *; try lia; try congruence. unfold V in *. simpl in *. intuition congruence.
Qed.
End Loop.
