(** Lemmas for C69. *)
From Verif Require Import Common Logging LoggingSpec.
From Coq Require Import Permutation Sorting.Sorted String.
Local Open Scope Z_scope.

(** ** The report as a map *)

Definition keys_above (t : Z) (d : info) : Prop := forall x, In x d -> t < fst x.
Fixpoint ordered (d : info) : Prop :=
  match d with [] => True | (t, _) :: d' => keys_above t d' /\ ordered d' end.

Lemma reported_above : forall d t u, keys_above t d -> u <= t -> reported u d = None.
Proof.
  induction d as [|[t' v] d IH]; intros t u H Hu; cbn; [reflexivity|].
  pose proof (H (t', v) (or_introl eq_refl)) as Ht. cbn in Ht.
  destruct (t' =? u) eqn:E; [lia|].
  apply (IH t); [|exact Hu]. intros x Hx. apply H; right; exact Hx.
Qed.

Lemma change_above : forall f d t u, keys_above u d -> u < t -> keys_above u (change f t d).
Proof.
  intros f; induction d as [|[t' v] d IH]; intros t u H Hu; cbn.
  - intros x [<- | []]; exact Hu.
  - destruct (t <? t') eqn:E1; [|destruct (t =? t') eqn:E2].
    + intros x [<- | Hx]; [exact Hu | exact (H x Hx)].
    + intros x [<- | Hx]; [exact (H (t', v) (or_introl eq_refl)) | exact (H x (or_intror Hx))].
    + intros x [<- | Hx]; [exact (H (t', v) (or_introl eq_refl)) |].
      revert x Hx. apply IH; [|exact Hu]. intros x Hx; exact (H x (or_intror Hx)).
Qed.

Lemma change_ordered : forall f t d, ordered d -> ordered (change f t d).
Proof.
  intros f t; induction d as [|[t' v] d IH]; cbn; intros H.
  - split; [intros x []|exact I].
  - destruct H as [H1 H2].
    destruct (t <? t') eqn:E1; [|destruct (t =? t') eqn:E2].
    + cbn. split; [|split; [exact H1 | exact H2]].
      intros x [<- | Hx]; cbn; [lia|]. pose proof (H1 x Hx). lia.
    + cbn. split; assumption.
    + cbn. split; [|apply IH; exact H2]. apply change_above; [exact H1|lia].
Qed.

Definition or_zero (o : option Z) : Z := match o with Some v => v | None => 0 end.

Lemma reported_change : forall f t u d, ordered d ->
  reported u (change f t d) = if u =? t then Some (f (or_zero (reported t d))) else reported u d.
Proof.
  intros f t u; induction d as [|[t' v] d IH]; cbn; intros H.
  - destruct (t =? u) eqn:E1, (u =? t) eqn:E2; try lia; reflexivity.
  - destruct H as [H1 H2].
    destruct (t <? t') eqn:E1; [|destruct (t =? t') eqn:E2]; cbn.
    + destruct (t =? u) eqn:E3, (u =? t) eqn:E4; try lia; [|reflexivity].
      destruct (t' =? t) eqn:E5; [lia|].
      rewrite (reported_above d t' t H1) by lia. reflexivity.
    + destruct (t' =? u) eqn:E3, (u =? t) eqn:E4; try lia; [|reflexivity].
      destruct (t' =? t) eqn:E5; [reflexivity|lia].
    + rewrite (IH H2). destruct (t' =? u) eqn:E3, (u =? t) eqn:E4; try lia; try reflexivity.
      destruct (t' =? t) eqn:E5; [lia|reflexivity].
Qed.

Lemma ordered_ext : forall d d', ordered d -> ordered d' -> (forall t, reported t d = reported t d') -> d = d'.
Proof.
  induction d as [|[t v] d IH]; intros [|[t' v'] d'] H H' E; [reflexivity| | |].
  - specialize (E t'). cbn in E. rewrite Z.eqb_refl in E. discriminate.
  - specialize (E t). cbn in E. rewrite Z.eqb_refl in E. discriminate.
  - destruct H as [H1 H2], H' as [H1' H2'].
    assert (Et : t = t').
    { pose proof (E t) as Ea. pose proof (E t') as Eb. cbn in Ea, Eb. rewrite Z.eqb_refl in Ea, Eb.
      destruct (t' =? t) eqn:F; [lia|].
      destruct (t =? t') eqn:F'; [lia|].
      destruct (Z.lt_ge_cases t t') as [Hl|Hl].
      - rewrite (reported_above d' t' t H1') in Ea by lia. discriminate.
      - rewrite (reported_above d t t' H1) in Eb by lia. discriminate. }
    subst t'.
    assert (Ev : v = v') by (specialize (E t); cbn in E; rewrite Z.eqb_refl in E; congruence).
    subst v'. f_equal. apply IH; [exact H2|exact H2'|].
    intros u. pose proof (E u) as Eu. cbn in Eu. destruct (t =? u) eqn:F; [|exact Eu].
    rewrite (reported_above d t u H1) by lia. rewrite (reported_above d' t u H1') by lia. reflexivity.
Qed.

(** ** The kinds of the tags *)

Lemma tag_kinds : forall t,
  (tag_in t accumulated_tags = true /\ is_reported t = true /\ is_iterations t = false) \/
  (tag_in t accumulated_tags = false /\ tag_in t maximized_tags = true /\ is_reported t = true /\ is_iterations t = true) \/
  (tag_in t accumulated_tags = false /\ tag_in t maximized_tags = false /\ is_reported t = false).
Proof.
  intros t.
  assert (Hi : is_reported t = tag_in t accumulated_tags || tag_in t maximized_tags).
  { apply eq_true_iff_eq. rewrite orb_true_iff. unfold is_reported, tag_in. rewrite !existsb_exists.
    split.
    - intros (x & Hx & E). apply Z.eqb_eq in E. subst x.
      cbn in Hx. repeat destruct Hx as [<- | Hx];
        try (left; eexists; split; [|apply Z.eqb_refl]; cbn; tauto);
        try (right; eexists; split; [|apply Z.eqb_refl]; cbn; tauto).
    - intros [(x & Hx & E)|(x & Hx & E)]; apply Z.eqb_eq in E; subst x; exists t; (split; [|apply Z.eqb_refl]);
        cbn in Hx; repeat destruct Hx as [<- | Hx]; try (cbn; tauto). }
  destruct (tag_in t accumulated_tags) eqn:Ea.
  - left. rewrite Hi. repeat split.
    unfold tag_in in Ea. apply existsb_exists in Ea. destruct Ea as (x & Hx & E). apply Z.eqb_eq in E. subst x.
    cbn in Hx. repeat destruct Hx as [<- | Hx]; try reflexivity; try (destruct Hx).
  - destruct (tag_in t maximized_tags) eqn:Em.
    + right; left. rewrite Hi. repeat split.
      cbn in Em. unfold is_iterations. unfold ev_iterative_pf_solver_max_num_iter, ev_max_num_iter in Em. lia.
    + right; right. rewrite Hi. repeat split.
Qed.

(** ** What a report means *)

Local Opaque is_reported is_iterations.
Lemma numbers_app : forall t a b, numbers t (a ++ b) = numbers t a ++ numbers t b.
Proof. intros; apply flat_map_app. Qed.
Lemma total_app : forall a b, total_of (a ++ b) = total_of a + total_of b.
Proof. induction a as [|x a IH]; intros b; cbn; [reflexivity|]. unfold total_of in *; cbn. rewrite IH. lia. Qed.
Lemma largest_app : forall a b, largest (a ++ b) = Z.max (largest a) (largest b).
Proof.
  induction a as [|x a IH]; intros b; cbn.
  - assert (0 <= largest b) by (unfold largest; induction b; cbn; lia). unfold largest in *; cbn. lia.
  - unfold largest in *; cbn. rewrite IH. lia.
Qed.
Lemma total_perm : forall a b, Permutation a b -> total_of a = total_of b.
Proof. unfold total_of. induction 1; cbn; lia. Qed.
Lemma largest_perm : forall a b, Permutation a b -> largest a = largest b.
Proof. unfold largest. induction 1; cbn; lia. Qed.

Lemma expected_numbers : forall t a b, Permutation (numbers t a) (numbers t b) -> expected t a = expected t b.
Proof.
  intros t a b Hn. unfold expected. destruct (is_reported t); [|reflexivity].
  pose proof (total_perm _ _ Hn) as Ht. pose proof (largest_perm _ _ Hn) as Hl.
  destruct (numbers t a) as [|x xs].
  - apply Permutation_nil in Hn. rewrite Hn. reflexivity.
  - destruct (numbers t b) as [|y ys]; [apply Permutation_sym, Permutation_nil in Hn; discriminate|].
    rewrite Ht, Hl. reflexivity.
Qed.

Lemma expected_perm : forall t a b, Permutation a b -> expected t a = expected t b.
Proof. intros t a b H. apply expected_numbers. unfold numbers. apply Permutation_flat_map. exact H. Qed.

Definition means (d : info) (evs : list log_event) : Prop :=
  ordered d /\ forall t, reported t d = expected t evs.

Lemma means_nil : means [] [].
Proof. split; [exact I|]. intros t. unfold expected. destruct (is_reported t); reflexivity. Qed.

Lemma log_number_ordered : forall t v d, ordered d -> ordered (log_number t v d).
Proof.
  intros t v d H. unfold log_number.
  destruct (tag_in t accumulated_tags); [apply change_ordered; exact H|].
  destruct (tag_in t maximized_tags); [apply change_ordered; exact H|exact H].
Qed.

(** The effect of a number on what is reported: [None] of a tag that is not reported. *)
Definition added (t v : Z) (o : option Z) : option Z :=
  if is_reported t then Some (if is_iterations t then Z.max v (or_zero o) else or_zero o + v) else o.

Lemma reported_log_number : forall t v d u, ordered d ->
  reported u (log_number t v d) = if u =? t then added t v (reported t d) else reported u d.
Proof.
  intros t v d u H. unfold log_number, added.
  destruct (tag_kinds t) as [(E1 & E2 & E3) | [(E1 & E2 & E3 & E4) | (E1 & E2 & E3)]]; rewrite ?E1, ?E2, ?E3, ?E4.
  - apply reported_change; exact H.
  - apply reported_change; exact H.
  - destruct (u =? t) eqn:F; [|reflexivity]. replace u with t by lia. reflexivity.
Qed.

Lemma expected_none : forall t evs, is_reported t = false -> expected t evs = None.
Proof. intros t evs H. unfold expected. rewrite H. reflexivity. Qed.

Lemma expected_app : forall t a b, is_reported t = true -> numbers t b <> [] ->
  expected t (a ++ b)
  = Some (if is_iterations t then Z.max (largest (numbers t b)) (or_zero (expected t a))
          else or_zero (expected t a) + total_of (numbers t b)).
Proof.
  intros t a b Hr Hb. unfold expected. rewrite Hr, numbers_app.
  destruct (numbers t a) as [|x xs] eqn:Ea.
  - cbn [app or_zero]. destruct (numbers t b) as [|y ys] eqn:Eb; [contradiction|].
    assert (0 <= largest (y :: ys)) by (generalize (y :: ys); intros l; unfold largest; induction l; cbn; lia).
    destruct (is_iterations t); f_equal; lia.
  - cbn [app]. change (x :: xs ++ numbers t b) with ((x :: xs) ++ numbers t b).
    cbn [or_zero]. rewrite total_app, largest_app. destruct (is_iterations t); f_equal; lia.
Qed.

Lemma expected_same : forall t a b, numbers t b = [] -> expected t (a ++ b) = expected t a.
Proof. intros t a b H. unfold expected. rewrite numbers_app, H, app_nil_r. reflexivity. Qed.

Lemma largest_nonneg : forall l, 0 <= largest l.
Proof. unfold largest; induction l; cbn; lia. Qed.
Lemma expected_nonneg : forall t evs, is_iterations t = true -> 0 <= or_zero (expected t evs).
Proof.
  intros t evs H. unfold expected. rewrite H. destruct (is_reported t); [|cbn; lia].
  destruct (numbers t evs) as [|x l]; [cbn; lia|]. cbn [or_zero]. apply largest_nonneg.
Qed.

Lemma means_log : forall e d evs, means d evs -> means (info_log e d) (evs ++ [e]).
Proof.
  intros e d evs [Ho Hm]. unfold info_log.
  destruct (le_body e) as [|m|v] eqn:Eb;
    try (split; [exact Ho|]; intros t; rewrite expected_same; [apply Hm|]; cbn; rewrite Eb; reflexivity).
  split; [apply log_number_ordered; exact Ho|].
  intros u. rewrite (reported_log_number _ _ _ _ Ho).
  destruct (u =? le_tag e) eqn:E.
  - apply Z.eqb_eq in E. subst u. unfold added. rewrite Hm.
    assert (En : numbers (le_tag e) [e] = [v]) by (cbn; rewrite Eb, Z.eqb_refl; reflexivity).
    destruct (is_reported (le_tag e)) eqn:Er.
    + rewrite expected_app; [|exact Er|rewrite En; discriminate]. rewrite En.
      destruct (is_iterations (le_tag e)) eqn:Ei; cbn; f_equal; try lia.
      pose proof (expected_nonneg _ evs Ei). lia.
    + rewrite !expected_none by exact Er. reflexivity.
  - rewrite Hm. symmetry. apply expected_same. cbn. rewrite Eb.
    destruct (le_tag e =? u) eqn:F; [lia|reflexivity].
Qed.

Lemma means_merge : forall src evs, means src evs -> forall d evd, means d evd ->
  means (info_merge src d) (evd ++ evs).
Proof.
  intros src evs [Hso Hsm] d evd [Hdo Hdm].
  assert (G : forall l dd, ordered l -> ordered dd ->
            ordered (info_merge l dd) /\
            forall t, reported t (info_merge l dd)
                      = match reported t l with Some v => added t v (reported t dd) | None => reported t dd end).
  { induction l as [|[t v] l IH]; intros dd Hl Hd; cbn.
    - split; [exact Hd|reflexivity].
    - destruct Hl as [H1 H2].
      destruct (IH (log_number t v dd) H2 (log_number_ordered t v dd Hd)) as [I1 I2].
      split; [exact I1|]. intros u. unfold info_merge in I2 at 1. rewrite I2.
      rewrite (reported_log_number t v dd u Hd).
      destruct (t =? u) eqn:E.
      + replace u with t by lia. rewrite (reported_above l t t H1) by lia. rewrite Z.eqb_refl. reflexivity.
      + destruct (u =? t) eqn:F; [lia|reflexivity]. }
  destruct (G src d Hso Hdo) as [G1 G2]. split; [exact G1|].
  intros t. rewrite G2, Hsm, Hdm.
  destruct (is_reported t) eqn:Er; [|rewrite !expected_none by exact Er; reflexivity].
  destruct (numbers t evs) as [|x xs] eqn:En.
  - rewrite (expected_same t evd evs En). unfold expected at 1. rewrite Er, En. reflexivity.
  - rewrite expected_app; [|exact Er|rewrite En; discriminate].
    unfold expected at 1. rewrite Er, En. unfold added. rewrite Er.
    destruct (is_iterations t); reflexivity.
Qed.

(** ** Any interleaving *)

Section Trace.
Context {L Op : Type}.
Variable new_child : L.
Variable log1 : log_event -> L -> L.
Variable merge : L -> L -> L.
Variable do_op : Op -> L -> L.
Notation action := (action Op).
Notation acts := (acts new_child log1 merge do_op).
Notation act := (act new_child log1 merge do_op).

Lemma acts_app : forall tr tr' s,
  acts (tr ++ tr') s = match acts tr s with Some s' => acts tr' s' | None => None end.
Proof.
  induction tr as [|a tr IH]; intros tr' s; cbn; [reflexivity|].
  destruct (act a s) as [s'|]; [apply IH|reflexivity].
Qed.

Definition text_piece (seen : list action) (a : action) : list log_event :=
  match a with MainLog e => [e] | Destroy i => logged_by i seen | _ => [] end.
Lemma text_order_snoc : forall tr seen a,
  text_order seen (tr ++ [a]) = text_order seen tr ++ text_piece (seen ++ tr) a.
Proof.
  induction tr as [|b tr IH]; intros seen a; cbn.
  - rewrite !app_nil_r. destruct a; reflexivity.
  - rewrite IH, <- !app_assoc. reflexivity.
Qed.
Lemma logged_by_snoc : forall i tr (a : action),
  logged_by i (tr ++ [a]) = logged_by i tr ++ match a with ChildLog j e => if Nat.eqb j i then [e] else [] | _ => [] end.
Proof. intros. unfold logged_by. rewrite flat_map_app. cbn. rewrite app_nil_r. reflexivity. Qed.
Lemma destroyed_snoc : forall i tr (a : action),
  is_destroyed i (tr ++ [a]) = (is_destroyed i tr || match a with Destroy j => Nat.eqb j i | _ => false end)%bool.
Proof. intros. unfold is_destroyed. rewrite existsb_app. cbn. rewrite orb_false_r. reflexivity. Qed.

Variable Rbase Rchild : L -> list log_event -> Prop.
Variable ok : Op -> Prop.
Hypothesis child_new : Rchild new_child [].
Hypothesis child_log : forall e l evs, Rchild l evs -> Rchild (log1 e l) (evs ++ [e]).
Hypothesis base_log : forall e l evs, Rbase l evs -> Rbase (log1 e l) (evs ++ [e]).
Hypothesis base_merge : forall l evs b evb, Rchild l evs -> Rbase b evb -> Rbase (merge l b) (evb ++ evs).
Hypothesis base_op : forall o b evs, ok o -> Rbase b evs -> Rbase (do_op o b) evs.

Definition child_inv (tr : list action) (i : nat) (c : child L) : Prop :=
  match c with
  | Unborn => logged_by i tr = [] /\ is_destroyed i tr = false
  | Alive l => Rchild l (logged_by i tr) /\ is_destroyed i tr = false
  | Dead => is_destroyed i tr = true
  end.

Lemma trace_inv : forall base ev0, Rbase base ev0 -> forall tr s,
  no_sync tr -> only_ops ok tr -> acts tr (fresh_loggers base) = Some s ->
  Rbase (lg_base s) (ev0 ++ text_order [] tr) /\ (forall i, child_inv tr i (lg_children s i)) /\
  Permutation (text_order [] tr) (handed_in tr).
Proof.
  intros base ev0 H0. induction tr as [|a tr IH] using rev_ind; intros s Hs Ho E.
  - cbn in E. injection E as <-. cbn. rewrite app_nil_r. repeat split; [exact H0|constructor].
  - rewrite acts_app in E.
    destruct (acts tr (fresh_loggers base)) as [s0|] eqn:E0; [|discriminate].
    assert (Hs' : no_sync tr) by (intros i Hi; apply (Hs i); apply in_or_app; left; exact Hi).
    assert (Ho' : only_ops ok tr) by (intros o Hi; apply (Ho o); apply in_or_app; left; exact Hi).
    destruct (IH s0 Hs' Ho' eq_refl) as (Hb & Hc & Hp).
    rewrite text_order_snoc. cbn [app].
    cbn in E. destruct (act a s0) as [s1|] eqn:E1; [|discriminate]. injection E as <-.
    assert (Hin : In a (tr ++ [a])) by (apply in_or_app; right; left; reflexivity).
    assert (Hsame : forall b : action, (forall i, (match b with Destroy j => Nat.eqb j i | _ => false end) = false) ->
              handed_in (tr ++ [b]) = handed_in tr ++ match b with ChildLog i e => if is_destroyed i tr then [e] else []
                                                  | MainLog e => [e] | _ => [] end).
    { intros b Hb'. unfold handed_in. rewrite flat_map_app. cbn. rewrite app_nil_r. f_equal.
      - apply flat_map_ext. intros c. destruct c; try reflexivity. rewrite destroyed_snoc, Hb', orb_false_r. reflexivity.
      - destruct b; try reflexivity. rewrite destroyed_snoc, orb_false_r. reflexivity. }
    destruct a as [e|o|i|i e|i|i]; cbn in E1; cbn [text_piece].
    + injection E1 as <-. cbn [lg_base lg_children]. rewrite app_assoc. split; [apply base_log; exact Hb|]. split.
      * intros i. specialize (Hc i). unfold child_inv in *. rewrite logged_by_snoc, destroyed_snoc, app_nil_r, orb_false_r.
        exact Hc.
      * rewrite Hsame by reflexivity. apply Permutation_app_tail; exact Hp.
    + injection E1 as <-. cbn [lg_base lg_children]. rewrite app_nil_r. split; [apply base_op; [apply Ho; exact Hin|exact Hb]|].
      split.
      * intros i. specialize (Hc i). unfold child_inv in *. rewrite logged_by_snoc, destroyed_snoc, app_nil_r, orb_false_r.
        exact Hc.
      * rewrite Hsame by reflexivity. rewrite app_nil_r; exact Hp.
    + destruct (lg_children s0 i) eqn:Ei; try discriminate. injection E1 as <-. cbn [lg_base lg_children].
      rewrite app_nil_r. split; [exact Hb|]. split.
      * intros k. pose proof (Hc k) as Hk. unfold child_inv in *. rewrite logged_by_snoc, destroyed_snoc, app_nil_r, orb_false_r.
        unfold set_child. destruct (Nat.eqb k i) eqn:Ek; [|exact Hk].
        apply Nat.eqb_eq in Ek. subst k. rewrite Ei in Hk. destruct Hk as [Hk1 Hk2]. rewrite Hk1. split; assumption.
      * rewrite Hsame by reflexivity. rewrite app_nil_r; exact Hp.
    + destruct (lg_children s0 i) as [|l|] eqn:Ei; try discriminate. injection E1 as <-. cbn [lg_base lg_children].
      pose proof (Hc i) as Hi. unfold child_inv in Hi. rewrite Ei in Hi. destruct Hi as [Hi1 Hi2].
      rewrite app_nil_r. split; [exact Hb|]. split.
      * intros k. pose proof (Hc k) as Hk. unfold child_inv in *. rewrite logged_by_snoc, destroyed_snoc, orb_false_r.
        unfold set_child. rewrite (Nat.eqb_sym i k). destruct (Nat.eqb k i) eqn:Ek.
        -- apply Nat.eqb_eq in Ek. subst k. split; [apply child_log; exact Hi1|exact Hi2].
        -- rewrite app_nil_r. exact Hk.
      * rewrite Hsame by reflexivity. rewrite Hi2, app_nil_r; exact Hp.
    + exfalso. apply (Hs i). exact Hin.
    + destruct (lg_children s0 i) as [|l|] eqn:Ei; try discriminate. injection E1 as <-. cbn [lg_base lg_children].
      pose proof (Hc i) as Hi. unfold child_inv in Hi. rewrite Ei in Hi. destruct Hi as [Hi1 Hi2].
      split; [rewrite app_assoc; apply base_merge; assumption|]. split.
      * intros k. pose proof (Hc k) as Hk. unfold child_inv in *. rewrite logged_by_snoc, destroyed_snoc, app_nil_r.
        unfold set_child. rewrite (Nat.eqb_sym i k). destruct (Nat.eqb k i) eqn:Ek.
        -- apply orb_true_r.
        -- rewrite orb_false_r. exact Hk.
      * rewrite Hp. clear - Hi2.
        unfold handed_in. rewrite flat_map_app. cbn. rewrite !app_nil_r.
        assert (G : forall l : list action,
          Permutation (flat_map (fun a => match a with ChildLog j e => if is_destroyed j tr then [e] else []
                                                   | MainLog e => [e] | _ => [] end) l ++ logged_by i l)
                      (flat_map (fun a => match a with ChildLog j e => if is_destroyed j (tr ++ [Destroy i]) then [e] else []
                                                   | MainLog e => [e] | _ => [] end) l)).
        { induction l as [|c l IHl]; cbn; [constructor|].
          destruct c as [e|o|j|j e|j|j]; cbn [app]; try exact IHl; [constructor; exact IHl|].
          rewrite destroyed_snoc, (Nat.eqb_sym i j). destruct (Nat.eqb j i) eqn:Ej.
          - apply Nat.eqb_eq in Ej. subst j. rewrite Hi2. cbn. etransitivity; [symmetry; apply Permutation_middle|]. constructor. exact IHl.
          - rewrite orb_false_r. cbn [app]. rewrite <- app_assoc. apply Permutation_app_head. exact IHl. }
        apply G.
Qed.

(** ** Interleavings of proper threads run *)

Definition child_step (c : child L) (a : action) : option (child L) :=
  match a, c with
  | Create _, Unborn => Some (Alive new_child)
  | ChildLog _ e, Alive l => Some (Alive (log1 e l))
  | Sync _, Alive l => Some (Alive l)
  | Destroy _, Alive _ => Some Dead
  | _, _ => None
  end.
Fixpoint child_run (tr : list action) (c : child L) : option (child L) :=
  match tr with [] => Some c | a :: tr' => match child_step c a with None => None | Some c' => child_run tr' c' end end.

Lemma acts_progress : forall tr s,
  (forall i, exists c, child_run (filter (on_child i) tr) (lg_children s i) = Some c) -> exists s', acts tr s = Some s'.
Proof.
  induction tr as [|a tr IH]; intros s H; [eexists; reflexivity|].
  assert (G : exists s', act a s = Some s' /\
              forall i, exists c, child_run (filter (on_child i) tr) (lg_children s' i) = Some c).
  { destruct a as [e|o|k|k e|k|k]; cbn [act];
      try (eexists; split; [reflexivity|]; intros i; exact (H i));
      pose proof (H k) as [c Hk]; cbn in Hk; rewrite Nat.eqb_refl in Hk; cbn in Hk;
      destruct (lg_children s k) as [|l|] eqn:Ek; try discriminate;
      (eexists; split; [reflexivity|]); intros i; cbn [lg_children]; unfold set_child;
      specialize (H i); cbn in H; rewrite (Nat.eqb_sym k i) in H;
      destruct (Nat.eqb i k) eqn:Ei; try exact H;
      apply Nat.eqb_eq in Ei; subst i; exists c; rewrite ?Ek; exact Hk. }
  destruct G as (s' & Ea & Hs'). cbn. rewrite Ea. apply IH. exact Hs'.
Qed.
End Trace.

(** ** Sharing out *)

Lemma partition_perm : forall {A} (own : nat -> A -> bool) (ws : list nat), NoDup ws ->
  (forall w w' x, own w x = true -> own w' x = true -> w = w') ->
  forall l, (forall x, In x l -> exists w, In w ws /\ own w x = true) ->
  Permutation l (flat_map (fun w => filter (own w) l) ws).
Proof.
  intros A own ws Hnd Hone. induction l as [|x l IH]; intros H.
  - replace (flat_map (fun w => filter (own w) []) ws) with (@nil A); [constructor|].
    clear. induction ws; cbn; [reflexivity|assumption].
  - destruct (H x (or_introl eq_refl)) as (w & Hw & Ex).
    destruct (in_split w ws Hw) as (w1 & w2 & ->).
    assert (IH' := IH (fun y Hy => H y (or_intror Hy))).
    assert (Hn : forall v, In v (w1 ++ w2) -> own v x = false).
    { intros v Hv. destruct (own v x) eqn:Ev; [|reflexivity]. exfalso.
      assert (v = w) by (eapply Hone; eassumption). subst v.
      apply (NoDup_remove_2 _ _ _ Hnd). exact Hv. }
    rewrite flat_map_app. cbn [flat_map filter]. rewrite Ex.
    assert (Hf : forall vs, (forall v, In v vs -> own v x = false) ->
              flat_map (fun v => filter (own v) (x :: l)) vs = flat_map (fun v => filter (own v) l) vs).
    { clear. induction vs as [|v vs IHv]; intros Hv; cbn; [reflexivity|].
      rewrite (Hv v (or_introl eq_refl)). f_equal. apply IHv. intros u Hu; apply Hv; right; exact Hu. }
    cbn [filter] in Hf. 
    rewrite !Hf by (intros v Hv; apply Hn; apply in_or_app; tauto).
    cbn [app]. etransitivity; [|apply Permutation_middle]. constructor.
    etransitivity; [exact IH'|]. rewrite flat_map_app. reflexivity.
Qed.
