(** Proofs about the container model. *)
From Verif Require Import Common Container.

Lemma bind_ok {A B} (r : res A) (f : A -> res B) b :
  bind r f = Ok b -> exists a, r = Ok a /\ f a = Ok b.
Proof. destruct r; simpl; [eauto|discriminate]. Qed.

Lemma ctype_idx_inj a b : ctype_idx a = ctype_idx b -> a = b.
Proof. destruct a, b; simpl; congruence. Qed.

Lemma all_ctypes_nth t : nth_error all_ctypes (ctype_idx t) = Some t.
Proof. destruct t; reflexivity. Qed.

Lemma all_ctypes_complete t : In t all_ctypes.
Proof. eapply nth_error_In, all_ctypes_nth. Qed.

Lemma ctype_idx_lt t : ctype_idx t < length all_ctypes.
Proof. apply nth_error_Some; rewrite all_ctypes_nth; discriminate. Qed.

Lemma all_ctypes_NoDup : NoDup all_ctypes.
Proof. repeat constructor; simpl; intuition discriminate. Qed.

Lemma is_base_idx g t : is_base g (ctype_idx t) = derives g t.
Proof. unfold is_base; now rewrite all_ctypes_nth. Qed.

Lemma ctype_eqb_eq a b : ctype_eqb a b = true <-> a = b.
Proof.
  unfold ctype_eqb; rewrite Nat.eqb_eq; split; [apply ctype_idx_inj|congruence].
Qed.

(** ** Sequence numbers *)
Section Seq.
  Context {A : Type}.
  Implicit Types (c : container A) (b : nat -> bool).

  Lemma map_nth_seq {B} (l : list B) d : map (fun i => nth i l d) (seq 0 (length l)) = l.
  Proof.
    apply nth_error_ext; intros i.
    destruct (lt_dec i (length l)) as [Hi|Hi].
    - rewrite nth_error_map, (nth_error_nth' _ 0) by (rewrite seq_length; auto).
      rewrite seq_nth by auto; simpl. symmetry; now apply nth_error_nth'.
    - rewrite !(proj2 (nth_error_None _ _)); auto; rewrite ?map_length, ?seq_length; lia.
  Qed.

  Definition lists_of b c : list (list A) :=
    map (fun g => if b g then vec c g else []) (seq 0 (length (vectors c))).

  Lemma spv_lists b c : size_per_vector b c = map (@length A) (lists_of b c).
  Proof.
    unfold size_per_vector, lists_of; rewrite map_map; apply map_ext; intros g; now destruct (b g).
  Qed.

  Fixpoint scan (acc : nat) (l : list nat) : list nat :=
    acc :: match l with [] => [] | x :: l' => scan (acc + x) l' end.

  Lemma scan_inclusive acc l : scan acc l = acc :: inclusive_scan acc l.
  Proof. revert acc; induction l as [|x l IH]; intros; simpl; auto; f_equal; apply IH. Qed.

  Lemma cum_scan b c : cum_size b c = scan 0 (map (@length A) (lists_of b c)).
  Proof. unfold cum_size; now rewrite scan_inclusive, spv_lists. Qed.

  Lemma scan_length acc l : length (scan acc l) = S (length l).
  Proof. revert acc; induction l as [|x l IH]; intros; simpl; f_equal; auto. Qed.

  Lemma scan_nth acc (l : list (list A)) g :
    g <= length l ->
    nth_error (scan acc (map (@length A) l)) g = Some (acc + length (concat (firstn g l))).
  Proof.
    revert acc g; induction l as [|x l IH]; intros acc [|g] H; simpl in *; try lia.
    - f_equal; lia.
    - f_equal; lia.
    - rewrite IH by lia. rewrite app_length. f_equal; lia.
  Qed.

  Lemma scan_head_le acc l y : In y (scan acc l) -> acc <= y.
  Proof.
    revert acc; induction l as [|x l IH]; intros acc [H|H]; try (simpl in H; lia).
    apply IH in H; lia.
  Qed.

  Lemma ub_scan acc (l : list (list A)) s :
    acc <= s ->
    (s < acc + length (concat l) ->
     exists g v p, upper_bound (scan acc (map (@length A) l)) s = S g /\ nth_error l g = Some v /\
       p < length v /\ s = acc + length (concat (firstn g l)) + p) /\
    (acc + length (concat l) <= s -> upper_bound (scan acc (map (@length A) l)) s = S (length l)).
  Proof.
    revert acc; induction l as [|x l IH]; intros acc Hs.
    - simpl; split; intros H; [lia|]. destruct (s <? acc) eqn:E; [lia|]; auto.
    - cbn [map scan upper_bound concat]. rewrite app_length.
      replace (s <? acc) with false by lia.
      destruct (le_lt_dec (acc + length x) s) as [Hle|Hlt].
      + destruct (IH (acc + length x) Hle) as [IH1 IH2]. split; intros H.
        * destruct IH1 as (g & v & p & E1 & E2 & E3 & E4); [lia|].
          exists (S g), v, p; repeat split; auto.
          simpl; rewrite app_length; lia.
        * rewrite IH2 by lia; reflexivity.
      + split; intros H; [|lia].
        exists 0, x, (s - acc); simpl. repeat split; try lia.
        destruct (scan (acc + length x) (map (@length A) l)) as [|y ys] eqn:E.
        * destruct l; discriminate.
        * simpl. assert (y = acc + length x) by (destruct l; simpl in E; congruence). subst.
          replace (s <? acc + length x) with true by lia. auto.
  Qed.

  Lemma concat_nth (l : list (list A)) g v p :
    nth_error l g = Some v -> p < length v ->
    nth_error (concat l) (length (concat (firstn g l)) + p) = nth_error v p.
  Proof.
    revert g; induction l as [|x l IH]; intros [|g] H Hp; simpl in *; try discriminate.
    - injection H as ->. now rewrite nth_error_app1.
    - rewrite app_length, nth_error_app2 by lia.
      rewrite <- (IH g) by auto. f_equal; lia.
  Qed.

  Lemma firstn_concat_lt (l : list (list A)) g v g' :
    nth_error l g = Some v -> g < g' ->
    length (concat (firstn g l)) + length v <= length (concat (firstn g' l)).
  Proof.
    revert g g'; induction l as [|x l IH]; intros [|g] [|g'] Hl Hk; simpl in *; try discriminate; try lia.
    - injection Hl as ->. rewrite app_length; lia.
    - rewrite !app_length. specialize (IH g g' Hl ltac:(lia)). lia.
  Qed.

  Lemma lists_nth b c g :
    g < length (vectors c) -> nth_error (lists_of b c) g = Some (if b g then vec c g else []).
  Proof.
    intros H. unfold lists_of. rewrite nth_error_map, (nth_error_nth' _ 0) by (rewrite seq_length; auto).
    now rewrite seq_nth.
  Qed.

  Lemma lists_length b c : length (lists_of b c) = length (vectors c).
  Proof. unfold lists_of; now rewrite map_length, seq_length. Qed.

  Lemma fold_add_concat (l : list (list A)) acc :
    fold_left Nat.add (map (@length A) l) acc = acc + length (concat l).
  Proof.
    revert acc; induction l as [|x l IH]; intros; simpl; [lia|].
    rewrite IH, app_length; lia.
  Qed.

  Lemma size_of_concat b c : size_of b c = length (concat (lists_of b c)).
  Proof. unfold size_of; now rewrite spv_lists, fold_add_concat. Qed.

  Lemma get_seq_val b c g p :
    g <= length (vectors c) -> get_seq b c (g, p) = Some (length (concat (firstn g (lists_of b c))) + p).
  Proof.
    intros H. unfold get_seq; simpl. rewrite cum_scan, scan_nth by now rewrite lists_length.
    reflexivity.
  Qed.

  Lemma get_item_iff b c g p :
    (exists x, get_item b c (g, p) = Some x) <->
    g < length (vectors c) /\ b g = true /\ p < length (vec c g).
  Proof.
    unfold get_item, vec; simpl. split.
    - intros [x H]. destruct (b g); [|discriminate].
      destruct (nth_error (vectors c) g) as [v|] eqn:E; [|discriminate].
      assert (g < length (vectors c)) by (apply nth_error_Some; congruence).
      repeat split; auto. rewrite (nth_error_nth _ _ _ E). apply nth_error_Some; congruence.
    - intros (H1 & -> & H2). rewrite (nth_error_nth' _ []) by auto.
      destruct (nth_error (nth g (vectors c) []) p) as [x|] eqn:E; eauto.
      apply nth_error_None in E; lia.
  Qed.

  Lemma get_item_val b c g p x :
    get_item b c (g, p) = Some x -> nth_error (vec c g) p = Some x.
  Proof.
    unfold get_item, vec; simpl. destruct (b g); [|discriminate].
    destruct (nth_error (vectors c) g) as [v|] eqn:E; [|discriminate].
    now rewrite (nth_error_nth _ _ _ E).
  Qed.

  Lemma seq_round_trip b c g p :
    g < length (vectors c) -> b g = true -> p < length (vec c g) ->
    exists s, get_seq b c (g, p) = Some s /\ s < size_of b c /\ get_idx_2d_by_seq b c s = Some (g, p) /\
      nth_error (concat (lists_of b c)) s = nth_error (vec c g) p.
  Proof.
    intros Hg Hb Hp.
    assert (Hl := lists_nth b c g Hg). rewrite Hb in Hl.
    exists (length (concat (firstn g (lists_of b c))) + p).
    rewrite get_seq_val by lia. split; auto.
    assert (Hs : length (concat (firstn g (lists_of b c))) + p < length (concat (lists_of b c))).
    { apply nth_error_Some. rewrite (concat_nth _ _ (vec c g)) by auto. now apply nth_error_Some. }
    rewrite size_of_concat. split; auto.
    split; [|now rewrite (concat_nth _ _ (vec c g))].
    unfold get_idx_2d_by_seq. rewrite cum_scan, scan_length, map_length.
    destruct (ub_scan 0 (lists_of b c) (length (concat (firstn g (lists_of b c))) + p)) as [H _]; [lia|].
    destruct H as (g' & v & p' & E1 & E2 & E3 & E4); [lia|].
    assert (Hg' : g' < length (lists_of b c)) by (apply nth_error_Some; congruence).
    rewrite E1. replace (S g' <? S (length (lists_of b c))) with true by lia.
    replace (S g' - 1) with g' by lia.
    rewrite scan_nth by lia.
    assert (g' = g).
    { destruct (lt_eq_lt_dec g g') as [[H|H]|H]; auto; exfalso.
      - assert (length (concat (firstn g (lists_of b c))) + length (vec c g)
                <= length (concat (firstn g' (lists_of b c)))).
        { now apply firstn_concat_lt. }
        lia.
      - assert (length (concat (firstn g' (lists_of b c))) + length v
                <= length (concat (firstn g (lists_of b c)))).
        { now apply firstn_concat_lt. }
        lia. }
    subst g'. f_equal. f_equal. lia.
  Qed.

  Lemma seq_inv b c s :
    s < size_of b c ->
    exists g p, get_idx_2d_by_seq b c s = Some (g, p) /\ g < length (vectors c) /\ b g = true /\
      p < length (vec c g) /\ get_seq b c (g, p) = Some s.
  Proof.
    intros Hs. rewrite size_of_concat in Hs.
    destruct (ub_scan 0 (lists_of b c) s) as [H _]; [lia|].
    destruct H as (g & v & p & E1 & E2 & E3 & E4); [lia|].
    assert (Hg : g < length (lists_of b c)) by (apply nth_error_Some; congruence).
    rewrite lists_length in Hg.
    rewrite lists_nth in E2 by auto. injection E2 as <-.
    destruct (b g) eqn:Hb; [|simpl in E3; lia].
    exists g, p. rewrite get_seq_val by lia. repeat split; auto; try (f_equal; lia).
    unfold get_idx_2d_by_seq. rewrite cum_scan, scan_length, map_length, E1, lists_length.
    replace (S g <? S (length (vectors c))) with true by lia.
    replace (S g - 1) with g by lia. rewrite scan_nth by (rewrite lists_length; lia).
    f_equal. f_equal. lia.
  Qed.

  Lemma seq_out b c s : size_of b c <= s -> get_idx_2d_by_seq b c s = None.
  Proof.
    intros Hs. rewrite size_of_concat in Hs.
    destruct (ub_scan 0 (lists_of b c) s) as [_ H]; [lia|].
    unfold get_idx_2d_by_seq. rewrite cum_scan, scan_length, map_length, H by lia.
    now rewrite Nat.ltb_irrefl.
  Qed.

  Lemma item_by_seq b c s : get_item_by_seq b c s = nth_error (concat (lists_of b c)) s.
  Proof.
    unfold get_item_by_seq.
    destruct (lt_dec s (size_of b c)) as [Hs|Hs].
    - destruct (seq_inv b c s Hs) as (g & p & E & Hg & Hb & Hp & Es). rewrite E.
      destruct (seq_round_trip b c g p Hg Hb Hp) as (s' & E1 & E2 & E3 & E4).
      rewrite Es in E1; injection E1 as <-. rewrite E4.
      unfold get_item; simpl. rewrite Hb. unfold vec in *. now rewrite (nth_error_nth' _ []).
    - rewrite seq_out by lia. rewrite size_of_concat in Hs.
      symmetry; apply nth_error_None; lia.
  Qed.

  Lemma seq_order b c g p s g' p' s' :
    g < length (vectors c) -> b g = true -> p < length (vec c g) ->
    g' < length (vectors c) -> b g' = true -> p' < length (vec c g') ->
    get_seq b c (g, p) = Some s -> get_seq b c (g', p') = Some s' ->
    (s < s' <-> g < g' \/ g = g' /\ p < p').
  Proof.
    assert (Hmono : forall g p s g' p' s',
      g < length (vectors c) -> b g = true -> p < length (vec c g) ->
      g' < length (vectors c) -> get_seq b c (g, p) = Some s -> get_seq b c (g', p') = Some s' ->
      g < g' -> s < s').
    { clear. intros g p s g' p' s' Hg Hb Hp Hg' E1 E2 Hlt.
      rewrite get_seq_val in E1, E2 by lia. injection E1 as <-. injection E2 as <-.
      assert (Hl := lists_nth b c g Hg). rewrite Hb in Hl.
      enough (length (concat (firstn g (lists_of b c))) + length (vec c g)
              <= length (concat (firstn g' (lists_of b c)))) by lia.
      now apply firstn_concat_lt. }
    intros Hg Hb Hp Hg' Hb' Hp' E1 E2.
    destruct (lt_eq_lt_dec g g') as [[H|H]|H].
    - split; [lia|]. intros _. exact (Hmono g p s g' p' s' Hg Hb Hp Hg' E1 E2 H).
    - subst g'. rewrite get_seq_val in E1, E2 by lia. injection E1 as <-. injection E2 as <-. lia.
    - specialize (Hmono g' p' s' g p s Hg' Hb' Hp' Hg E2 E1 H). lia.
  Qed.
End Seq.

(** ** Building the model *)

Definition Inv (c : mcontainer) : Prop :=
  length (vectors c) = length all_ctypes /\
  forall id g p, map_find (idmap c) id = Some (g, p) <->
                 exists e, nth_error (vec c g) p = Some e /\ e_id e = id.

Lemma vec_empty {A} n g : @vec A (empty_container n) g = [].
Proof.
  unfold vec, empty_container; simpl.
  destruct (lt_dec g n) as [H|H].
  - assert (In (nth g (repeat (@nil A) n) []) (repeat [] n)) by (apply nth_In; rewrite repeat_length; auto).
    now apply repeat_spec in H0.
  - apply nth_overflow; rewrite repeat_length; lia.
Qed.

Lemma Inv_empty : Inv (empty_container (length all_ctypes)).
Proof.
  split; [reflexivity|]. intros id g p. rewrite vec_empty. cbn [empty_container idmap map_find].
  split; [discriminate|]. intros (e & H & _). destruct p; discriminate.
Qed.

Lemma vec_upd (c : mcontainer) g x m g' :
  g < length (vectors c) ->
  vec (mkContainer (upd g x (vectors c)) m) g' = if Nat.eqb g' g then x else vec c g'.
Proof.
  intros Hg. unfold vec; simpl. destruct (Nat.eqb_spec g' g) as [->|Hn].
  - now apply nth_upd_eq.
  - apply nth_upd_neq; auto.
Qed.

  Lemma Inv_find c id g p : Inv c -> map_find (idmap c) id = Some (g, p) ->
    g < length all_ctypes /\ p < length (vec c g).
  Proof.
    intros [HL HM] H. apply HM in H as (e & H & _). split; [|apply nth_error_Some; congruence].
    rewrite <- HL. unfold vec in H. destruct (lt_dec g (length (vectors c))); auto.
    rewrite nth_overflow in H by lia. destruct p; discriminate.
  Qed.

  Lemma idx_lt_ctype g : g < length all_ctypes -> exists t, ctype_idx t = g.
  Proof.
    intros H. destruct (nth_error all_ctypes g) as [t|] eqn:E; [|apply nth_error_None in E; lia].
    exists t. assert (E' := all_ctypes_nth t).
    eapply NoDup_nth_error; [apply all_ctypes_NoDup| |congruence]. apply ctype_idx_lt.
  Qed.


Section Building.
  Variable ck : ctype -> Z -> cinput -> option exn.

  Lemma emplace_ok c t id inp c' :
    Inv c -> emplace c (ctype_idx t) id (construct ck t id inp) = Ok c' ->
    Inv c' /\ map_find (idmap c) id = None /\ ck t id inp = None /\
    idmap c' = (id, (ctype_idx t, length (vec c (ctype_idx t)))) :: idmap c /\
    forall g, vec c' g = if Nat.eqb g (ctype_idx t) then vec c g ++ [mkEntry t id inp] else vec c g.
  Proof.
    intros [HL HM] H. unfold emplace in H.
    destruct (map_find (idmap c) id) eqn:Ef; [discriminate|].
    unfold construct in H. destruct (ck t id inp) eqn:Ec; [discriminate|]. simpl in H. injection H as <-.
    assert (Hlt : ctype_idx t < length (vectors c)) by (rewrite HL; apply ctype_idx_lt).
    assert (HV : forall g, vec (mkContainer (upd (ctype_idx t) (vec c (ctype_idx t) ++ [mkEntry t id inp]) (vectors c))
        ((id, (ctype_idx t, length (vec c (ctype_idx t)))) :: idmap c)) g =
        if Nat.eqb g (ctype_idx t) then vec c g ++ [mkEntry t id inp] else vec c g).
    { intros g. rewrite vec_upd by auto. now destruct (Nat.eqb_spec g (ctype_idx t)) as [->|]. }
    repeat split; auto.
    - simpl. now rewrite upd_length.
    - intros H. cbn [idmap map_find] in H. rewrite HV. destruct (Z.eqb_spec id id0) as [->|Hn].
      + injection H as <- <-. rewrite Nat.eqb_refl. exists (mkEntry t id0 inp).
        rewrite nth_error_app2, Nat.sub_diag by lia. auto.
      + apply HM in H as (e & H1 & H2). exists e; split; auto.
        destruct (Nat.eqb_spec g (ctype_idx t)); auto.
        rewrite nth_error_app1; auto. apply nth_error_Some; congruence.
    - intros (e & H1 & H2). rewrite HV in H1. cbn [idmap map_find].
      assert (Hcase : nth_error (vec c g) p = Some e \/
                      (g = ctype_idx t /\ p = length (vec c g) /\ e = mkEntry t id inp)).
      { destruct (Nat.eqb_spec g (ctype_idx t)) as [Hg|Hg]; [|now left].
        destruct (lt_dec p (length (vec c g))) as [Hp|Hp].
        - left. now rewrite nth_error_app1 in H1.
        - right. rewrite nth_error_app2 in H1 by lia.
          destruct (p - length (vec c g)) as [|[|k]] eqn:Ed; try discriminate.
          simpl in H1. split; auto. split; [lia|congruence]. }
      destruct Hcase as [Hc|(-> & -> & ->)].
      + assert (Hf : map_find (idmap c) id0 = Some (g, p)) by (apply HM; eauto).
        destruct (Z.eqb_spec id id0) as [->|]; [congruence|auto].
      + simpl in H2. subst id0. rewrite Z.eqb_refl. reflexivity.
  Qed.

  Lemma add_one_emplace t c r c' :
    add_one ck t c r = Ok c' -> emplace c (ctype_idx t) (fst r) (construct ck t (fst r) (snd r)) = Ok c'.
  Proof.
    destruct r as [id inp]; simpl. intros H.
    destruct inp; simpl in H; auto;
      repeat (first
        [ match goal with
          | H : bind ?r _ = Ok _ |- _ => apply bind_ok in H; destruct H as (? & ? & H); cbv beta in H
          | H : (if ?b then _ else _) = Ok _ |- _ => destruct b eqn:?
          end
        | discriminate | assumption ]).
  Qed.

  (** Everything one record contributes. *)
  Definition entries (t : ctype) (rs : list (Z * cinput)) : list centry :=
    map (fun r => mkEntry t (fst r) (snd r)) rs.

  Lemma foldM_add_one t rs c c' :
    Inv c -> foldM (add_one ck t) rs c = Ok c' ->
    Inv c' /\ (forall id x, map_find (idmap c) id = Some x -> map_find (idmap c') id = Some x) /\
    (forall g, vec c' g = if Nat.eqb g (ctype_idx t) then vec c g ++ entries t rs else vec c g).
  Proof.
    revert c; induction rs as [|r rs IH]; intros c HI H; simpl in H.
    - injection H as <-. split; auto. split; auto. intros g. destruct (Nat.eqb g (ctype_idx t)); auto.
      now rewrite app_nil_r.
    - destruct (add_one ck t c r) as [c1|] eqn:E; [|discriminate].
      apply add_one_emplace in E. apply emplace_ok in E as (HI1 & Hf & _ & Hm & HV); auto.
      apply IH in H as (HI' & Hm' & HV'); auto. split; auto. split.
      + intros id x Hx. apply Hm'. rewrite Hm. cbn [map_find].
        destruct (Z.eqb_spec (fst r) id) as [He|]; [congruence|auto].
      + intros g. rewrite HV', HV. destruct (Nat.eqb g (ctype_idx t)); auto.
        simpl. now rewrite <- app_assoc.
  Qed.

  Lemma add_component_ok c t rs c' :
    Inv c -> add_component ck c (t, rs) = Ok c' ->
    Inv c' /\ (forall id x, map_find (idmap c) id = Some x -> map_find (idmap c') id = Some x) /\
    (forall g, vec c' g = if Nat.eqb g (ctype_idx t) then vec c g ++ entries t rs else vec c g) /\
    foldM (add_one ck t) rs c = Ok c' /\ has_dup (flat_map (regulated_ref c') rs) = false.
  Proof.
    intros HI H. simpl in H. apply bind_ok in H as (c1 & H1 & H2).
    destruct (has_dup (flat_map (regulated_ref c1) rs)) eqn:Ed; [discriminate|]. injection H2 as ->.
    destruct (foldM_add_one _ _ _ _ HI H1) as (? & ? & ?). repeat split; auto; apply H.
  Qed.

  Lemma foldM_add_component l c c' :
    Inv c -> NoDup (map fst l) -> foldM (add_component ck) l c = Ok c' ->
    Inv c' /\ (forall id x, map_find (idmap c) id = Some x -> map_find (idmap c') id = Some x) /\
    (forall t rs, In (t, rs) l -> vec c' (ctype_idx t) = vec c (ctype_idx t) ++ entries t rs) /\
    (forall t, ~ In t (map fst l) -> vec c' (ctype_idx t) = vec c (ctype_idx t)).
  Proof.
    revert c; induction l as [|[t rs] l IH]; intros c HI HN H; cbn [foldM] in H.
    - injection H as <-. repeat split; try apply HI; auto; try (intros ? ? []).
    - destruct (add_component ck c (t, rs)) as [c1|] eqn:E; [|discriminate].
      apply add_component_ok in E as (HI1 & Hm & HV & _ & _); auto.
      inversion HN as [|? ? Hni HN']; subst.
      apply IH in H as (HI' & Hm' & HV1 & HV2); auto.
      split; auto. split; [auto|]. split.
      + intros t' rs' [Heq|Hin].
        * injection Heq as <- <-. rewrite HV2 by auto. rewrite HV, Nat.eqb_refl. auto.
        * rewrite (HV1 _ _ Hin), HV. destruct (Nat.eqb_spec (ctype_idx t') (ctype_idx t)) as [Ht|]; auto.
          apply ctype_idx_inj in Ht. subst. exfalso. apply Hni. apply in_map_iff. exists (t, rs'); auto.
      + intros t' Hni'. simpl in Hni'. rewrite HV2 by intuition. rewrite HV.
        destruct (Nat.eqb_spec (ctype_idx t') (ctype_idx t)) as [Ht|]; auto.
        apply ctype_idx_inj in Ht. subst. intuition.
  Qed.

  Lemma create_model_ok data c :
    create_model ck data = Ok c ->
    Inv c /\ forall t, vec c (ctype_idx t) = entries t (data t).
  Proof.
    unfold create_model. intros H. apply foldM_add_component in H as (HI & _ & HV & _).
    - split; auto. intros t. rewrite (HV t (data t)).
      + now rewrite vec_empty.
      + apply in_map_iff. exists t; split; auto. apply all_ctypes_complete.
    - apply Inv_empty.
    - apply all_ctypes_NoDup.
  Qed.

  (** The records of [data] that carry [id], with type and position. *)
  Lemma create_model_find data c id t n :
    create_model ck data = Ok c ->
    map_find (idmap c) id = Some (ctype_idx t, n) <-> option_map fst (nth_error (data t) n) = Some id.
  Proof.
    intros H. destruct (create_model_ok _ _ H) as [[HL HM] HV]. rewrite HM, HV.
    unfold entries. rewrite nth_error_map. split.
    - intros (e & H1 & H2). destruct (nth_error (data t) n) as [r|]; simpl in *; [|discriminate].
      injection H1 as <-. simpl in H2. congruence.
    - destruct (nth_error (data t) n) as [r|]; simpl; [|discriminate].
      intros [=<-]. eexists; split; reflexivity.
  Qed.

  Lemma create_model_find_none data c id :
    create_model ck data = Ok c ->
    map_find (idmap c) id = None <-> forall t, ~ In id (map fst (data t)).
  Proof.
    intros H. split.
    - intros Hn t Hin. apply In_nth_error in Hin as [n Hn'].
      rewrite nth_error_map in Hn'. apply (create_model_find _ _ id t n H) in Hn'. congruence.
    - intros Hall. destruct (map_find (idmap c) id) as [[g p]|] eqn:E; auto.
      destruct (create_model_ok _ _ H) as [HI _].
      destruct (Inv_find _ _ _ _ HI E) as [Hg _]. apply idx_lt_ctype in Hg as [t <-].
      apply (create_model_find _ _ id t p H) in E. exfalso. apply (Hall t).
      eapply nth_error_In. rewrite nth_error_map. exact E.
  Qed.

  Lemma create_model_ids_unique data c :
    create_model ck data = Ok c ->
    forall id t1 n1 t2 n2,
      option_map fst (nth_error (data t1) n1) = Some id ->
      option_map fst (nth_error (data t2) n2) = Some id -> t1 = t2 /\ n1 = n2.
  Proof.
    intros H id t1 n1 t2 n2 H1 H2.
    apply (create_model_find _ _ id t1 n1 H) in H1. apply (create_model_find _ _ id t2 n2 H) in H2.
    rewrite H1 in H2. injection H2 as E1 E2. split; auto. now apply ctype_idx_inj.
  Qed.

  (** ** References *)
  Lemma get_component_ok g c id e :
    Inv c -> get_component g c id = Ok e ->
    exists t n, map_find (idmap c) id = Some (ctype_idx t, n) /\ derives g t = true /\
                nth_error (vec c (ctype_idx t)) n = Some e /\ e_id e = id.
  Proof.
    intros HI H. unfold get_component, get_idx_by_id_as, get_idx_by_id in H.
    destruct (map_find (idmap c) id) as [[gr p]|] eqn:E; simpl in H; [|discriminate].
    destruct (Inv_find _ _ _ _ HI E) as [Hg _]. apply idx_lt_ctype in Hg as [t <-].
    rewrite is_base_idx in H. destruct (derives g t) eqn:Ed; simpl in H; [|discriminate].
    destruct (get_item (is_base g) c (ctype_idx t, p)) as [e'|] eqn:Ei; [|discriminate].
    injection H as ->. apply get_item_val in Ei. exists t, p. repeat split; auto.
    apply HI in E as (e'' & H1 & H2). congruence.
  Qed.
End Building.

From Verif Require Import ContainerSpec.

Section References.
  Variable ck : ctype -> Z -> cinput -> option exn.
  Variable data : ctype -> list (Z * cinput).

  Lemma find_in_vec c id t n :
    Inv c -> map_find (idmap c) id = Some (ctype_idx t, n) ->
    exists e, nth_error (vec c (ctype_idx t)) n = Some e /\ e_id e = id.
  Proof. intros [_ H] E. now apply H in E. Qed.

  Definition kind_in (c : mcontainer) (g : gettable) (id : Z) : Prop :=
    exists t n, map_find (idmap c) id = Some (ctype_idx t, n) /\ derives g t = true.

  Lemma get_component_iff c g id :
    Inv c -> (exists e, get_component g c id = Ok e) <-> kind_in c g id.
  Proof.
    intros HI. split.
    - intros [e He]. apply get_component_ok in He as (t & n & H & Hd & _); auto. now exists t, n.
    - intros (t & n & H & Hd). unfold get_component, get_idx_by_id_as, get_idx_by_id. rewrite H. simpl.
      rewrite is_base_idx, Hd. simpl.
      destruct (proj2 (get_item_iff (is_base g) c (ctype_idx t) n)) as [x Hx].
      + destruct (Inv_find _ _ _ _ HI H) as [H1 H2]. destruct HI as [HL _]. rewrite HL, is_base_idx. auto.
      + rewrite Hx. eauto.
  Qed.

  Lemma kind_group c id t n : Inv c -> map_find (idmap c) id = Some (ctype_idx t, n) ->
    forall g, kind_in c g id <-> derives g t = true.
  Proof.
    intros HI H g. split.
    - intros (t' & n' & H' & Hd). rewrite H in H'. injection H' as E _. apply ctype_idx_inj in E. now subst.
    - intros Hd. now exists t, n.
  Qed.

  (** What a successful add_one says, in terms of the container before. *)
  Definition refs_in (c : mcontainer) (inp : cinput) : Prop :=
    match inp with
    | IBare => True
    | IBranch f to => kind_in c (GExact Node) f /\ kind_in c (GExact Node) to
    | IBranch3 n1 n2 n3 =>
        kind_in c (GExact Node) n1 /\ kind_in c (GExact Node) n2 /\ kind_in c (GExact Node) n3
    | IAppliance n | IVoltageSensor n | IFault n => kind_in c (GExact Node) n
    | IPowerSensor o term =>
        ~ kind_in c (GExact Link) o /\
        match term with
        | t_branch_from | t_branch_to => kind_in c GBranch o
        | t_branch3_1 | t_branch3_2 | t_branch3_3 => kind_in c GBranch3 o
        | t_source => kind_in c (GExact Source) o
        | t_shunt => kind_in c (GExact Shunt) o
        | t_load => kind_in c GGenericLoad o
        | t_generator => kind_in c GGenericGenerator o
        | t_node => kind_in c (GExact Node) o
        | t_invalid => False
        end
    | ICurrentSensor o term =>
        ~ kind_in c (GExact Link) o /\
        match term with
        | t_branch_from | t_branch_to => kind_in c GBranch o
        | t_branch3_1 | t_branch3_2 | t_branch3_3 => kind_in c GBranch3 o
        | _ => False
        end
    | ITapRegulator o side =>
        (kind_in c (GExact Transformer) o /\ (side = 0 \/ side = 1)%Z) \/
        (kind_in c (GExact ThreeWindingTransformer) o /\ (side = 0 \/ side = 1 \/ side = 2)%Z)
    | IVoltageRegulator o => kind_in c GGenericLoadGen o
    end.

  Lemma get_idx_group c id i : Inv c -> get_idx_by_id c id = Ok i ->
    exists t n, i = (ctype_idx t, n) /\ map_find (idmap c) id = Some (ctype_idx t, n).
  Proof.
    intros HI H. unfold get_idx_by_id in H. destruct (map_find (idmap c) id) as [[g p]|] eqn:E; [|discriminate].
    injection H as <-. destruct (Inv_find _ _ _ _ HI E) as [Hg _]. apply idx_lt_ctype in Hg as [t <-]. eauto.
  Qed.

  Lemma get_component_kind c g id e : Inv c -> get_component g c id = Ok e -> kind_in c g id.
  Proof. intros HI H. apply get_component_iff; eauto. Qed.

  Ltac inv_binds :=
    repeat match goal with
    | H : bind ?r _ = Ok _ |- _ => apply bind_ok in H; destruct H as (? & ? & H); cbv beta in H
    | H : (if ?b then _ else _) = Ok _ |- _ => destruct b eqn:?; [discriminate|]
    end.

  Lemma add_one_refs t c r c' : Inv c -> add_one ck t c r = Ok c' -> refs_in c (snd r).
  Proof.
    intros HI H. destruct r as [id inp]; simpl in H |- *. destruct inp; simpl in *; auto.
    1-4,7: inv_binds; repeat split; eapply get_component_kind; eauto.
    - apply bind_ok in H as (i & H1 & H). apply get_idx_group in H1 as (t0 & n & -> & H1); auto. simpl in H.
      destruct (Nat.eqb_spec (ctype_idx t0) 3) as [|Hn]; [discriminate|]. split.
      + rewrite (kind_group c obj t0 n HI H1). intros Hd. apply Hn. apply ctype_eqb_eq in Hd. now subst.
      + destruct term; inv_binds; try discriminate; eapply get_component_kind; eauto.
    - apply bind_ok in H as (i & H1 & H). apply get_idx_group in H1 as (t0 & n & -> & H1); auto. simpl in H.
      destruct (Nat.eqb_spec (ctype_idx t0) 3) as [|Hn]; [discriminate|]. split.
      + rewrite (kind_group c obj t0 n HI H1). intros Hd. apply Hn. apply ctype_eqb_eq in Hd. now subst.
      + destruct term; inv_binds; try discriminate; try (eapply get_component_kind; eauto).
    - apply bind_ok in H as (i & H1 & H). apply get_idx_group in H1 as (t0 & n & -> & H1); auto.
      rewrite !(kind_group c obj t0 n HI H1). simpl in H.
      destruct (Nat.eqb_spec (ctype_idx t0) 5) as [Ht|Hn].
      + left. split; [apply ctype_eqb_eq; apply ctype_idx_inj; auto|].
        inv_binds. destruct side as [|[| |]|]; auto; discriminate.
      + destruct (Nat.eqb_spec (ctype_idx t0) 6) as [Ht|Hn'].
        * right. split; [apply ctype_eqb_eq; apply ctype_idx_inj; auto|].
          inv_binds. destruct side as [|[[]|[]|]|]; auto; discriminate.
        * inv_binds. discriminate.
    - apply bind_ok in H as (i & H1 & H). apply get_idx_group in H1 as (t0 & n & -> & H1); auto.
      rewrite (kind_group c obj t0 n HI H1). destruct t0; simpl in H; try discriminate; reflexivity.
  Qed.

  (** The other direction. The entries in the container have the layout of their type and valid node references. *)
  Definition entries_ok (c : mcontainer) : Prop :=
    forall g p e, nth_error (vec c g) p = Some e ->
      ctype_idx (e_type e) = g /\ layout_ok (e_type e) (e_in e) /\ refs_in c (e_in e).

  Lemma get_component_type c g id e : Inv c -> entries_ok c -> get_component g c id = Ok e ->
    derives g (e_type e) = true /\ layout_ok (e_type e) (e_in e) /\ refs_in c (e_in e) /\
    exists n, map_find (idmap c) id = Some (ctype_idx (e_type e), n).
  Proof.
    intros HI HE H. apply get_component_ok in H as (t & n & H1 & Hd & H2 & H3); auto.
    apply HE in H2 as (H4 & H5 & H6). apply ctype_idx_inj in H4. subst. eauto.
  Qed.

  Lemma put_ok c t id inp : map_find (idmap c) id = None -> ck t id inp = None ->
    exists c', emplace c (ctype_idx t) id (construct ck t id inp) = Ok c'.
  Proof. intros H1 H2. unfold emplace, construct. rewrite H1, H2. simpl. eauto. Qed.

  Lemma kind_get c g id : Inv c -> kind_in c g id -> exists e, get_component g c id = Ok e.
  Proof. intros HI. apply get_component_iff; auto. Qed.

  Lemma branch_node_ok c o e from : Inv c -> entries_ok c -> get_component GBranch c o = Ok e ->
    exists n, branch_node e from = Ok n /\ kind_in c (GExact Node) n.
  Proof.
    intros HI HE H. apply get_component_type in H as (Hd & Hl & Hr & _); auto.
    unfold branch_node. destruct (e_type e), (e_in e); simpl in *; try discriminate; try tauto.
    all: destruct from; eexists; split; try reflexivity; tauto.
  Qed.
  Lemma transformer_node_ok c o e from : Inv c -> entries_ok c -> get_component (GExact Transformer) c o = Ok e ->
    exists n, branch_node e from = Ok n /\ kind_in c (GExact Node) n.
  Proof.
    intros HI HE H. apply get_component_type in H as (Hd & Hl & Hr & _); auto.
    unfold branch_node. destruct (e_type e), (e_in e); simpl in *; try discriminate; try tauto.
    all: destruct from; eexists; split; try reflexivity; tauto.
  Qed.
  Lemma branch3_node_ok c o e g side : (g = GBranch3 \/ g = GExact ThreeWindingTransformer) ->
    Inv c -> entries_ok c -> get_component g c o = Ok e ->
    exists n, branch3_node e side = Ok n /\ kind_in c (GExact Node) n.
  Proof.
    intros Hg HI HE H. apply get_component_type in H as (Hd & Hl & Hr & _); auto.
    unfold branch3_node. destruct Hg as [-> | ->];
    destruct (e_type e), (e_in e); simpl in *; try discriminate; try tauto;
    destruct side as [|[|]]; eexists; split; try reflexivity; tauto.
  Qed.

  Lemma kind_idx c g id : kind_in c g id ->
    exists t n, get_idx_by_id c id = Ok (ctype_idx t, n) /\ map_find (idmap c) id = Some (ctype_idx t, n) /\
                derives g t = true.
  Proof. intros (t & n & H & Hd). exists t, n. unfold get_idx_by_id. now rewrite H. Qed.

  Lemma add_one_reduce t c id inp :
    Inv c -> entries_ok c -> refs_in c inp ->
    add_one ck t c (id, inp) = emplace c (ctype_idx t) id (construct ck t id inp).
  Proof.
    intros HI HE HR.
    destruct inp; simpl in *; auto.
    - destruct HR as [H1 H2]. apply kind_get in H1 as [? ->], H2 as [? ->]; auto.
    - destruct HR as (H1 & H2 & H3). apply kind_get in H1 as [? ->], H2 as [? ->], H3 as [? ->]; auto.
    - apply kind_get in HR as [? ->]; auto.
    - apply kind_get in HR as [? ->]; auto.
    - destruct HR as [Hnl HR].
      assert (exists g, kind_in c g obj) as [g Hg] by (destruct term; eauto; tauto).
      apply kind_idx in Hg as (t0 & n & -> & Hm & _). simpl.
      destruct (Nat.eqb_spec (ctype_idx t0) 3) as [E|Hn].
      + exfalso. apply Hnl. apply (kind_group c obj t0 n HI Hm). apply ctype_eqb_eq. now apply ctype_idx_inj.
      + destruct term; try tauto; apply kind_get in HR as [? ->]; auto.
    - destruct HR as [Hnl HR].
      assert (exists g, kind_in c g obj) as [g Hg] by (destruct term; eauto; tauto).
      apply kind_idx in Hg as (t0 & n & -> & Hm & _). simpl.
      destruct (Nat.eqb_spec (ctype_idx t0) 3) as [E|Hn].
      + exfalso. apply Hnl. apply (kind_group c obj t0 n HI Hm). apply ctype_eqb_eq. now apply ctype_idx_inj.
      + destruct term; try tauto; apply kind_get in HR as [e He]; auto; rewrite He; simpl.
        * destruct (branch_node_ok c obj e true HI HE He) as (nd & -> & Hk). simpl. apply kind_get in Hk as [? ->]; auto.
        * destruct (branch_node_ok c obj e false HI HE He) as (nd & -> & Hk). simpl. apply kind_get in Hk as [? ->]; auto.
        * destruct (branch3_node_ok c obj e _ 0 (or_introl eq_refl) HI HE He) as (nd & -> & Hk). simpl. apply kind_get in Hk as [? ->]; auto.
        * destruct (branch3_node_ok c obj e _ 1 (or_introl eq_refl) HI HE He) as (nd & -> & Hk). simpl. apply kind_get in Hk as [? ->]; auto.
        * destruct (branch3_node_ok c obj e _ 2 (or_introl eq_refl) HI HE He) as (nd & -> & Hk). simpl. apply kind_get in Hk as [? ->]; auto.
    - apply kind_get in HR as [? ->]; auto.
    - destruct HR as [[Hk Hs]|[Hk Hs]].
      + destruct (kind_get _ _ _ HI Hk) as [e He].
        apply kind_idx in Hk as (t0 & n & -> & Hm & Hd). apply ctype_eqb_eq in Hd; subst t0. simpl.
        rewrite He. simpl. destruct Hs as [-> | ->].
        * destruct (transformer_node_ok c obj e true HI HE He) as (nd & -> & Hk). simpl. apply kind_get in Hk as [? ->]; auto.
        * destruct (transformer_node_ok c obj e false HI HE He) as (nd & -> & Hk). simpl. apply kind_get in Hk as [? ->]; auto.
      + destruct (kind_get _ _ _ HI Hk) as [e He].
        apply kind_idx in Hk as (t0 & n & -> & Hm & Hd). apply ctype_eqb_eq in Hd; subst t0. simpl.
        rewrite He. simpl. destruct Hs as [-> | [-> | ->]].
        * destruct (branch3_node_ok c obj e _ 0 (or_intror eq_refl) HI HE He) as (nd & -> & Hk). simpl. apply kind_get in Hk as [? ->]; auto.
        * destruct (branch3_node_ok c obj e _ 1 (or_intror eq_refl) HI HE He) as (nd & -> & Hk). simpl. apply kind_get in Hk as [? ->]; auto.
        * destruct (branch3_node_ok c obj e _ 2 (or_intror eq_refl) HI HE He) as (nd & -> & Hk). simpl. apply kind_get in Hk as [? ->]; auto.
    - apply kind_idx in HR as (t0 & n & -> & Hm & Hd). simpl.
      destruct t0; simpl in *; try discriminate; auto.
  Qed.

  Definition map_le (c c' : mcontainer) : Prop :=
    forall id x, map_find (idmap c) id = Some x -> map_find (idmap c') id = Some x.

  Lemma map_le_trans a b c : map_le a b -> map_le b c -> map_le a c.
  Proof. unfold map_le; auto. Qed.

  Lemma kind_in_le c c' g id : map_le c c' -> kind_in c g id -> kind_in c' g id.
  Proof. intros HL (t & n & H & Hd). exists t, n. auto. Qed.

  Lemma not_link_le c c' o g : Inv c' -> map_le c c' -> kind_in c g o ->
    ~ kind_in c (GExact Link) o -> ~ kind_in c' (GExact Link) o.
  Proof.
    intros HI HL (t & n & H & _) Hn Hk. apply Hn. apply HL in H as H'.
    apply (kind_group c' o t n HI H') in Hk. now exists t, n.
  Qed.

  Lemma refs_in_le c c' inp : Inv c' -> map_le c c' -> refs_in c inp -> refs_in c' inp.
  Proof.
    intros HI HL H. assert (HK := fun g id => kind_in_le c c' g id HL).
    destruct inp; simpl in *; try (intuition auto; fail).
    - destruct H as [Hn H]. split; [|destruct term; try contradiction; auto].
      assert (exists g, kind_in c g obj) as [g Hg] by (destruct term; eauto; tauto).
      exact (not_link_le c c' obj g HI HL Hg Hn).
    - destruct H as [Hn H]. split; [|destruct term; try contradiction; auto].
      assert (exists g, kind_in c g obj) as [g Hg] by (destruct term; eauto; tauto).
      exact (not_link_le c c' obj g HI HL Hg Hn).
  Qed.

  Lemma foldM_add_one_in t rs c c' r :
    Inv c -> foldM (add_one ck t) rs c = Ok c' -> In r rs ->
    exists c0 c1, Inv c0 /\ add_one ck t c0 r = Ok c1 /\ map_le c c0 /\ map_le c0 c'.
  Proof.
    revert c; induction rs as [|r0 rs IH]; intros c HI H Hin; [destruct Hin|].
    cbn [foldM] in H. destruct (add_one ck t c r0) as [c1|] eqn:E; [|discriminate].
    assert (E' := E). apply add_one_emplace in E'. apply emplace_ok in E' as (HI1 & Hf & _ & Hm & _); auto.
    assert (HL : map_le c c1).
    { intros id x Hx. rewrite Hm. cbn [map_find]. destruct (Z.eqb_spec (fst r0) id); [congruence|auto]. }
    assert (HL1 : map_le c1 c') by (eapply foldM_add_one in H as (_ & Hm' & _); eauto).
    destruct Hin as [->|Hin].
    - exists c, c1. refine (conj HI (conj E (conj _ _))); [intros ? ?; auto|]. eapply map_le_trans; eauto.
    - destruct (IH _ HI1 H Hin) as (c2 & c3 & ? & ? & ? & ?). exists c2, c3.
      refine (conj _ (conj _ (conj _ _))); auto. eapply map_le_trans; eauto.
  Qed.

  Lemma foldM_add_component_in l c c' t rs :
    Inv c -> foldM (add_component ck) l c = Ok c' -> In (t, rs) l ->
    exists c0 c1, Inv c0 /\ add_component ck c0 (t, rs) = Ok c1 /\ map_le c1 c'.
  Proof.
    revert c; induction l as [|[t0 rs0] l IH]; intros c HI H Hin; [destruct Hin|].
    cbn [foldM] in H. destruct (add_component ck c (t0, rs0)) as [c1|] eqn:E; [|discriminate].
    assert (E' := E). apply add_component_ok in E' as (HI1 & HL & _); auto.
    destruct Hin as [Heq|Hin]; [|eauto].
    injection Heq as -> ->. exists c, c1. refine (conj HI (conj E _)).
    clear - H HI1. revert c1 HI1 H. induction l as [|[t1 rs1] l IH]; intros c1 HI1 H; cbn [foldM] in H.
    - injection H as <-. intros ? ?; auto.
    - destruct (add_component ck c1 (t1, rs1)) as [c2|] eqn:E; [|discriminate].
      apply add_component_ok in E as (HI2 & HL & _); auto. eapply map_le_trans; eauto.
  Qed.

  Lemma kind_data c g id : create_model ck data = Ok c -> kind_in c g id <-> has_kind data g id.
  Proof.
    intros H. unfold kind_in, has_kind, record_at. split; intros (t & n & H1 & H2); exists t, n; split; auto;
      now apply (create_model_find ck data c id t n H).
  Qed.

  Lemma refs_data c inp : create_model ck data = Ok c -> refs_in c inp <-> references_ok data inp.
  Proof.
    intros H. assert (HK := fun g id => kind_data c g id H).
    destruct inp; simpl; rewrite ?HK; try tauto; destruct term; rewrite ?HK; tauto.
  Qed.

  Lemma has_dup_false l : has_dup l = false <-> NoDup l.
  Proof.
    assert (He : forall a b, idx2d_eqb a b = true <-> a = b).
    { intros [a1 a2] [b1 b2]. unfold idx2d_eqb; simpl. rewrite andb_true_iff, !Nat.eqb_eq.
      split; [intros [-> ->]; auto | intros [= -> ->]; auto]. }
    induction l as [|a l IH]; simpl; [split; auto using NoDup_nil|].
    rewrite orb_false_iff, IH, NoDup_cons_iff.
    enough (existsb (idx2d_eqb a) l = false <-> ~ In a l) by tauto.
    rewrite <- not_true_iff_false, existsb_exists. split; intros Hn Hi; apply Hn.
    - exists a; split; auto. now apply He.
    - destruct Hi as (x & Hx & E). apply He in E. now subst.
  Qed.


  Lemma create_sound c : create_model ck data = Ok c ->
    ids_unique data /\ one_regulator_each data /\
    forall t r, In r (data t) -> references_ok data (snd r) /\ ck t (fst r) (snd r) = None.
  Proof.
    intros H. assert (HI := proj1 (create_model_ok _ _ _ H)).
    split; [exact (create_model_ids_unique _ _ _ H)|].
    assert (HC : forall t, exists c0 c1, Inv c0 /\ add_component ck c0 (t, data t) = Ok c1 /\ map_le c1 c).
    { intros t. unfold create_model in H. eapply foldM_add_component_in in H; eauto using Inv_empty.
      apply in_map_iff. exists t; split; auto. apply all_ctypes_complete. }
    split.
    - intros t n1 n2 r1 r2 o Hn1 Hn2 Ho1 Ho2.
      destruct (HC t) as (c0 & c1 & HI0 & HA & HL). apply add_component_ok in HA as (HI1 & HL01 & HV & HF & HD); auto.
      apply has_dup_false in HD.
      apply nth_error_In in Hn1 as Hi1. destruct (foldM_add_one_in _ _ _ _ _ HI0 HF Hi1) as (d0 & d1 & HId & Hd & _ & Hle).
      assert (exists i, map_find (idmap c1) o = Some i) as [i Hi].
      { apply add_one_refs in Hd; auto. destruct (snd r1); simpl in Ho1; try discriminate; injection Ho1 as ->.
        - destruct Hd as [[(t' & n & Hx & _) _]|[(t' & n & Hx & _) _]]; eexists; apply Hle; eauto.
        - destruct Hd as (t' & n & Hx & _); eexists; apply Hle; eauto. }
      eapply NoDup_flat_map with (y := i); eauto.
      + unfold regulated_ref. destruct (snd r1); simpl in Ho1; try discriminate; injection Ho1 as ->; rewrite Hi; simpl; auto.
      + unfold regulated_ref. destruct (snd r2); simpl in Ho2; try discriminate; injection Ho2 as ->; rewrite Hi; simpl; auto.
    - intros t r Hr.
      destruct (HC t) as (c0 & c1 & HI0 & HA & HL). apply add_component_ok in HA as (HI1 & HL01 & HV & HF & _); auto.
      destruct (foldM_add_one_in _ _ _ _ _ HI0 HF Hr) as (d0 & d1 & HId & Hd & _ & Hle). split.
      + apply (refs_data c); auto. eapply refs_in_le; [auto| |eapply add_one_refs; eauto].
        eapply map_le_trans; eauto.
      + apply add_one_emplace in Hd. apply emplace_ok in Hd; tauto.
  Qed.

  (** Completeness. *)
  Definition Part (k : ctype -> nat) (c : mcontainer) : Prop :=
    Inv c /\ forall t, vec c (ctype_idx t) = entries t (firstn (k t) (data t)).

  Lemma Part_find k c id t n : Part k c ->
    map_find (idmap c) id = Some (ctype_idx t, n) <-> n < k t /\ record_at data t n id.
  Proof.
    intros [[HL HM] HV]. rewrite HM, HV. unfold entries, record_at. rewrite nth_error_map, nth_error_firstn.
    destruct (Nat.ltb_spec n (k t)); simpl.
    - split.
      + intros (e & H1 & H2). destruct (nth_error (data t) n) as [r|]; simpl in *; [|discriminate].
        injection H1 as <-. simpl in H2. split; auto; congruence.
      + intros [_ H1]. destruct (nth_error (data t) n) as [r|]; simpl in *; [|discriminate].
        injection H1 as <-. eexists; split; reflexivity.
    - split; [intros (? & H1 & _); discriminate | lia].
  Qed.

  Hypothesis HLay : layouts_ok data.
  Hypothesis HO : one_regulator_each data.
  Hypothesis HR : forall t r, In r (data t) -> references_ok data (snd r) /\ ck t (fst r) (snd r) = None.

  Lemma Part_kind k c g id : Part k c -> kind_in c g id -> has_kind data g id.
  Proof. intros HP (t & n & H & Hd). exists t, n. split; auto. now apply (Part_find k c id t n HP) in H. Qed.

  Definition full_below (k : ctype -> nat) (i : nat) : Prop :=
    forall t, ctype_idx t < i -> length (data t) <= k t.

  Lemma Part_has k c g id i : Part k c -> full_below k i ->
    (forall t, derives g t = true -> ctype_idx t < i) -> has_kind data g id -> kind_in c g id.
  Proof.
    intros HP Hk Hg (t & n & H & Hd). exists t, n. split; auto. apply (Part_find k c id t n HP). split; auto.
    specialize (Hk t (Hg t Hd)). unfold record_at in H.
    enough (n < length (data t)) by lia. apply nth_error_Some. destruct (nth_error (data t) n); simpl in *; congruence.
  Qed.

  Ltac by_cases := let x := fresh in intros x; destruct x; simpl; (discriminate || lia || auto).

  Lemma Part_refs k c t inp : Part k c -> full_below k (ctype_idx t) -> layout_ok t inp ->
    references_ok data inp -> refs_in c inp.
  Proof.
    intros HP Hk Hl H. assert (HH := fun g id Hg => Part_has k c g id _ HP Hk Hg).
    assert (HN := fun o Hn Hc => Hn (Part_kind k c (GExact Link) o HP Hc) : False).
    destruct inp; simpl in H |- *.
    - auto.
    - destruct H; split; apply HH; auto; destruct t; simpl in Hl; try contradiction; by_cases.
    - destruct H as (? & ? & ?); repeat split; apply HH; auto; destruct t; simpl in Hl; try contradiction; by_cases.
    - apply HH; auto; destruct t; simpl in Hl; try contradiction; by_cases.
    - apply HH; auto; destruct t; simpl in Hl; try contradiction; by_cases.
    - destruct H as [H1 H2]. split; [exact (HN _ H1)|].
      destruct term; try contradiction; apply HH; auto; destruct t; simpl in Hl; try contradiction; by_cases.
    - destruct H as [H1 H2]. split; [exact (HN _ H1)|].
      destruct term; try contradiction; apply HH; auto; destruct t; simpl in Hl; try contradiction; by_cases.
    - apply HH; auto; destruct t; simpl in Hl; try contradiction; by_cases.
    - destruct H as [[H1 H2]|[H1 H2]]; [left|right]; split; auto; apply HH; auto;
        destruct t; simpl in Hl; try contradiction; by_cases.
    - apply HH; auto; destruct t; simpl in Hl; try contradiction; by_cases.
  Qed.

  Lemma full_below_le k i j : full_below k i -> j <= i -> full_below k j.
  Proof. intros H Hle t Ht. apply H. lia. Qed.

  Lemma Part_entries_ok k c i : Part k c -> full_below k i ->
    (forall t, i < ctype_idx t -> k t = 0) -> entries_ok c.
  Proof.
    intros HP Hk Hz g p e He.
    assert (Hg : g < length all_ctypes).
    { destruct HP as [[HL _] _]. rewrite <- HL. unfold vec in He. destruct (lt_dec g (length (vectors c))); auto.
      rewrite nth_overflow in He by lia. destruct p; discriminate. }
    apply idx_lt_ctype in Hg as [t <-]. assert (HV := proj2 HP t). rewrite HV in He. unfold entries in He.
    rewrite nth_error_map, nth_error_firstn in He.
    destruct (Nat.ltb_spec p (k t)) as [Hp|]; [|discriminate].
    destruct (nth_error (data t) p) as [r|] eqn:Er; [|discriminate]. simpl in He. injection He as <-. simpl.
    apply nth_error_In in Er. repeat split; auto.
    apply (Part_refs k c t); auto.
    - apply full_below_le with i; auto. destruct (le_lt_dec (ctype_idx t) i); auto. rewrite Hz in Hp; lia.
    - now apply (HR t r).
  Qed.

  Definition kset (k : ctype -> nat) (t : ctype) (n : nat) : ctype -> nat :=
    fun t' => if ctype_eqb t' t then n else k t'.

  Lemma Part_step k c t r c' :
    Part k c -> nth_error (data t) (k t) = Some r -> add_one ck t c r = Ok c' -> Part (kset k t (S (k t))) c'.
  Proof.
    intros [HI HV] Hr H. apply add_one_emplace in H. apply emplace_ok in H as (HI' & _ & _ & _ & HV'); auto.
    split; auto. intros t'. rewrite HV', HV. unfold kset, ctype_eqb.
    destruct (Nat.eqb_spec (ctype_idx t') (ctype_idx t)) as [E|]; auto.
    apply ctype_idx_inj in E. subst t'. unfold entries.
    assert (HF : firstn (S (k t)) (data t) = firstn (k t) (data t) ++ [r]).
    { clear - Hr. revert Hr. generalize (k t). induction (data t) as [|x l IH]; intros [|n] H; simpl in *; try discriminate.
      - congruence.
      - f_equal. now apply IH. }
    rewrite HF, map_app. simpl. reflexivity.
  Qed.

  (** [id] is used by two different records. *)
  Definition twice (id : Z) : Prop :=
    exists t1 n1 t2 n2, record_at data t1 n1 id /\ record_at data t2 n2 id /\ (t1, n1) <> (t2, n2).

  Lemma foldM_complete t rs k c :
    Part k c -> full_below k (ctype_idx t) -> (forall t', ctype_idx t < ctype_idx t' -> k t' = 0) ->
    data t = firstn (k t) (data t) ++ rs -> k t <= length (data t) ->
    (exists c', foldM (add_one ck t) rs c = Ok c' /\ Part (kset k t (length (data t))) c') \/
    (exists id, foldM (add_one ck t) rs c = Err (ConflictID id) /\ twice id).
  Proof.
    revert k c; induction rs as [|r rs IH]; intros k c HP Hk Hz Hd Hlen.
    - left. exists c. split; auto. destruct HP as [HI HV]. split; auto. intros t'. rewrite HV. unfold kset.
      destruct (ctype_eqb t' t) eqn:E; auto. apply ctype_eqb_eq in E; subst. f_equal.
      rewrite app_nil_r in Hd. rewrite <- Hd. symmetry. apply firstn_all2. lia.
    - assert (Hn : nth_error (data t) (k t) = Some r).
      { rewrite Hd. rewrite nth_error_app2; rewrite firstn_length_le by lia; auto. now rewrite Nat.sub_diag. }
      assert (Hin := nth_error_In _ _ Hn). destruct (HR t r Hin) as [HRr HCr]. destruct r as [id inp].
      assert (Hred : add_one ck t c (id, inp) = emplace c (ctype_idx t) id (construct ck t id inp)).
      { apply add_one_reduce; [apply HP|eapply Part_entries_ok; eauto|].
        eapply Part_refs; eauto. exact (HLay t (id, inp) Hin). }
      cbn [foldM].
      destruct (map_find (idmap c) id) as [[g p]|] eqn:Ef.
      { right. exists id. rewrite Hred. unfold emplace. rewrite Ef. split; auto.
        destruct (Inv_find _ _ _ _ (proj1 HP) Ef) as [Hg _]. apply idx_lt_ctype in Hg as [t' <-].
        apply (Part_find k c id t' p HP) in Ef as [Hp Hrec].
        exists t', p, t, (k t). repeat split; auto.
        - unfold record_at. now rewrite Hn.
        - intros [= -> ->]. lia. }
      destruct (put_ok c t id inp Ef HCr) as [c1 Hc1]. rewrite <- Hred in Hc1. rewrite Hc1.
      assert (HP' := Part_step _ _ _ _ _ HP Hn Hc1).
      assert (Hk1 : full_below (kset k t (S (k t))) (ctype_idx t)).
      { intros t' Ht'. unfold kset. destruct (ctype_eqb t' t) eqn:E; [|auto].
        apply ctype_eqb_eq in E; subst; lia. }
      assert (Hz1 : forall t', ctype_idx t < ctype_idx t' -> kset k t (S (k t)) t' = 0).
      { intros t' Ht'. unfold kset. destruct (ctype_eqb t' t) eqn:E; [|auto].
        apply ctype_eqb_eq in E; subst; lia. }
      assert (Htt : ctype_eqb t t = true) by now apply ctype_eqb_eq.
      destruct (IH _ _ HP' Hk1 Hz1) as [(c' & Hf & Hp')|Hc].
      + unfold kset at 1. rewrite Htt.
        assert (HF : firstn (S (k t)) (data t) = firstn (k t) (data t) ++ [(id, inp)]).
        { clear - Hn. revert Hn. generalize (k t). induction (data t) as [|x l IH]; intros [|n] H; simpl in *; try discriminate.
          - congruence.
          - f_equal. now apply IH. }
        rewrite HF, <- app_assoc. exact Hd.
      + unfold kset. rewrite Htt. apply nth_error_Some. congruence.
      + left. exists c'. split; auto. destruct Hp' as [HI' HV']. split; auto. intros t'. rewrite HV'. unfold kset.
        destruct (ctype_eqb t' t); auto.
      + right. exact Hc.
  Qed.

  Lemma add_component_complete t k c :
    Part k c -> full_below k (ctype_idx t) -> (forall t', ctype_idx t <= ctype_idx t' -> k t' = 0) ->
    (exists c', add_component ck c (t, data t) = Ok c' /\ Part (kset k t (length (data t))) c') \/
    (exists id, add_component ck c (t, data t) = Err (ConflictID id) /\ twice id).
  Proof.
    intros HP Hk Hz. destruct (foldM_complete t (data t) k c) as [(c' & Hf & HP')|(id & Hf & Ht)]; auto.
    - intros t' Ht'. apply Hz; lia.
    - rewrite Hz by lia. reflexivity.
    - rewrite Hz by lia. lia.
    - left. exists c'. split; auto. unfold add_component. rewrite Hf. simpl.
      replace (has_dup (flat_map (regulated_ref c') (data t))) with false; auto. symmetry.
      apply has_dup_false. apply NoDup_flat_map_intro.
      + intros [id inp] _. unfold regulated_ref; simpl. destruct inp; try constructor;
          destruct (map_find (idmap c') obj); repeat constructor; auto.
      + intros n1 n2 x1 x2 i Hn1 Hn2 Hy1 Hy2.
        assert (Hr : forall x, In i (regulated_ref c' x) -> exists o, regulated_id (snd x) = Some o /\ map_find (idmap c') o = Some i).
        { intros [id inp]. unfold regulated_ref; simpl. destruct inp; simpl; try tauto;
            destruct (map_find (idmap c') obj) eqn:E; simpl; try tauto; intros [<-|[]]; eauto. }
        destruct (Hr _ Hy1) as (o1 & Ho1 & Hf1). destruct (Hr _ Hy2) as (o2 & Ho2 & Hf2).
        assert (o1 = o2).
        { destruct HP' as [[_ HM] _]. destruct i as [g p]. apply HM in Hf1 as (e1 & E1 & <-). apply HM in Hf2 as (e2 & E2 & <-). congruence. }
        subst o2. eapply HO; eauto.
    - right. exists id. split; auto. unfold add_component. now rewrite Hf.
  Qed.

  Lemma foldM_err {A B} (f : B -> A -> res B) l1 l2 b e : foldM f l1 b = Err e -> foldM f (l1 ++ l2) b = Err e.
  Proof. intros H. rewrite foldM_app, H. reflexivity. Qed.

  Lemma create_complete :
    (exists c, create_model ck data = Ok c) \/ (exists id, create_model ck data = Err (ConflictID id) /\ twice id).
  Proof.
    unfold create_model.
    assert (HS : forall n, n <= length all_ctypes ->
      (exists c k, foldM (add_component ck) (map (fun t => (t, data t)) (firstn n all_ctypes))
                    (empty_container (length all_ctypes)) = Ok c /\ Part k c /\
        full_below k n /\ (forall t, n <= ctype_idx t -> k t = 0)) \/
      (exists id, foldM (add_component ck) (map (fun t => (t, data t)) (firstn n all_ctypes))
                    (empty_container (length all_ctypes)) = Err (ConflictID id) /\ twice id)).
    { induction n as [|n IH]; intros Hn.
      - left. exists (empty_container (length all_ctypes)), (fun _ => 0). repeat split; auto; try apply Inv_empty.
        + intros t. now rewrite vec_empty.
        + intros t Ht. lia.
      - assert (HF : forall t, nth_error all_ctypes n = Some t -> firstn (S n) all_ctypes = firstn n all_ctypes ++ [t]).
        { clear. revert n. induction all_ctypes as [|x l IH]; intros [|n] t H; simpl in *; try discriminate.
          - congruence.
          - f_equal. now apply IH. }
        destruct IH as [(c & k & Hf & HP & Hk & Hz)|(id & Hf & Ht)]; [lia| |].
        2: { right. exists id. split; auto.
             destruct (nth_error all_ctypes n) as [t|] eqn:Et; [|apply nth_error_None in Et; lia].
             rewrite (HF t eq_refl), map_app. now apply foldM_err. }
        destruct (nth_error all_ctypes n) as [t|] eqn:Et; [|apply nth_error_None in Et; lia].
        assert (Hi : ctype_idx t = n).
        { eapply NoDup_nth_error; [apply all_ctypes_NoDup|apply ctype_idx_lt|]. rewrite all_ctypes_nth. auto. }
        rewrite (HF t eq_refl), map_app, foldM_app, Hf. cbn [bind map foldM].
        destruct (add_component_complete t k c) as [(c' & Ha & HP')|(id & Ha & Ht)]; auto.
        { now rewrite Hi. }
        { now rewrite Hi. }
        2: { right. exists id. split; auto. now rewrite Ha. }
        left. exists c', (kset k t (length (data t))). split; [|split; [auto|]].
        + now rewrite Ha.
        + split.
          * intros t' Ht'. unfold kset. destruct (ctype_eqb t' t) eqn:E.
            -- apply ctype_eqb_eq in E; subst; lia.
            -- apply Hk. assert (ctype_idx t' <> ctype_idx t); [|lia].
               intros E'. apply ctype_idx_inj in E'. subst. unfold ctype_eqb in E. rewrite Nat.eqb_refl in E. discriminate.
          * intros t' Ht'. unfold kset. destruct (ctype_eqb t' t) eqn:E.
            -- apply ctype_eqb_eq in E; subst; lia.
            -- apply Hz; lia. }
    destruct (HS (length all_ctypes)) as [(c & k & Hf & _)|(id & Hf & Ht)]; auto.
    - left. exists c. now rewrite firstn_all in Hf.
    - right. exists id. now rewrite firstn_all in Hf.
  Qed.
End References.

Lemma lists_items ck data c g : create_model ck data = Ok c ->
  map (fun e => (e_type e, e_id e)) (concat (lists_of (is_base g) c)) = items_of_kind data g.
Proof.
  intros H. destruct (create_model_ok _ _ _ H) as [[HL _] HV].
  unfold lists_of, items_of_kind. rewrite HL, flat_map_concat_map, concat_map.
  f_equal. rewrite map_map.
  transitivity (map (fun i => match nth_error all_ctypes i with
                  | Some t => if derives g t then map (fun r => (t, fst r)) (data t) else [] | None => [] end)
                (seq 0 (length all_ctypes))); [|reflexivity].
  apply map_ext_in. intros i Hi. apply in_seq in Hi as [_ Hi]. simpl in Hi.
  apply idx_lt_ctype in Hi as [t <-]. rewrite is_base_idx, all_ctypes_nth, HV.
  destruct (derives g t); auto. unfold entries. rewrite map_map. reflexivity.
Qed.

Lemma mapM_ok {A B} (f : A -> res B) l bs : mapM f l = Ok bs <-> Forall2 (fun a b => f a = Ok b) l bs.
Proof.
  revert bs; induction l as [|a l IH]; intros bs; simpl.
  - split; [intros [= <-]; constructor | intros H; inversion H; auto].
  - split.
    + intros H. apply bind_ok in H as (b & Hb & H). apply bind_ok in H as (bs' & Hbs & H). injection H as <-.
      constructor; auto. now apply IH.
    + intros H. inversion H as [|? b ? bs' Hb Hbs]; subst. rewrite Hb. simpl. apply IH in Hbs. now rewrite Hbs.
Qed.

Lemma mapM_err {A B} (f : A -> res B) l e : mapM f l = Err e <->
  exists pre a post, l = pre ++ a :: post /\ (forall x, In x pre -> exists b, f x = Ok b) /\ f a = Err e.
Proof.
  induction l as [|a l IH]; simpl.
  - split; [discriminate|]. intros ([|] & ? & ? & H & _); discriminate.
  - destruct (f a) as [b|e'] eqn:Ea; simpl.
    + split.
      * destruct (mapM f l) as [bs|e']; simpl; [discriminate|]. intros H. apply IH in H as (pre & x & post & -> & H1 & H2).
        exists (a :: pre), x, post. repeat split; auto. intros y [<-|Hy]; eauto.
      * intros ([|p pre] & x & post & Hl & H1 & H2); simpl in Hl; injection Hl as <- Hl; [congruence|].
        replace (mapM f l) with (@Err (list B) e); auto. symmetry. apply IH. exists pre, x, post. repeat split; auto.
        intros y Hy. apply H1. simpl; auto.
    + split.
      * intros [= ->]. exists [], a, l. repeat split; auto. intros x [].
      * intros ([|p pre] & x & post & Hl & H1 & H2); simpl in Hl; injection Hl as <- Hl; [congruence|].
        destruct (H1 a) as [b Hb]; simpl; auto. congruence.
Qed.

Lemma get_idx_as_iff ck data c t id : create_model ck data = Ok c ->
  match (let! i := get_idx_by_id_as (is_base (GExact t)) c id in Ok (snd i)) with
  | Ok n => record_at data t n id
  | Err e => (e = IDNotFound id /\ forall t' n, ~ record_at data t' n id) \/
             (e = IDWrongType id /\ exists t' n, t' <> t /\ record_at data t' n id)
  end.
Proof.
  intros H. unfold get_idx_by_id_as, get_idx_by_id.
  destruct (map_find (idmap c) id) as [[g p]|] eqn:E; simpl.
  - destruct (create_model_ok _ _ _ H) as [HI _].
    destruct (Inv_find _ _ _ _ HI E) as [Hg _]. apply idx_lt_ctype in Hg as [t' <-].
    apply (create_model_find ck data c id t' p H) in E.
    rewrite is_base_idx. simpl. destruct (ctype_eqb t t') eqn:Et; simpl.
    + apply ctype_eqb_eq in Et; subst. exact E.
    + right. split; auto. exists t', p. split; auto. intros ->.
      unfold ctype_eqb in Et; rewrite Nat.eqb_refl in Et; discriminate.
  - left. split; auto. intros t' n Hn. apply (create_model_find ck data c id t' n H) in Hn. congruence.
Qed.

Lemma get_indexer_ok ck data c t ids l : create_model ck data = Ok c ->
  get_indexer c t ids = Ok l <-> Forall2 (fun id n => record_at data t n id) ids l.
Proof.
  intros H. unfold get_indexer. rewrite mapM_ok.
  split; intros HF; induction HF as [|id n ids l H1 HF IH]; constructor; auto.
  - assert (Hs := get_idx_as_iff ck data c t id H). now rewrite H1 in Hs.
  - assert (Hs := get_idx_as_iff ck data c t id H).
    destruct (let! i := get_idx_by_id_as _ c id in _) as [n'|e].
    + f_equal. now destruct (create_model_ids_unique ck data c H id t n' t n Hs H1).
    + exfalso. destruct Hs as [[_ Hs]|[_ (t' & n' & Hne & Hs)]]; [now apply (Hs t n)|].
      destruct (create_model_ids_unique ck data c H id t' n' t n Hs H1); auto.
Qed.

Lemma get_indexer_err ck data c t ids e : create_model ck data = Ok c ->
  get_indexer c t ids = Err e <->
  exists pre id post, ids = pre ++ id :: post /\ (forall x, In x pre -> exists n, record_at data t n x) /\
    ((e = IDNotFound id /\ forall t' n, ~ record_at data t' n id) \/
     (e = IDWrongType id /\ exists t' n, t' <> t /\ record_at data t' n id)).
Proof.
  intros H. unfold get_indexer. rewrite mapM_err.
  assert (Hs := fun id => get_idx_as_iff ck data c t id H).
  assert (HU := create_model_ids_unique ck data c H).
  split; intros (pre & id & post & -> & H1 & H2); exists pre, id, post; repeat split; auto.
  - intros x Hx. destruct (H1 x Hx) as [n Hn]. specialize (Hs x). rewrite Hn in Hs. eauto.
  - specialize (Hs id). now rewrite H2 in Hs.
  - intros x Hx. destruct (H1 x Hx) as [n Hn]. specialize (Hs x).
    destruct (let! i := get_idx_by_id_as _ c x in _) as [n'|e']; eauto. exfalso.
    destruct Hs as [[_ Hs]|[_ (t' & n' & Hne & Hs)]]; [now apply (Hs t n)|].
    destruct (HU x t' n' t n Hs Hn); auto.
  - specialize (Hs id).
    destruct (let! i := get_idx_by_id_as _ c id in _) as [n'|e'].
    + exfalso. destruct H2 as [[_ H2]|[_ (t' & n & Hne & H2)]]; [now apply (H2 t n')|].
      destruct (HU id t' n t n' H2 Hs); auto.
    + f_equal. destruct H2 as [[-> H2]|[-> (t' & n & Hne & H2)]], Hs as [[-> Hs]|[-> (t2 & n2 & Hne2 & Hs)]]; auto.
      * exfalso. now apply (H2 t2 n2).
      * exfalso. now apply (Hs t' n).
Qed.
