(** Proofs about Serial.v: what is written and how it is read back *)
From Coq Require Import String Permutation.
From Verif Require Import Common Serial SerialSpec SerialFacts.
Local Open Scope nat_scope.

Lemma nth_error_repeat_eq {A} (x : A) n i : i < n -> nth_error (repeat x n) i = Some x.
Proof. revert i. induction n as [|n IH]; intros i H; [lia|]. destruct i; [reflexivity|]. cbn. apply IH. lia. Qed.
Lemma fits_le n m : n <= m -> fits m -> fits n.
Proof. unfold fits. lia. Qed.
Lemma filter_len {A} (p : A -> bool) l : List.length (filter p l) <= List.length l.
Proof. induction l as [|a l IH]; cbn [filter List.length]; [lia|]. destruct (p a); cbn [List.length]; lia. Qed.
Lemma nodup_bound l n : NoDup l -> (forall a, In a l -> a < n) -> List.length l <= n.
Proof. intros N H. rewrite <- (seq_length n 0). apply NoDup_incl_length; [exact N|]. intros a Ha. apply in_seq. specialize (H a Ha). lia. Qed.
Lemma combine_seq_nth {A} (l : list A) st k a : In (k, a) (combine (seq st (List.length l)) l) -> st <= k /\ nth_error l (k - st) = Some a.
Proof.
  revert st. induction l as [|x l IH]; intros st H; cbn [List.length seq combine] in H; [contradiction|].
  destruct H as [H|H]; [injection H as <- <-; rewrite Nat.sub_diag; auto|]. destruct (IH (S st) H) as (L & E).
  replace (k - st) with (S (k - S st)) by lia. split; [lia|exact E].
Qed.
Lemma map_snd_combine {A B} (h : A -> B) (l : list A) st : map (fun ka => h (snd ka)) (combine (seq st (List.length l)) l) = map h l.
Proof. revert st. induction l as [|x l IH]; intros st; [reflexivity|]. cbn [List.length seq combine map snd]. rewrite IH. reflexivity. Qed.
Lemma concat_filter {A} (p : A -> bool) l : concat (map (fun a => if p a then [a] else []) l) = filter p l.
Proof. induction l as [|a l IH]; [reflexivity|]. cbn [map concat filter]. rewrite IH. destruct (p a); reflexivity. Qed.
Lemma concat_filter_map {A B} (p : A -> bool) (g : A -> B) l : concat (map (fun a => if p a then [] else [g a]) l) = map g (filter (fun a => negb (p a)) l).
Proof. induction l as [|a l IH]; [reflexivity|]. cbn [map concat filter]. rewrite IH. destruct (p a); reflexivity. Qed.
Lemma forall2_nth {A B} (P : A -> B -> Prop) l1 l2 k x y : Forall2 P l1 l2 -> nth_error l1 k = Some x -> nth_error l2 k = Some y -> P x y.
Proof. intros H. revert k. induction H; intros k H1 H2; destruct k; cbn in *; try discriminate; [congruence|eauto]. Qed.
Lemma pack_array_ok {D} n : fits n -> pack_array (D := D) n = Done [ArrayH n].
Proof. unfold fits, pack_array, uint32_end. intros H. replace (Z.of_nat n <? 4294967296)%Z with true by lia. reflexivity. Qed.
Lemma pack_map_ok {D} n : fits n -> pack_map (D := D) n = Done [MapH n].
Proof. unfold fits, pack_map, uint32_end. intros H. replace (Z.of_nat n <? 4294967296)%Z with true by lia. reflexivity. Qed.
Definition nm (mc : meta_comp) (a : nat) : string := match nth_error (mc_attrs mc) a with Some x => ma_name x | None => ""%string end.
Lemma name_of_ok mc a : a < List.length (mc_attrs mc) -> name_of mc a = Done (nm mc a).
Proof. intros H. unfold name_of, nm. destruct (nth_error (mc_attrs mc) a) as [x|] eqn:E; [reflexivity|apply nth_error_None in E; lia]. Qed.
Lemma attr_nm mc a : NoDup (map ma_name (mc_attrs mc)) -> a < List.length (mc_attrs mc) -> attr_index mc (nm mc a) = Some a.
Proof. intros N H. unfold nm. destruct (nth_error (mc_attrs mc) a) as [x|] eqn:E; [apply attr_index_ok; assumption|apply nth_error_None in E; lia]. Qed.

Section Trip.
Context {D : Type} (nan : D) (is_nan : D -> bool) (of_int : Z -> D).
Hypothesis nan_nan : is_nan nan = true.
Notation token := (token D).
Notation value := (value D).
Notation buffer := (buffer D).
Notation comp_buffer := (comp_buffer D).
Notation is_na := (is_na is_nan).
Notation pack_value := (pack_value is_nan).
Notation vtok := (vtok is_nan).
Notation norm := (norm nan is_nan).
Notation na := (na nan).
Notation partly := (partly nan).

Lemma is_na_na t : is_na t (na t) = true.
Proof. destruct t; cbn; rewrite ?nan_nan; reflexivity. Qed.
Lemma typed_na t : typed t (na t).
Proof. destruct t; cbn; try exact I; unfold na_id, na_int8; lia. Qed.

(** ** the contents of one buffer *)
Definition content (mc : meta_comp) (b : buffer) (j a : nat) : value := match stored b j a with Some v => v | None => na (ty mc a) end.
Lemma typed_shaped mc total (b : buffer) : typed_buffer mc total b -> shaped mc total b.
Proof.
  destruct b as [rows|cols]; cbn [typed_buffer shaped].
  - intros (HL & H). split; [exact HL|]. intros row Hr. specialize (H row Hr). clear -H. induction H; cbn [List.length]; congruence.
  - intros (N & H). split; [exact N|]. split.
    + intros a Ha. apply in_map_iff in Ha. destruct Ha as ((a', col) & <- & Hc). destruct (H a' col Hc) as (_ & x & Hx & _). apply nth_error_Some. cbn [fst]. congruence.
    + intros (a, col) Hc. destruct (H a col Hc) as (L & _). exact L.
Qed.
Lemma not_held_stored mc (b : buffer) j a : (match b with Rows _ => False | Cols _ => True end) -> ~ held mc b a -> stored b j a = None.
Proof.
  destruct b as [|cols]; [contradiction|]. intros _ H. cbn [held stored] in *. destruct (find (fun x => fst x =? a) cols) as [x|] eqn:E; [|reflexivity].
  exfalso. apply find_some in E. destruct E as (Hx & E). apply Nat.eqb_eq in E. subst a. apply H. apply in_map. exact Hx.
Qed.
Lemma content_typed mc total (b : buffer) j a : typed_buffer mc total b -> j < total -> a < List.length (mc_attrs mc) -> typed (ty mc a) (content mc b j a).
Proof.
  intros T Hj Ha. unfold content, ty. destruct (nth_error (mc_attrs mc) a) as [x|] eqn:Ex; [|apply nth_error_None in Ex; lia].
  destruct (stored b j a) as [v|] eqn:E; [|apply typed_na]. destruct b as [rows|cols]; cbn [typed_buffer stored] in *.
  - destruct T as (_ & T). destruct (nth_error rows j) as [row|] eqn:Er; [|discriminate].
    exact (forall2_nth _ _ _ _ _ _ (T row (nth_error_In _ _ Er)) Ex E).
  - destruct T as (_ & T). destruct (find (fun x0 => fst x0 =? a) cols) as [(a0, col)|] eqn:Ef; [|discriminate].
    apply find_some in Ef. destruct Ef as (Hin & Ea). apply Nat.eqb_eq in Ea. cbn in Ea. subst a0. destruct (T a col Hin) as (_ & y & Hy & F).
    rewrite Forall_forall in F. replace x with y by congruence. apply F. cbn [snd] in E. eapply nth_error_In; exact E.
Qed.
Lemma element_value_ok mc total (b : buffer) j a : typed_buffer mc total b -> j < total -> held mc b a -> element_value b j a = Done (content mc b j a).
Proof.
  intros T Hj Ha. destruct (stored_held mc total b j a (typed_shaped _ _ _ T) Hj Ha) as (v & Hv). unfold content. rewrite Hv.
  destruct b as [rows|cols]; cbn [stored element_value] in *.
  - unfold row_value. rewrite Hv. reflexivity.
  - unfold find_col. destruct (find (fun x => fst x =? a) cols) as [x|]; [|discriminate]. cbn [option_map getR bindR]. rewrite Hv. reflexivity.
Qed.
Lemma check_na_ok mc a v : a < List.length (mc_attrs mc) -> check_na is_nan mc a v = Done (is_na (ty mc a) v).
Proof. intros H. unfold check_na, type_of, ty. destruct (nth_error (mc_attrs mc) a) as [x|] eqn:E; [reflexivity|apply nth_error_None in E; lia]. Qed.

(** ** the attributes of the compact form *)
Definition attrs_of (mc : meta_comp) (b : buffer) (total : nat) : list nat :=
  filter (fun a => negb (forallb (fun i => is_na (ty mc a) (content mc b i a)) (seq 0 total))) (seq 0 (List.length (mc_attrs mc))).
Lemma attrs_of_in mc b total a : In a (attrs_of mc b total) <->
  a < List.length (mc_attrs mc) /\ exists i, i < total /\ is_na (ty mc a) (content mc b i a) = false.
Proof.
  unfold attrs_of. rewrite filter_In, in_seq. split.
  - intros (L & H). split; [lia|]. apply negb_true_iff in H.
    assert (X : exists i, In i (seq 0 total) /\ is_na (ty mc a) (content mc b i a) = false).
    { clear -H. induction (seq 0 total) as [|i l IH]; [discriminate|]. cbn [forallb] in H. destruct (is_na (ty mc a) (content mc b i a)) eqn:E.
      - destruct (IH H) as (i' & Hi & Hv). exists i'. split; [right; exact Hi|exact Hv].
      - exists i. split; [left; reflexivity|exact E]. }
    destruct X as (i & Hi & Hv). apply in_seq in Hi. exists i. split; [lia|exact Hv].
  - intros (L & i & Hi & Hv). split; [lia|]. apply negb_true_iff. apply not_true_is_false. intros C. rewrite forallb_forall in C.
    rewrite (C i) in Hv by (apply in_seq; lia). discriminate.
Qed.
Lemma attrs_of_nodup mc (b : buffer) total : NoDup (attrs_of mc b total).
Proof. apply NoDup_filter, seq_NoDup. Qed.
Lemma attrs_of_held mc b total a : typed_buffer mc total b -> In a (attrs_of mc b total) -> held mc b a.
Proof.
  intros T H. apply attrs_of_in in H. destruct H as (L & i & Hi & Hv). destruct (held_dec mc b a) as [Hh|Hh]; [exact Hh|].
  exfalso. assert (C : match b with Rows _ => False | Cols _ => True end) by (destruct b; [apply Hh; exact L|exact I]).
  unfold content in Hv. rewrite (not_held_stored mc b i a C Hh) in Hv. rewrite is_na_na in Hv. discriminate.
Qed.
Lemma all_na_ok mc a (get : nat -> res value) (g : nat -> value) n : a < List.length (mc_attrs mc) -> (forall i, i < n -> get i = Done (g i)) ->
  all_na is_nan mc a get 0 n = Done (forallb (fun i => is_na (ty mc a) (g i)) (seq 0 n)).
Proof.
  intros La H. unfold all_na. rewrite (mapR_done _ (fun i => is_na (ty mc a) (g i))).
  - cbn [bindR]. f_equal. generalize (seq 0 n). induction l as [|x l IH]; [reflexivity|]. cbn [map forallb]. rewrite IH. reflexivity.
  - intros i Hi. apply in_seq in Hi. rewrite H by lia. cbn [bindR]. apply check_na_ok. exact La.
Qed.
Lemma check_attribute_ok mc cb total a : typed_buffer mc total (cb_data cb) -> a < List.length (mc_attrs mc) ->
  check_attribute is_nan (cb, 0, total) mc a =
    Done (if negb (forallb (fun i => is_na (ty mc a) (content mc (cb_data cb) i a)) (seq 0 total)) then [a] else []).
Proof.
  intros T La. unfold check_attribute. cbn [fst snd]. pose proof (typed_shaped _ _ _ T) as S. destruct (cb_data cb) as [rows|cols] eqn:Eb.
  - rewrite (all_na_ok mc a _ (fun i => content mc (Rows rows) i a)); [|exact La|].
    + cbn [bindR]. destruct (forallb _ _); reflexivity.
    + intros i Hi. exact (element_value_ok mc total (Rows rows) i a T Hi La).
  - unfold find_col. destruct (find (fun x => fst x =? a) cols) as [(a0, col)|] eqn:Ef.
    + cbn [option_map snd]. rewrite (all_na_ok mc a _ (fun i => content mc (Cols cols) i a)); [|exact La|].
      * cbn [bindR]. destruct (forallb _ _); reflexivity.
      * intros i Hi. assert (Hh : held mc (Cols cols) a).
        { cbn [held]. apply find_some in Ef. destruct Ef as (Hin & E). apply Nat.eqb_eq in E. cbn in E. subst a0. apply (in_map fst) in Hin. exact Hin. }
        pose proof (element_value_ok mc total (Cols cols) i a T Hi Hh) as E. cbn [element_value] in E. unfold find_col in E. rewrite Ef in E. exact E.
    + cbn [option_map]. replace (forallb (fun i => is_na (ty mc a) (content mc (Cols cols) i a)) (seq 0 total)) with true; [reflexivity|].
      symmetry. apply forallb_forall. intros i _. unfold content. cbn [stored]. rewrite Ef. apply is_na_na.
Qed.

(** ** elements *)
Definition etok_list (mc : meta_comp) (b : buffer) (attrs : list nat) (j : nat) : list token :=
  ArrayH (List.length attrs) :: concat (map (fun a => vtok (ty mc a) (content mc b j a)) attrs).
Definition dict_keys (mc : meta_comp) (b : buffer) (j : nat) : list nat :=
  filter (fun a => negb (is_na (ty mc a) (content mc b j a))) (dict_attrs mc b).
Definition etok_dict (mc : meta_comp) (b : buffer) (j : nat) : list token :=
  MapH (List.length (dict_keys mc b j)) :: concat (map (fun a => Str (nm mc a) :: pack_value (content mc b j a)) (dict_keys mc b j)).
Definition etok (compact : bool) (mc : meta_comp) (b : buffer) (total j : nat) : list token :=
  if compact then etok_list mc b (attrs_of mc b total) j else etok_dict mc b j.
Lemma dict_attrs_held mc (b : buffer) a : In a (dict_attrs mc b) <-> held mc b a.
Proof. destruct b; cbn [dict_attrs held]; [rewrite in_seq; lia|tauto]. Qed.
Lemma dict_attrs_nodup mc total (b : buffer) : typed_buffer mc total b -> NoDup (dict_attrs mc b).
Proof. destruct b; cbn [dict_attrs typed_buffer]; [intros _; apply seq_NoDup|intros (N & _); exact N]. Qed.
Lemma dict_value_ok mc total (b : buffer) j k a : typed_buffer mc total b -> j < total -> nth_error (dict_attrs mc b) k = Some a -> dict_value b j k a = Done (content mc b j a).
Proof.
  intros T Hj Hk. assert (Hh : held mc b a) by (apply dict_attrs_held; eapply nth_error_In; exact Hk).
  destruct b as [rows|cols]; cbn [dict_value].
  - exact (element_value_ok mc total (Rows rows) j a T Hj Hh).
  - cbn [dict_attrs] in Hk. destruct (nth_error cols k) as [(a0, col)|] eqn:Ek; [|rewrite nth_error_map, Ek in Hk; discriminate].
    rewrite nth_error_map, Ek in Hk. cbn in Hk. injection Hk as ->. cbn [getR bindR snd].
    pose proof (element_value_ok mc total (Cols cols) j a T Hj Hh) as E. cbn [element_value] in E. unfold find_col in E.
    assert (F : find (fun x => fst x =? a) cols = Some (a, col)).
    { destruct T as (N & _). clear -N Ek. revert k Ek. induction cols as [|c cols IH]; intros k Ek; [destruct k; discriminate|]. cbn [map] in N. inversion N as [|? ? Hc N']; subst.
      cbn [find]. destruct k as [|k]; cbn in Ek; [injection Ek as ->; cbn; rewrite Nat.eqb_refl; reflexivity|].
      destruct (Nat.eqb_spec (fst c) a) as [C|]; [exfalso; apply Hc; rewrite C; apply nth_error_In in Ek; apply (in_map fst) in Ek; exact Ek|apply (IH N' k Ek)]. }
    rewrite F in E. exact E.
Qed.
Lemma pack_list_ok mc total b j : typed_buffer mc total b -> fits (List.length (mc_attrs mc)) -> j < total ->
  pack_element_in_list is_nan mc b (attrs_of mc b total) j = Done (etok_list mc b (attrs_of mc b total) j).
Proof.
  intros T F Hj. unfold pack_element_in_list.
  assert (L : List.length (attrs_of mc b total) <= List.length (mc_attrs mc)) by (unfold attrs_of; etransitivity; [apply filter_len|rewrite seq_length; lia]).
  rewrite pack_array_ok by (eapply fits_le; eassumption). cbn [bindR].
  rewrite (mapR_done _ (fun a => vtok (ty mc a) (content mc b j a))); [reflexivity|]. intros a Ha. pose proof (proj1 (attrs_of_in mc b total a) Ha) as (La & _).
  rewrite (element_value_ok mc total) by (try assumption; eapply attrs_of_held; eassumption). cbn [bindR]. rewrite check_na_ok by exact La. reflexivity.
Qed.
Lemma dict_keys_lt mc total b j a : typed_buffer mc total b -> In a (dict_keys mc b j) -> a < List.length (mc_attrs mc) /\ held mc b a /\ is_na (ty mc a) (content mc b j a) = false.
Proof.
  intros T H. unfold dict_keys in H. apply filter_In in H. destruct H as (Hin & E). apply dict_attrs_held in Hin. apply negb_true_iff in E.
  split; [eapply held_lt; [apply typed_shaped; exact T|exact Hin]|split; assumption].
Qed.
Lemma pack_dict_ok mc total b j : typed_buffer mc total b -> fits (List.length (mc_attrs mc)) -> j < total ->
  pack_element_in_dict is_nan mc b j = Done (etok_dict mc b j).
Proof.
  intros T F Hj. unfold pack_element_in_dict. cbv zeta.
  rewrite (mapR_done _ (fun ka => (fun a => if is_na (ty mc a) (content mc b j a) then [] else [Str (nm mc a) :: pack_value (content mc b j a)]) (snd ka))).
  2:{ intros (k, a) H. cbn [fst snd]. apply combine_seq_nth in H. destruct H as (_ & H). rewrite Nat.sub_0_r in H.
      assert (La : a < List.length (mc_attrs mc)) by (eapply held_lt; [apply typed_shaped; exact T|apply dict_attrs_held; eapply nth_error_In; exact H]).
      rewrite (dict_value_ok mc total) by assumption. cbn [bindR]. rewrite check_na_ok by exact La. cbn [bindR]. rewrite name_of_ok by exact La. reflexivity. }
  cbn [bindR].
  rewrite (map_snd_combine (fun a => if is_na (ty mc a) (content mc b j a) then [] else [Str (nm mc a) :: pack_value (content mc b j a)])), concat_filter_map.
  rewrite pack_map_ok.
  - cbn [bindR]. rewrite map_length. reflexivity.
  - rewrite map_length. eapply fits_le; [|exact F]. etransitivity; [apply filter_len|].
    apply nodup_bound; [eapply dict_attrs_nodup; exact T|]. intros a Ha. eapply held_lt; [apply typed_shaped; exact T|apply dict_attrs_held; exact Ha].
Qed.
Lemma etok_objs compact mc total b j : objs 1 (etok compact mc b total j) (negb compact).
Proof.
  unfold etok. destruct compact; cbn [negb].
  - unfold etok_list. apply objs_array. rewrite <- (Nat.mul_1_l (List.length _)).
    replace false with (false && (0 <? List.length (attrs_of mc b total))) by reflexivity. apply objs_concat. intros a _. apply vtok_objs.
  - unfold etok_dict. apply objs_map with (m := false && (0 <? List.length (dict_keys mc b j))). apply objs_concat. intros a _.
    change (objs 2 ([Str (nm mc a)] ++ pack_value (content mc b j a)) false). change 2 with (1 + 1). change false with (false || false).
    apply objs_app; [apply objs_leaf; [reflexivity|discriminate]|apply pack_objs].
Qed.

(** ** reading the elements of one component *)
Section Component.
Variables (compact : bool) (mc : meta_comp) (src : buffer) (total : nat).
Hypothesis src_ok : typed_buffer mc total src.
Hypothesis names_ok : NoDup (map ma_name (mc_attrs mc)).
Let f (j a : nat) : value := norm (content mc src j a).
Let attrs : list nat := if compact then attrs_of mc src total else [].
Let tok (j : nat) : list token := etok compact mc src total j.
Lemma f_na j a : j < total -> a < List.length (mc_attrs mc) -> is_na (ty mc a) (content mc src j a) = true -> f j a = na (ty mc a).
Proof. intros Hj Ha H. unfold f. apply norm_na; [|exact H]. eapply content_typed; eassumption. Qed.
Lemma f_src_lacks j a : j < total -> a < List.length (mc_attrs mc) -> ~ held mc src a -> f j a = na (ty mc a).
Proof.
  intros Hj Ha Hh. apply f_na; [exact Hj|exact Ha|]. assert (C : match src with Rows _ => False | Cols _ => True end) by (destruct src; [apply Hh; exact Ha|exact I]).
  unfold content. rewrite (not_held_stored mc src j a C Hh). apply is_na_na.
Qed.
Lemma no_overlap_spec (b : buffer) l : no_overlap b l = true -> forall a, held mc b a -> ~ In a l.
Proof.
  destruct b as [|cols]; cbn [no_overlap held]; [discriminate|]. intros H a Ha Hl. rewrite forallb_forall in H. specialize (H a Hl). apply negb_true_iff in H.
  apply in_map_iff in Ha. destruct Ha as (x & <- & Hx). assert (C : existsb (fun x0 => fst x0 =? fst x) cols = true) by (apply existsb_exists; exists x; split; [exact Hx|apply Nat.eqb_refl]). congruence.
Qed.
Lemma skip_all (b : buffer) d d' : compact = true -> no_overlap b attrs = true -> partly mc total f d b -> partly mc total f d' b.
Proof.
  intros Hc V P. assert (S := proj1 P). eapply partly_ext; [|exact P]. intros j a Hj Ha.
  assert (E : f j a = na (ty mc a)).
  { assert (La : a < List.length (mc_attrs mc)) by (eapply held_lt; eassumption). apply f_na; [exact Hj|exact La|].
    apply not_false_is_true. intros C. apply (no_overlap_spec b attrs V a Ha). unfold attrs. rewrite Hc. apply attrs_of_in. split; [exact La|]. exists j. split; assumption. }
  rewrite E. destruct (d j a), (d' j a); reflexivity.
Qed.
Lemma parse_element_ok b i l : i < total -> partly mc total f (fun j _ => j <? i) b ->
  exists b', parse_element of_int mc attrs b i (tok i ++ l) = Done (b', l) /\ (forall a, held mc b' a <-> held mc b a) /\
    (forall at', no_overlap b' at' = no_overlap b at') /\ partly mc total f (fun j _ => j <? S i) b'.
Proof.
  intros Hi P. assert (S := proj1 P). pose proof (etok_objs compact mc total src i) as O. fold (tok i) in O. unfold parse_element, tok, etok in *. unfold attrs.
  destruct (Bool.bool_dec compact true) as [Hc|Hc]; [|apply not_true_is_false in Hc]; rewrite Hc in O |- *.
  - cbn [etok_list app parse_map_array bindR]. destruct (no_overlap b (attrs_of mc src total)) eqn:V.
    + exists b. change (ArrayH (List.length (attrs_of mc src total)) :: concat (map (fun a => vtok (ty mc a) (content mc src i a)) (attrs_of mc src total)) ++ l)
        with (etok_list mc src (attrs_of mc src total) i ++ l). rewrite (skip_one _ _ l O). cbn [bindR snd].
      refine (conj eq_refl (conj _ (conj _ _))); [tauto|reflexivity|]. eapply skip_all; [exact Hc| |exact P]. unfold attrs. rewrite Hc. exact V.
    + rewrite Nat.eqb_refl.
      destruct (parse_attributes_ok nan of_int mc total f i (fun a => vtok (ty mc a) (content mc src i a)) l Hi) with (attrs := attrs_of mc src total) (d := fun j (_ : nat) => j <? i) (b := b)
        as (b' & E & HH & HV & HP).
      * intros a La. split; [apply vtok_objs|]. intros l'. apply parse_vtok. eapply content_typed; eassumption.
      * apply attrs_of_nodup.
      * intros a Ha. apply attrs_of_in in Ha. split; [tauto|]. apply Nat.ltb_irrefl.
      * exact P.
      * exists b'. refine (conj E (conj HH (conj HV _))). eapply partly_ext; [|exact HP]. intros j a Hj Ha. cbv beta.
        assert (La : a < List.length (mc_attrs mc)) by (apply (held_lt mc total b' a); [exact (proj1 HP)|exact Ha]).
        destruct (Nat.eqb_spec j i) as [->|N]; cbn [andb].
        -- rewrite ?Nat.eqb_refl, Nat.ltb_irrefl, orb_false_r. cbn [andb]. replace (i <? Datatypes.S i) with true by lia. destruct (existsb (Nat.eqb a) (attrs_of mc src total)) eqn:Ex; [reflexivity|].
           symmetry. apply f_na; [exact Hi|exact La|]. apply not_false_is_true. intros C. apply not_true_iff_false in Ex. apply Ex. apply existsb_exists. exists a. split; [|apply Nat.eqb_refl].
           apply attrs_of_in. split; [exact La|]. exists i. split; assumption.
        -- cbn [orb]. replace (j <? Datatypes.S i) with (j <? i) by lia. reflexivity.
  - cbn [etok_dict app parse_map_array bindR].
    destruct (parse_map_ok nan of_int mc total f i (nm mc) (fun a => pack_value (content mc src i a)) l Hi) with (attrs := dict_keys mc src i) (d := fun j (_ : nat) => j <? i) (b := b)
        as (b' & E & HH & HV & HP).
    + intros a La. apply attr_nm; assumption.
    + apply NoDup_filter. eapply dict_attrs_nodup; exact src_ok.
    + intros a Ha. destruct (dict_keys_lt mc total src i a src_ok Ha) as (La & _ & Hn). split; [exact La|]. split; [apply Nat.ltb_irrefl|]. split; [apply pack_objs|].
      intros l'. apply parse_pack; [eapply content_typed; eassumption|exact Hn].
    + exact P.
    + exists b'. refine (conj E (conj HH (conj HV _))). eapply partly_ext; [|exact HP]. intros j a Hj Ha. cbv beta.
      assert (La : a < List.length (mc_attrs mc)) by (apply (held_lt mc total b' a); [exact (proj1 HP)|exact Ha]).
      destruct (Nat.eqb_spec j i) as [->|N]; cbn [andb].
      * rewrite ?Nat.eqb_refl, Nat.ltb_irrefl, orb_false_r. cbn [andb]. replace (i <? Datatypes.S i) with true by lia. destruct (existsb (Nat.eqb a) (dict_keys mc src i)) eqn:Ex; [reflexivity|].
        symmetry. destruct (held_dec mc src a) as [Hh|Hh]; [|apply f_src_lacks; assumption]. apply f_na; [exact Hi|exact La|].
        apply not_false_is_true. intros C. apply not_true_iff_false in Ex. apply Ex. apply existsb_exists. exists a. split; [|apply Nat.eqb_refl].
        unfold dict_keys. apply filter_In. split; [apply dict_attrs_held; exact Hh|rewrite C; reflexivity].
      * cbn [orb]. replace (j <? Datatypes.S i) with (j <? i) by lia. reflexivity.
Qed.
Lemma parse_elements_ok n i l : forall b, i + n <= total -> partly mc total f (fun j _ => j <? i) b ->
  exists b', parse_elements of_int mc attrs n b i (concat (map tok (seq i n)) ++ l) = Done (b', l) /\ (forall a, held mc b' a <-> held mc b a) /\
    (forall at', no_overlap b' at' = no_overlap b at') /\ partly mc total f (fun j _ => j <? i + n) b'.
Proof.
  revert i. induction n as [|n IH]; intros i b Hi P; cbn [seq map concat parse_elements].
  - exists b. refine (conj eq_refl (conj _ (conj _ _))); [tauto|reflexivity|]. eapply partly_ext; [|exact P]. intros. rewrite Nat.add_0_r. reflexivity.
  - rewrite <- app_assoc. destruct (parse_element_ok b i (concat (map tok (seq (S i) n)) ++ l)) as (b1 & E1 & H1 & V1 & P1); [lia|exact P|].
    rewrite E1. cbn [bindR fst snd]. destruct (IH (S i) b1) as (b' & E' & H' & V' & P'); [lia|exact P1|]. exists b'.
    refine (conj E' (conj _ (conj _ _))); [intros a; rewrite H'; apply H1|intros at'; rewrite V'; apply V1|].
    eapply partly_ext; [|exact P']. intros. replace (S i + n) with (i + S n) by lia. reflexivity.
Qed.
(** what the first pass has noted about scenario [s] *)
Definition msg_ok (first count : nat) (x : byte_meta) : Prop :=
  bm_size x = count /\ bm_map x = negb compact && (0 <? count) /\ (0 < count -> exists rest, bm_data x = ArrayH count :: concat (map tok (seq first count)) ++ rest).
Lemma parse_scenario_ok first count x b : msg_ok first count x -> first + count <= total -> partly mc total f (fun j _ => j <? first) b ->
  exists b', parse_scenario of_int mc attrs first x b = Done b' /\ (forall a, held mc b' a <-> held mc b a) /\
    (forall at', no_overlap b' at' = no_overlap b at') /\ partly mc total f (fun j _ => j <? first + count) b'.
Proof.
  intros (Hs & Hm & Hd) Hi P. unfold parse_scenario. rewrite Hs. destruct (Nat.eqb_spec count 0) as [->|Hc].
  - exists b. refine (conj eq_refl (conj _ (conj _ _))); [tauto|reflexivity|]. eapply partly_ext; [|exact P]. intros. rewrite Nat.add_0_r. reflexivity.
  - destruct (no_overlap b attrs && negb (bm_map x)) eqn:E.
    + exists b. refine (conj eq_refl (conj _ (conj _ _))); [tauto|reflexivity|]. apply andb_prop in E. destruct E as (V & M). rewrite Hm in M.
      eapply skip_all; [|exact V|exact P]. destruct compact; [reflexivity|]. replace (0 <? count) with true in M by lia. discriminate.
    + destruct (Hd ltac:(lia)) as (rest & ->). cbn [parse_map_array bindR snd].
      destruct (parse_elements_ok count first rest b Hi P) as (b' & E' & H' & V' & P'). rewrite E'. cbn [bindR fst]. exists b'. auto.
Qed.
(** all scenarios, from scenario [s] on; [first] gives where each scenario starts *)
Lemma parse_scenarios_ok (F : nat -> nat) (G : nat -> res nat) msgs : forall s b,
  (forall k x, nth_error msgs k = Some x -> msg_ok (F (s + k)) (F (S (s + k)) - F (s + k)) x /\ F (s + k) <= F (S (s + k)) /\ F (S (s + k)) <= total /\ G (s + k) = Done (F (s + k))) ->
  partly mc total f (fun j _ => j <? F s) b ->
  exists b', foldR (fun b sx => bindR (G (fst sx)) (fun fst_ => parse_scenario of_int mc attrs fst_ (snd sx) b)) (combine (seq s (List.length msgs)) msgs) b = Done b' /\
    (forall a, held mc b' a <-> held mc b a) /\ (forall at', no_overlap b' at' = no_overlap b at') /\ partly mc total f (fun j _ => j <? F (s + List.length msgs)) b'.
Proof.
  induction msgs as [|x msgs IH]; intros s b H P; cbn [List.length seq combine foldR].
  - exists b. refine (conj eq_refl (conj _ (conj _ _))); [tauto|reflexivity|]. eapply partly_ext; [|exact P]. intros. rewrite Nat.add_0_r. reflexivity.
  - destruct (H 0 x eq_refl) as (M & L & T & E). rewrite Nat.add_0_r in *. cbn [fst snd]. rewrite E. cbn [bindR].
    destruct (parse_scenario_ok (F s) (F (S s) - F s) x b M ltac:(lia) P) as (b1 & E1 & H1 & V1 & P1). rewrite E1. cbn [bindR].
    destruct (IH (S s) b1) as (b' & E' & H' & V' & P').
    + intros k y Hk. specialize (H (S k) y Hk). replace (S s + k) with (s + S k) by lia. exact H.
    + eapply partly_ext; [|exact P1]. intros. replace (F s + (F (S s) - F s)) with (F (S s)) by lia. reflexivity.
    + exists b'. refine (conj E' (conj _ (conj _ _))); [intros a; rewrite H'; apply H1|intros at'; rewrite V'; apply V1|].
      eapply partly_ext; [|exact P']. intros. replace (S s + List.length msgs) with (s + S (List.length msgs)) by lia. reflexivity.
Qed.
(** the empty buffer *)
Lemma blank_ok t : target_ok mc t -> t <> No_buffer -> exists b, blank nan mc total t = Done b /\ (forall a, held mc b a <-> target_has mc t a) /\ partly mc total f (fun _ _ => false) b.
Proof.
  intros T N. destruct t as [| |l]; [congruence| |]; cbn [blank].
  - eexists. split; [reflexivity|]. cbn [held target_has]. split; [tauto|]. split.
    + cbn [shaped]. split; [apply repeat_length|]. intros row H. apply repeat_spec in H. subst row. apply map_length.
    + intros j a Hj Ha. cbn [held stored] in *. rewrite nth_error_repeat_eq by exact Hj. rewrite nth_error_map. unfold ty.
      destruct (nth_error (mc_attrs mc) a) eqn:E; [reflexivity|apply nth_error_None in E; lia].
  - destruct T as (Nl & B). rewrite (mapR_done _ (fun a => (a, repeat (na (ty mc a)) total))).
    + cbn [bindR]. eexists. split; [reflexivity|].
      assert (E : map fst (map (fun a => (a, repeat (na (ty mc a)) total)) l) = l) by (rewrite map_map; apply map_id).
      cbn [held target_has]. rewrite E. split; [tauto|]. split.
      * cbn [shaped]. rewrite E. split; [exact Nl|]. split; [exact B|]. intros ac H. apply in_map_iff in H. destruct H as (a & <- & _). apply repeat_length.
      * intros j a Hj Ha. cbn [held] in Ha. rewrite E in Ha. clear -Ha Hj. cbn [stored]. induction l as [|a0 l IH]; [contradiction|].
        cbn [map find fst]. destruct (Nat.eqb_spec a0 a) as [->|X]; [cbn [snd]; apply nth_error_repeat_eq; exact Hj|]. apply IH. destruct Ha as [C|H]; [contradiction|exact H].
    + intros a Ha. unfold type_of, ty. destruct (nth_error (mc_attrs mc) a) eqn:E; [reflexivity|apply nth_error_None in E; specialize (B a Ha); lia].
Qed.
End Component.
End Trip.
