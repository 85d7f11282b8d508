(** Proofs about Serial.v *)
From Coq Require Import String Permutation.
From Verif Require Import Common Serial SerialSpec.
Local Open Scope nat_scope.

(** ** the error monad *)
Lemma mapR_done {A B} (f : A -> res B) (g : A -> B) l : (forall x, In x l -> f x = Done (g x)) -> mapR f l = Done (map g l).
Proof.
  induction l as [|a l IH]; intros H; cbn [mapR map]; [reflexivity|].
  rewrite H by (left; reflexivity). cbn [bindR]. rewrite IH by (intros x Hx; apply H; right; exact Hx). reflexivity.
Qed.
Lemma mapR_app {A B} (f : A -> res B) l1 l2 r1 r2 : mapR f l1 = Done r1 -> mapR f l2 = Done r2 -> mapR f (l1 ++ l2) = Done (r1 ++ r2).
Proof.
  revert r1. induction l1 as [|a l IH]; intros r1 H1 H2; cbn [mapR app] in *.
  - injection H1 as <-. exact H2.
  - destruct (f a) as [b| |]; cbn [bindR] in *; try discriminate. destruct (mapR f l) as [bs| |]; cbn [bindR] in *; try discriminate.
    injection H1 as <-. rewrite (IH bs eq_refl H2). reflexivity.
Qed.
Lemma mapR_forall2 {A B} (f : A -> res B) (P : A -> B -> Prop) l :
  (forall x, In x l -> exists y, f x = Done y /\ P x y) -> exists ys, mapR f l = Done ys /\ Forall2 P l ys.
Proof.
  induction l as [|a l IH]; intros H; cbn [mapR].
  - exists []. split; [reflexivity|constructor].
  - destruct (H a (or_introl eq_refl)) as (y & Hy & Py). destruct IH as (ys & Hys & Pys); [intros x Hx; apply H; right; exact Hx|].
    exists (y :: ys). rewrite Hy. cbn [bindR]. rewrite Hys. split; [reflexivity|constructor; assumption].
Qed.

(** ** metadata *)
Lemma find_index_some {A} (p : A -> bool) l k : find_index p l = Some k -> exists a, nth_error l k = Some a /\ p a = true.
Proof.
  revert k. induction l as [|x l IH]; intros k H; cbn [find_index] in H; [discriminate|].
  destruct (p x) eqn:E; [injection H as <-; exists x; auto|].
  destruct (find_index p l) as [k'|]; cbn in H; [|discriminate]. injection H as <-. exact (IH k' eq_refl).
Qed.
Lemma find_index_none {A} (p : A -> bool) l : find_index p l = None -> forall a, In a l -> p a = false.
Proof.
  induction l as [|x l IH]; intros H a Ha; [contradiction|]. cbn [find_index] in H.
  destruct (p x) eqn:E; [discriminate|]. destruct (find_index p l); [discriminate|]. destruct Ha as [<-|Ha]; [exact E|exact (IH eq_refl a Ha)].
Qed.
Lemma find_index_name {A} (name : A -> string) l k a : NoDup (map name l) -> nth_error l k = Some a ->
  find_index (fun x => String.eqb (name x) (name a)) l = Some k.
Proof.
  revert k. induction l as [|x l IH]; intros k N H; [destruct k; discriminate|]. cbn [map] in N. inversion N as [|? ? Hx N']; subst.
  cbn [find_index]. destruct k as [|k]; cbn in H.
  - injection H as ->. rewrite String.eqb_refl. reflexivity.
  - destruct (String.eqb_spec (name x) (name a)) as [E|E].
    + exfalso. apply Hx. rewrite E. apply in_map. apply nth_error_In in H. exact H.
    + rewrite (IH k N' H). reflexivity.
Qed.
Lemma comp_index_ok m k mc : NoDup (map mc_name (ms_comps m)) -> nth_error (ms_comps m) k = Some mc -> comp_index m (mc_name mc) = Some k.
Proof. intros N H. unfold comp_index. apply (find_index_name mc_name); assumption. Qed.
Lemma attr_index_ok mc a x : NoDup (map ma_name (mc_attrs mc)) -> nth_error (mc_attrs mc) a = Some x -> attr_index mc (ma_name x) = Some a.
Proof. intros N H. unfold attr_index. apply (find_index_name ma_name); assumption. Qed.

(** ** ordered maps *)
Lemma map_find_insert k k' x l : map_find k (map_insert k' x l) = if k =? k' then Some x else map_find k l.
Proof.
  unfold map_find. induction l as [|(k0, x0) l IH]; cbn [map_insert].
  - cbn [find fst]. rewrite (Nat.eqb_sym k' k). destruct (k =? k'); reflexivity.
  - destruct (Nat.ltb_spec k' k0) as [L|L]; [|destruct (Nat.eqb_spec k' k0) as [E|E]].
    + cbn [find fst]. rewrite (Nat.eqb_sym k' k). destruct (k =? k'); reflexivity.
    + subst k0. cbn [find fst]. rewrite (Nat.eqb_sym k' k). destruct (k =? k'); reflexivity.
    + cbn [find fst]. destruct (Nat.eqb_spec k0 k) as [E0|E0].
      * subst k0. destruct (Nat.eqb_spec k k'); [lia|reflexivity].
      * exact IH.
Qed.
Lemma map_insert_perm k x l : ~ In k (map fst l) -> Permutation (map_insert k x l) ((k, x) :: l).
Proof.
  induction l as [|(k0, x0) l IH]; intros H; cbn [map_insert]; [reflexivity|].
  cbn [map fst] in H. destruct (k <? k0); [reflexivity|]. destruct (Nat.eqb_spec k k0); [subst; exfalso; apply H; left; reflexivity|].
  rewrite IH by (intros C; apply H; right; exact C). apply perm_swap.
Qed.
Lemma fold_insert_perm l acc : NoDup (map fst l ++ map fst acc) ->
  Permutation (fold_left (fun acc kx => map_insert (fst kx) (snd kx) acc) l acc) (l ++ acc).
Proof.
  revert acc. induction l as [|(k, x) l IH]; intros acc N; cbn [fold_left app]; [reflexivity|].
  cbn [map fst app] in N. inversion N as [|? ? Hk N']; subst. cbn [fst snd].
  assert (P : Permutation (map_insert k x acc) ((k, x) :: acc)) by (apply map_insert_perm; intros C; apply Hk; apply in_or_app; right; exact C).
  rewrite IH.
  - rewrite P. symmetry. apply Permutation_middle.
  - eapply Permutation_NoDup; [|exact N]. rewrite P. cbn [map fst]. apply Permutation_middle.
Qed.
Lemma map_find_in l k x : NoDup (map fst l) -> (map_find k l = Some x <-> In (k, x) l).
Proof.
  unfold map_find. induction l as [|(k0, x0) l IH]; intros N; cbn [find]; [split; [discriminate|contradiction]|].
  cbn [map fst] in N. inversion N as [|? ? Hk N']; subst. cbn [fst]. destruct (Nat.eqb_spec k0 k) as [->|E].
  - cbn. split; [intros H; left; congruence|]. intros [H|H]; [congruence|]. exfalso. apply Hk. apply (in_map fst) in H. exact H.
  - rewrite IH by exact N'. split; [intros H; right; exact H|]. intros [H|H]; [congruence|exact H].
Qed.

Section Facts.
Context {D : Type}.
Notation skip_objects := (skip_objects (D := D)).
Notation token := (token D).

(** ** skipping *)
Definition objs (n : nat) (ts : list token) (m : bool) : Prop :=
  forall k l, skip_objects (n + k) (ts ++ l) = bindR (skip_objects k l) (fun r => Done (m || fst r, snd r)).
Lemma skip_0 l : skip_objects 0 l = Done (false, l).
Proof. destruct l; reflexivity. Qed.
Lemma objs_nil : objs 0 [] false.
Proof. intros k l. cbn [Nat.add app]. destruct (skip_objects k l) as [(b, r)| |]; reflexivity. Qed.
Lemma objs_app n1 t1 m1 n2 t2 m2 : objs n1 t1 m1 -> objs n2 t2 m2 -> objs (n1 + n2) (t1 ++ t2) (m1 || m2).
Proof.
  intros H1 H2 k l. rewrite <- Nat.add_assoc, <- app_assoc, H1, H2. destruct (skip_objects k l) as [(b, r)| |]; cbn [bindR fst snd]; [|reflexivity..].
  rewrite orb_assoc. reflexivity.
Qed.
Lemma objs_array n ts m : objs n ts m -> objs 1 (ArrayH n :: ts) m.
Proof.
  intros H k l. change (1 + k) with (S k). cbn [Serial.skip_objects app]. cbn [children]. rewrite H.
  destruct (skip_objects k l) as [(b, r)| |]; reflexivity.
Qed.
Lemma objs_map n ts m : objs (2 * n) ts m -> objs 1 (MapH n :: ts) true.
Proof.
  intros H k l. change (1 + k) with (S k). cbn [Serial.skip_objects app]. cbn [children]. rewrite H.
  destruct (skip_objects k l) as [(b, r)| |]; reflexivity.
Qed.
Lemma objs_leaf t : children t = 0 -> (forall n, t <> MapH n) -> objs 1 [t] false.
Proof.
  intros C M k l. change (1 + k) with (S k). cbn [Serial.skip_objects app]. rewrite C. cbn [Nat.add].
  destruct (skip_objects k l) as [(b, r)| |]; [|reflexivity..]. cbn [bindR fst snd orb]. destruct t; try reflexivity. exfalso. exact (M n eq_refl).
Qed.
Lemma objs_concat {A} (f : A -> list token) (c : nat) (m : bool) l : (forall x, In x l -> objs c (f x) m) ->
  objs (c * List.length l) (concat (map f l)) (m && (0 <? List.length l)).
Proof.
  induction l as [|x l IH]; intros H; cbn [map concat List.length].
  - rewrite Nat.mul_0_r, andb_false_r. apply objs_nil.
  - replace (c * S (List.length l)) with (c + c * List.length l) by lia.
    replace (m && (0 <? S (List.length l))) with (m || (m && (0 <? List.length l))) by (destruct m, (0 <? List.length l); reflexivity).
    apply objs_app; [apply H; left; reflexivity|apply IH; intros y Hy; apply H; right; exact Hy].
Qed.
Lemma skip_one ts m l : objs 1 ts m -> skip_objects 1 (ts ++ l) = Done (m, l).
Proof. intros H. specialize (H 0 l). cbn [Nat.add] in H. rewrite H, skip_0. cbn [bindR fst snd]. rewrite orb_false_r. reflexivity. Qed.

Notation value := (value D).
Notation buffer := (buffer D).
(** ** target buffers *)
Definition held (mc : meta_comp) (b : buffer) (a : nat) : Prop := match b with Rows _ => a < List.length (mc_attrs mc) | Cols cols => In a (map fst cols) end.
Definition shaped (mc : meta_comp) (total : nat) (b : buffer) : Prop :=
  match b with
  | Rows rows => List.length rows = total /\ forall row, In row rows -> List.length row = List.length (mc_attrs mc)
  | Cols cols => NoDup (map fst cols) /\ (forall a, In a (map fst cols) -> a < List.length (mc_attrs mc)) /\ forall ac, In ac cols -> List.length (snd ac) = total
  end.
Definition bset (b : buffer) (i a : nat) (v : value) : buffer :=
  match b with
  | Rows rows => Rows (match nth_error rows i with Some row => upd i (upd a v row) rows | None => rows end)
  | Cols cols => Cols (map (fun ac => if fst ac =? a then (fst ac, upd i v (snd ac)) else ac) cols)
  end.
Lemma bset_fst cols i a (v : value) : map fst (map (fun ac => if fst ac =? a then (fst ac, upd i v (snd ac)) else ac) cols) = map fst cols.
Proof. rewrite map_map. apply map_ext. intros (a', c). cbn [fst]. destruct (a' =? a); reflexivity. Qed.
Lemma held_bset mc b i a v a' : held mc (bset b i a v) a' <-> held mc b a'.
Proof. destruct b; cbn [bset held]; [tauto|]. rewrite bset_fst. tauto. Qed.
Lemma shaped_bset mc total b i a v : shaped mc total b -> shaped mc total (bset b i a v).
Proof.
  destruct b as [rows|cols]; cbn [bset shaped].
  - intros (HL & HR). destruct (nth_error rows i) as [row|] eqn:E; [|auto]. split; [rewrite upd_length; exact HL|].
    intros r Hr. apply In_nth_error in Hr. destruct Hr as (j & Hj). destruct (Nat.eq_dec i j) as [<-|N].
    + rewrite nth_error_upd_eq in Hj by (apply nth_error_Some; congruence). injection Hj as <-. rewrite upd_length. apply HR. eapply nth_error_In; exact E.
    + rewrite nth_error_upd_neq in Hj by congruence. apply HR. eapply nth_error_In; exact Hj.
  - intros (N & R & HL). rewrite bset_fst. split; [exact N|]. split; [exact R|]. intros ac H. apply in_map_iff in H. destruct H as (x & <- & Hx).
    specialize (HL x Hx). destruct (fst x =? a); [cbn [snd]; rewrite upd_length|]; exact HL.
Qed.
Lemma stored_held mc total b i a : shaped mc total b -> i < total -> held mc b a -> exists v, stored b i a = Some v.
Proof.
  destruct b as [rows|cols]; cbn [shaped held stored].
  - intros (HL & HR) Hi Ha. destruct (nth_error rows i) as [row|] eqn:E; [|apply nth_error_None in E; lia].
    specialize (HR row (nth_error_In _ _ E)). destruct (nth_error row a) eqn:F; [eauto|apply nth_error_None in F; lia].
  - intros (N & R & HL) Hi Ha. destruct (find (fun x => fst x =? a) cols) as [x|] eqn:E.
    + apply find_some in E. destruct E as (Hx, _). specialize (HL x Hx). destruct (nth_error (snd x) i) eqn:F; [eauto|apply nth_error_None in F; lia].
    + exfalso. apply in_map_iff in Ha. destruct Ha as (x & <- & Hx). pose proof (find_none _ _ E x Hx) as C. cbn in C. rewrite Nat.eqb_refl in C. discriminate.
Qed.
Lemma stored_bset mc total b i a v j a' : shaped mc total b -> i < total -> j < total -> held mc b a -> held mc b a' ->
  stored (bset b i a v) j a' = if (j =? i) && (a' =? a) then Some v else stored b j a'.
Proof.
  intros S Hi Hj Ha Ha'. pose proof (stored_held mc total b j a' S Hj Ha') as (w & Hw).
  destruct b as [rows|cols]; cbn [shaped held stored bset] in *.
  - destruct S as (HL & HR). destruct (nth_error rows i) as [row|] eqn:E; [|apply nth_error_None in E; lia].
    pose proof (HR row (nth_error_In _ _ E)) as Lr. destruct (Nat.eqb_spec j i) as [->|N]; cbn [andb].
    + rewrite nth_error_upd_eq by lia. destruct (Nat.eqb_spec a' a) as [->|N'].
      * rewrite nth_error_upd_eq by lia. reflexivity.
      * rewrite nth_error_upd_neq by congruence. rewrite E. reflexivity.
    + rewrite nth_error_upd_neq by congruence. reflexivity.
  - destruct S as (N & R & HL). clear Hw N R Ha. induction cols as [|(a0, c0) cols IH]; [destruct Ha'|].
    cbn [map find]. cbn [fst]. destruct (Nat.eqb_spec a0 a) as [E|E].
    + subst a0. cbn [fst snd]. destruct (Nat.eqb_spec a a') as [<-|E'].
      * rewrite Nat.eqb_refl, andb_true_r. destruct (Nat.eqb_spec j i) as [->|]; [apply nth_error_upd_eq; specialize (HL _ (or_introl eq_refl)); cbn in HL; lia|
          apply nth_error_upd_neq; congruence].
      * replace (a' =? a) with false by lia. rewrite andb_false_r. rewrite IH.
        -- replace (a' =? a) with false by lia. rewrite andb_false_r. reflexivity.
        -- intros ac H. apply HL. right. exact H.
        -- destruct Ha' as [C|H]; [cbn in C; congruence|exact H].
    + cbn [fst snd]. destruct (Nat.eqb_spec a0 a') as [<-|E'].
      * replace (a0 =? a) with false by lia. rewrite andb_false_r. reflexivity.
      * apply IH; [intros ac H; apply HL; right; exact H|destruct Ha' as [C|H]; [cbn in C; congruence|exact H]].
Qed.
Lemma bset_other (b : buffer) mc i a v : (match b with Rows _ => False | Cols _ => True end) -> ~ held mc b a -> bset b i a v = b.
Proof.
  destruct b as [|cols]; [contradiction|]. intros _ H. cbn [bset held] in *. f_equal. rewrite <- (map_id cols) at 2. apply map_ext_in.
  intros ac Hac. destruct (Nat.eqb_spec (fst ac) a) as [<-|]; [exfalso; apply H; apply in_map; exact Hac|reflexivity].
Qed.
Lemma type_of_ok mc a x : nth_error (mc_attrs mc) a = Some x -> type_of mc a = Done (ma_type x).
Proof. intros H. unfold type_of. rewrite H. reflexivity. Qed.

Lemma held_dec mc (b : buffer) a : {held mc b a} + {~ held mc b a}.
Proof. destruct b; cbn [held]; [apply lt_dec|apply in_dec; exact Nat.eq_dec]. Qed.

Definition ty (mc : meta_comp) (a : nat) : atype := match nth_error (mc_attrs mc) a with Some x => ma_type x | None => A_id end.
Lemma held_lt mc total b a : shaped mc total b -> held mc b a -> a < List.length (mc_attrs mc).
Proof. destruct b; cbn [shaped held]; [auto|]. intros (_ & R & _) H. exact (R a H). Qed.
End Facts.

Section Reading.
Context {D : Type} (nan : D) (is_nan : D -> bool) (of_int : Z -> D).
Notation token := (token D).
Notation value := (value D).
Notation buffer := (buffer D).
(** ** values *)
Definition norm_double (d : D) : D := if is_nan d then nan else d.
Definition norm (v : value) : value :=
  match v with V_int z => V_int z | V_double d => V_double (norm_double d) | V_double3 a b c => V_double3 (norm_double a) (norm_double b) (norm_double c) end.
Definition vtok (t : atype) (v : value) : list token := if is_na is_nan t v then [Nil] else pack_value is_nan v.
Lemma norm_na t v : typed t v -> is_na is_nan t v = true -> norm v = na nan t.
Proof.
  destruct t, v as [z|d|a b c]; cbn; try contradiction; intros T H.
  - apply Z.eqb_eq in H. subst. reflexivity.
  - apply Z.eqb_eq in H. subst. reflexivity.
  - unfold norm_double. rewrite H. reflexivity.
  - apply andb_prop in H. destruct H as (H, Hc). apply andb_prop in H. destruct H as (Ha, Hb). unfold norm_double. rewrite Ha, Hb, Hc. reflexivity.
Qed.
Lemma parse_scalar_ok d l : parse_scalar of_int nan (pack_scalar is_nan d :: l) = Done (norm_double d, l).
Proof. unfold pack_scalar, norm_double. destruct (is_nan d); reflexivity. Qed.
Lemma parse_pack t v l : typed t v -> is_na is_nan t v = false -> parse_value of_int t (na nan t) (pack_value is_nan v ++ l) = Done (norm v, l).
Proof.
  destruct t, v as [z|d|a b c]; cbn [typed]; try contradiction; intros T H; cbn [na parse_value pack_value app norm].
  - unfold int_range. replace ((-2147483648 <=? z)%Z && (z <=? 2147483647)%Z) with true by lia. reflexivity.
  - unfold int_range. replace ((-128 <=? z)%Z && (z <=? 127)%Z) with true by lia. reflexivity.
  - cbn in H. cbn [parse_scalar bindR fst snd]. unfold norm_double. rewrite H. reflexivity.
  - cbn [Nat.eqb]. rewrite parse_scalar_ok. cbn [bindR fst snd]. rewrite parse_scalar_ok. cbn [bindR fst snd]. rewrite parse_scalar_ok. reflexivity.
Qed.
Lemma parse_vtok t v l : typed t v -> parse_value of_int t (na nan t) (vtok t v ++ l) = Done (norm v, l).
Proof.
  intros T. unfold vtok. destruct (is_na is_nan t v) eqn:E.
  - rewrite (norm_na t v T E). destruct t; reflexivity.
  - apply parse_pack; assumption.
Qed.
Lemma pack_scalar_leaf d : objs 1 [pack_scalar is_nan d] false.
Proof. apply objs_leaf; unfold pack_scalar; destruct (is_nan d); try reflexivity; intros n C; discriminate. Qed.
Lemma pack_objs v : objs 1 (pack_value is_nan v) false.
Proof.
  destruct v as [z|d|a b c]; cbn [pack_value].
  - apply objs_leaf; [reflexivity|discriminate].
  - apply objs_leaf; [reflexivity|discriminate].
  - apply objs_array. change 3 with (1 + (1 + 1)). change [pack_scalar is_nan a; pack_scalar is_nan b; pack_scalar is_nan c] with ([pack_scalar is_nan a] ++ [pack_scalar is_nan b] ++ [pack_scalar is_nan c]).
    change false with (false || (false || false)). repeat apply objs_app; apply pack_scalar_leaf.
Qed.
Lemma vtok_objs t v : objs 1 (vtok t v) false.
Proof. unfold vtok. destruct (is_na is_nan t v); [apply objs_leaf; [reflexivity|discriminate]|apply pack_objs]. Qed.

End Reading.

Section Filling.
Context {D : Type} (nan : D) (of_int : Z -> D).
Notation token := (token D).
Notation value := (value D).
Notation buffer := (buffer D).
Lemma parse_attribute_held mc total b i a x ts v l : nth_error (mc_attrs mc) a = Some x -> shaped mc total b -> i < total -> held mc b a ->
  stored b i a = Some (na nan (ma_type x)) -> parse_value of_int (ma_type x) (na nan (ma_type x)) (ts ++ l) = Done (v, l) ->
  parse_attribute of_int mc b i (Some a) (ts ++ l) = Done (bset b i a v, l).
Proof.
  intros Hx S Hi Ha Hs P. unfold parse_attribute. destruct b as [rows|cols]; cbn [shaped held stored bset] in *.
  - unfold parse_in_row. rewrite (type_of_ok _ _ _ Hx). cbn [bindR]. unfold row_value. rewrite Hs. cbn [getR bindR]. rewrite P. cbn [bindR fst snd].
    unfold update. destruct (nth_error rows i) as [row|] eqn:E; [|discriminate]. cbn [getR bindR]. rewrite Hs. reflexivity.
  - destruct S as (N & _ & _). destruct (find_index (fun x0 => fst x0 =? a) cols) as [k|] eqn:E.
    + destruct (find_index_some _ _ _ E) as (ac & Hk & Hac). apply Nat.eqb_eq in Hac.
      unfold parse_in_col. rewrite Hk. cbn [getR bindR]. rewrite Hac, (type_of_ok _ _ _ Hx). cbn [bindR].
      assert (Hf : find (fun x0 => fst x0 =? a) cols = Some ac).
      { clear -N Hk Hac. revert k Hk. induction cols as [|c cols IH]; intros k Hk; [destruct k; discriminate|]. cbn [map] in N. inversion N as [|? ? Hc N']; subst.
        cbn [find]. destruct k as [|k]; cbn in Hk; [injection Hk as ->; rewrite Nat.eqb_refl; reflexivity|].
        destruct (Nat.eqb_spec (fst c) (fst ac)) as [C|]; [exfalso; apply Hc; rewrite C; apply in_map; eapply nth_error_In; exact Hk|apply (IH N' k Hk)]. }
      rewrite Hf in Hs. rewrite Hs. cbn [getR bindR]. rewrite P. cbn [bindR fst snd]. unfold update. rewrite Hk. cbn [getR bindR]. rewrite Hs. cbn [getR bindR fst].
      do 3 f_equal. clear -N Hk Hac. revert k Hk. induction cols as [|c cols IH]; intros k Hk; [destruct k; discriminate|]. cbn [map] in N. inversion N as [|? ? Hc N']; subst.
      destruct k as [|k]; cbn in Hk.
      * injection Hk as ->. cbn [upd map]. rewrite Nat.eqb_refl. f_equal. rewrite <- (map_id cols) at 1. apply map_ext_in. intros c Hcc.
        destruct (Nat.eqb_spec (fst c) (fst ac)) as [C|]; [exfalso; apply Hc; rewrite <- C; apply in_map; exact Hcc|reflexivity].
      * cbn [upd map]. destruct (Nat.eqb_spec (fst c) (fst ac)) as [C|]; [exfalso; apply Hc; rewrite C; apply in_map; eapply nth_error_In; exact Hk|].
        f_equal. apply (IH N' k Hk).
    + exfalso. apply in_map_iff in Ha. destruct Ha as (ac & <- & Hac). pose proof (find_index_none _ _ E ac Hac) as C. cbn in C. rewrite Nat.eqb_refl in C. discriminate.
Qed.
Lemma parse_attribute_not_held mc (b : buffer) i a ts m l : (match b with Rows _ => False | Cols _ => True end) -> ~ held mc b a -> objs 1 ts m ->
  parse_attribute of_int mc b i (Some a) (ts ++ l) = Done (b, l).
Proof.
  intros C H O. unfold parse_attribute. destruct b as [|cols]; [contradiction|]. cbn [held] in H.
  destruct (find_index (fun x => fst x =? a) cols) as [k|] eqn:E.
  - exfalso. destruct (find_index_some _ _ _ E) as (ac & Hk & Hac). apply Nat.eqb_eq in Hac. subst a. apply H. apply in_map. eapply nth_error_In; exact Hk.
  - rewrite (skip_one ts m l O). reflexivity.
Qed.
(** ** filling the buffer element by element: [f j a] is the value to be read *)
Definition partly (mc : meta_comp) (total : nat) (f : nat -> nat -> value) (done : nat -> nat -> bool) (b : buffer) : Prop :=
  shaped mc total b /\ forall j a, j < total -> held mc b a -> stored b j a = Some (if done j a then f j a else na nan (ty mc a)).
Lemma partly_ext mc total (f : nat -> nat -> value) (d d' : nat -> nat -> bool) b : (forall j a, j < total -> held mc b a -> (if d j a then f j a else na nan (ty mc a)) = if d' j a then f j a else na nan (ty mc a)) ->
  partly mc total f d b -> partly mc total f d' b.
Proof. intros E (S & H). split; [exact S|]. intros j a Hj Ha. rewrite (H j a Hj Ha). rewrite (E j a Hj Ha). reflexivity. Qed.
(** one attribute *)
Lemma parse_one mc total f d b i a ts m l : partly mc total f d b -> i < total -> a < List.length (mc_attrs mc) -> d i a = false -> objs 1 ts m ->
  parse_value of_int (ty mc a) (na nan (ty mc a)) (ts ++ l) = Done (f i a, l) ->
  exists b', parse_attribute of_int mc b i (Some a) (ts ++ l) = Done (b', l) /\ (forall a', held mc b' a' <-> held mc b a') /\
    (forall attrs, no_overlap b' attrs = no_overlap b attrs) /\
    partly mc total f (fun j a' => ((j =? i) && (a' =? a)) || d j a') b'.
Proof.
  intros (S & F) Hi Ha Hd O P. destruct (nth_error (mc_attrs mc) a) as [x|] eqn:Ex; [|apply nth_error_None in Ex; lia].
  assert (Et : ty mc a = ma_type x) by (unfold ty; rewrite Ex; reflexivity).
  destruct (held_dec mc b a) as [Hh|Hh].
  - exists (bset b i a (f i a)). refine (conj _ (conj _ (conj _ (conj _ _)))).
    + rewrite Et in P. apply (parse_attribute_held mc total b i a x); auto. rewrite (F i a Hi Hh), Hd, Et. reflexivity.
    + intros a'. apply held_bset.
    + intros attrs. destruct b as [|cols]; [reflexivity|]. cbn [bset no_overlap]. 
      assert (E : forall g : nat -> bool, existsb (fun x0 => g (fst x0)) (map (fun ac => if fst ac =? a then (fst ac, upd i (f i a) (snd ac)) else ac) cols) = existsb (fun x0 => g (fst x0)) cols).
      { intros g. clear. induction cols as [|c cols IH]; [reflexivity|]. cbn [map existsb]. rewrite IH. destruct (fst c =? a); reflexivity. }
      clear -E. induction attrs as [|a0 attrs IH]; [reflexivity|]. cbn [forallb]. rewrite IH. rewrite (E (fun y => y =? a0)). reflexivity.
    + apply shaped_bset. exact S.
    + intros j a' Hj Ha'. apply held_bset in Ha'. rewrite (stored_bset mc total) by assumption.
      destruct (Nat.eqb_spec j i) as [->|], (Nat.eqb_spec a' a) as [->|]; cbn [andb orb]; auto.
  - exists b. assert (C : match b with Rows _ => False | Cols _ => True end) by (destruct b; [apply Hh; exact Ha|exact I]).
    refine (conj _ (conj _ (conj _ (conj _ _)))); [eapply parse_attribute_not_held; eassumption|tauto|reflexivity|exact S|].
    intros j a' Hj Ha'. rewrite (F j a' Hj Ha'). destruct (Nat.eqb_spec a' a) as [->|]; [contradiction|]. rewrite andb_false_r. reflexivity.
Qed.
(** an element as a list *)
Lemma parse_attributes_ok mc total (f : nat -> nat -> value) i (etok : nat -> list token) l : i < total ->
  (forall a, a < List.length (mc_attrs mc) -> objs 1 (etok a) false /\ forall l, parse_value of_int (ty mc a) (na nan (ty mc a)) (etok a ++ l) = Done (f i a, l)) ->
  forall attrs d b, NoDup attrs -> (forall a, In a attrs -> a < List.length (mc_attrs mc) /\ d i a = false) -> partly mc total f d b ->
  exists b', parse_attributes of_int mc attrs b i (concat (map etok attrs) ++ l) = Done (b', l) /\ (forall a, held mc b' a <-> held mc b a) /\
    (forall attrs, no_overlap b' attrs = no_overlap b attrs) /\
    partly mc total f (fun j a => ((j =? i) && existsb (Nat.eqb a) attrs) || d j a) b'.
Proof.
  intros Hi HE. induction attrs as [|a attrs IH]; intros d b N HA HP; cbn [map concat parse_attributes].
  - exists b. refine (conj eq_refl (conj _ (conj _ _))); [tauto|reflexivity|]. eapply partly_ext; [|exact HP]. intros. cbn [existsb]. rewrite andb_false_r. reflexivity.
  - inversion N as [|? ? Ha N']; subst. destruct (HA a (or_introl eq_refl)) as (La & Da). destruct (HE a La) as (O & P).
    rewrite <- app_assoc.
    destruct (parse_one mc total f d b i a (etok a) false (concat (map etok attrs) ++ l) HP Hi La Da O (P _)) as (b1 & E1 & H1 & V1 & P1).
    rewrite E1. cbn [bindR fst snd].
    destruct (IH (fun j a' => ((j =? i) && (a' =? a)) || d j a') b1) as (b' & E' & H' & V' & P').
    + exact N'.
    + intros a' Ha'. destruct (HA a' (or_intror Ha')) as (L & Dd). split; [exact L|]. cbn beta. rewrite Dd. destruct (Nat.eqb_spec a' a) as [->|]; [contradiction|]. rewrite andb_false_r. reflexivity.
    + exact P1.
    + exists b'. refine (conj E' (conj _ (conj _ _))); [intros a0; rewrite H'; apply H1|intros at0; rewrite V'; apply V1|].
      eapply partly_ext; [|exact P']. intros j a' _ _. cbn [existsb]. destruct (j =? i), (a' =? a), (existsb (Nat.eqb a') attrs); reflexivity.
Qed.
(** an element as a map *)
Lemma parse_map_ok mc total (f : nat -> nat -> value) i (name : nat -> string) (etok : nat -> list token) l : i < total ->
  (forall a, a < List.length (mc_attrs mc) -> attr_index mc (name a) = Some a) ->
  forall attrs d b, NoDup attrs -> (forall a, In a attrs -> a < List.length (mc_attrs mc) /\ d i a = false /\
      objs 1 (etok a) false /\ forall l, parse_value of_int (ty mc a) (na nan (ty mc a)) (etok a ++ l) = Done (f i a, l)) -> partly mc total f d b ->
  exists b', parse_map_element of_int mc (List.length attrs) b i (concat (map (fun a => Str (name a) :: etok a) attrs) ++ l) = Done (b', l) /\ (forall a, held mc b' a <-> held mc b a) /\
    (forall attrs, no_overlap b' attrs = no_overlap b attrs) /\
    partly mc total f (fun j a => ((j =? i) && existsb (Nat.eqb a) attrs) || d j a) b'.
Proof.
  intros Hi HN. induction attrs as [|a attrs IH]; intros d b N HA HP; cbn [map concat parse_map_element List.length].
  - exists b. refine (conj eq_refl (conj _ (conj _ _))); [tauto|reflexivity|]. eapply partly_ext; [|exact HP]. intros. cbn [existsb]. rewrite andb_false_r. reflexivity.
  - inversion N as [|? ? Ha N']; subst. destruct (HA a (or_introl eq_refl)) as (La & Da & O & P).
    cbn [app parse_string bindR fst snd]. rewrite (HN a La). rewrite <- app_assoc.
    destruct (parse_one mc total f d b i a (etok a) false (concat (map (fun a => Str (name a) :: etok a) attrs) ++ l) HP Hi La Da O (P _)) as (b1 & E1 & H1 & V1 & P1).
    rewrite E1. cbn [bindR fst snd].
    destruct (IH (fun j a' => ((j =? i) && (a' =? a)) || d j a') b1) as (b' & E' & H' & V' & P').
    + exact N'.
    + intros a' Ha'. destruct (HA a' (or_intror Ha')) as (L & Dd & R). split; [exact L|]. split; [|exact R]. cbn beta. rewrite Dd. destruct (Nat.eqb_spec a' a) as [->|]; [contradiction|]. rewrite andb_false_r. reflexivity.
    + exact P1.
    + exists b'. refine (conj E' (conj _ (conj _ _))); [intros a0; rewrite H'; apply H1|intros at0; rewrite V'; apply V1|].
      eapply partly_ext; [|exact P']. intros j a' _ _. cbn [existsb]. destruct (j =? i), (a' =? a), (existsb (Nat.eqb a') attrs); reflexivity.
Qed.
End Filling.
