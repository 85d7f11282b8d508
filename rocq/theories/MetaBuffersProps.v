(** C42 for the attributes of the library: the hypotheses of the theorems on buffers hold for every attribute that the meta data has, so
    setting one attribute of any component never touches another one, and resetting elements makes every attribute not given. *)
From Verif Require Import Common Handle MetaData MetaTables MetaSpec MetaProps Buffers BuffersProps.
From Coq Require Import String.
Local Close Scope Z_scope.

(** The attribute as buffer.cpp uses it. *)
Definition buffer_attribute (a : MetaData.meta_attribute) : Buffers.meta_attribute :=
  mkAttr (Z.of_nat (ma_offset a)) (Z.of_nat (ma_size a)) (Z.of_nat (ma_component_size a)).

Lemma fsize_pos : forall t, 0 < fsize t.
Proof. intros []; cbn; lia. Qed.

Lemma library_field : forall d c a, In d library -> In c (md_components d) -> In a (mc_attributes c) -> field_of (buffer_attribute a).
Proof.
  intros d c a Hd Hc Ha. destruct (C70_library_layout d c Hd Hc) as (_ & _ & L & _).
  destruct (L a Ha) as (E1 & E2 & _ & E3 & _). pose proof (fsize_pos (ma_ctype a)).
  unfold field_of, buffer_attribute. cbn [a_offset a_size a_component_size]. lia.
Qed.

Lemma library_apart : forall d c i j a b, In d library -> In c (md_components d) ->
  nth_error (mc_attributes c) i = Some a -> nth_error (mc_attributes c) j = Some b -> i <> j ->
  ma_offset a + ma_size a <= ma_offset b \/ ma_offset b + ma_size b <= ma_offset a.
Proof.
  intros d c i j a b Hd Hc Hi Hj Hne. destruct (C70_library_layout d c Hd Hc) as (_ & _ & L & D).
  destruct (L a (nth_error_In _ _ Hi)) as (E1 & _). destruct (L b (nth_error_In _ _ Hj)) as (E2 & _).
  pose proof (fsize_pos (ma_ctype a)). pose proof (fsize_pos (ma_ctype b)).
  pose proof (D i j a b Hi Hj Hne (Nat.max (ma_offset a) (ma_offset b))) as N. unfold bytes in N. lia.
Qed.

(** Setting an attribute of any component of any dataset: the addressed elements get the values, every other attribute and every other
    element keeps its bytes. *)
Theorem C42_library_set : forall d c i a, In d library -> In c (md_components d) -> nth_error (mc_attributes c) i = Some a ->
  forall buffer value offset size stride m m', apart (buffer_attribute a) buffer value stride offset size ->
  PGM_buffer_set_value (buffer_attribute a) buffer value offset size stride m = Done m' ->
  (forall e k, (offset <= e < offset + size)%Z -> (0 <= k < Z.of_nat (ma_size a))%Z ->
     m' (in_record (buffer_attribute a) buffer e k) = m (in_array value (stride_of (buffer_attribute a) stride) e k)) /\
  (forall j b e k, nth_error (mc_attributes c) j = Some b -> (0 <= k < Z.of_nat (ma_size b))%Z ->
     j <> i \/ ~ (offset <= e < offset + size)%Z ->
     m' (in_record (buffer_attribute b) buffer e k) = m (in_record (buffer_attribute b) buffer e k)).
Proof.
  intros d c i a Hd Hc Hi buffer value offset size stride m m' Ap H.
  pose proof (library_field d c a Hd Hc (nth_error_In _ _ Hi)) as Fa. split.
  - exact (proj1 (C42_set _ _ _ _ _ _ _ _ Fa Ap H)).
  - intros j b e k Hj Hk Hor. pose proof (library_field d c b Hd Hc (nth_error_In _ _ Hj)) as Fb.
    destruct (C70_library_layout d c Hd Hc) as (_ & _ & L & _).
    destruct (L a (nth_error_In _ _ Hi)) as (_ & Ea & _). destruct (L b (nth_error_In _ _ Hj)) as (_ & Eb & _).
    apply (C42_others (buffer_attribute a) (buffer_attribute b) buffer value offset size stride m m' Fa Fb Ap); [|exact H|exact Hk|].
    + cbn. congruence.
    + destruct Hor as [Hne | Hout]; [|right; right; exact Hout].
      destruct (library_apart d c j i b a Hd Hc Hj Hi Hne); cbn [buffer_attribute a_offset a_size]; lia.
Qed.

(** ** Resetting *)

(** common/common.hpp 87-89: nan, na_IntS and na_IntID, as bytes in memory, the lowest first: the least int8 and int32 and the quiet NaN
    0x7ff8000000000000. *)
Definition default_byte (d : fdefault) (k : nat) : Z :=
  match d with
  | DNaIntS => 128%Z
  | DNaID => if k =? 3 then 128%Z else 0%Z
  | DNan => if k mod 8 =? 7 then 127%Z else if k mod 8 =? 6 then 248%Z else 0%Z
  end.
(** The bytes of a default record (gen_getters.hpp 82-86, StructType{}): those of the member at the byte, [padding] between members. *)
Fixpoint record_byte (padding : nat -> Z) (l : list (field * nat)) (k : nat) : Z :=
  match l with
  | [] => padding k
  | (f, o) :: l' => if (o <=? k) && (k <? o + fsize (f_type f)) then default_byte (f_default f) (k - o) else record_byte padding l' k
  end.
(** Specification: the byte of the value for "not given" of a type. *)
Definition not_given_byte (t : ftype) (k : nat) : Z :=
  match t with
  | FInt32 => nth k [0; 0; 0; 128]%Z 0%Z
  | FInt8 => 128%Z
  | FDouble | FDouble3 => nth (k mod 8) [0; 0; 0; 0; 0; 0; 248; 127]%Z 0%Z
  end.
Lemma not_given_bytes : forall t k, k < fsize t -> default_byte (not_given t) k = not_given_byte t k.
Proof.
  intros t k H. unfold default_byte, not_given, not_given_byte. destruct t; cbn [fsize] in H.
  - do 4 (destruct k as [|k]; [reflexivity|]). lia.
  - reflexivity.
  - pose proof (Nat.mod_upper_bound k 8 ltac:(lia)). destruct (k mod 8) as [|[|[|[|[|[|[|[|q]]]]]]]]; try reflexivity; lia.
  - pose proof (Nat.mod_upper_bound k 8 ltac:(lia)). destruct (k mod 8) as [|[|[|[|[|[|[|[|q]]]]]]]]; try reflexivity; lia.
Qed.

Lemma record_byte_at : forall pad fs o i f x k, nth_error (place o fs) i = Some (f, x) -> k < fsize (f_type f) ->
  record_byte pad (place o fs) (x + k) = default_byte (f_default f) k.
Proof.
  induction fs as [|g fs IH]; intros o i f x k H Hk; [destruct i; discriminate|].
  pose proof (place_spec (g :: fs) o) as P.
  destruct i as [|i].
  - cbn in H. injection H as <- <-. cbn [place record_byte].
    set (x := align_up o (falign (f_type g))).
    replace ((x <=? x + k) && (x + k <? x + fsize (f_type g)))%bool with true by lia. f_equal. lia.
  - destruct (P 0 g (align_up o (falign (f_type g))) eq_refl) as (_ & _ & _ & _ & Q).
    pose proof (Q (S i) f x H ltac:(lia)) as Hle. cbn [place record_byte].
    set (y := align_up o (falign (f_type g))) in *.
    replace ((y <=? x + k) && (x + k <? y + fsize (f_type g)))%bool with false by lia. apply (IH _ i); assumption.
Qed.

(** After elements of any component of any dataset are reset, each of their attributes is the value for "not given" of its type, and
    all other elements keep their bytes, whatever is in the padding. *)
Theorem C42_library_reset : forall ds name fs attrs, In ds dataset_structs -> In (name, fs, attrs) (snd ds) ->
  forall i a, nth_error (mc_attributes (get_meta_component (name, fs, attrs))) i = Some a ->
  forall padding buffer pos n m e k, (k < ma_size a)%nat ->
  let m' := set_nan (Z.of_nat (struct_size fs)) (fun b => record_byte padding (place 0 fs) (Z.to_nat b)) buffer pos n m in
  let x := in_record (buffer_attribute a) buffer e (Z.of_nat k) in
  m' x = if ((pos <=? e) && (e <? pos + n))%Z%bool then not_given_byte (ma_ctype a) k else m x.
Proof.
  intros ds name fs attrs Hds Hc i a Ha padding buffer pos n m e k Hk m' x.
  pose proof (proj1 (Forall_forall _ _) C70_library_members _ Hds) as F.
  pose proof (proj1 (Forall_forall _ _) F _ Hc) as E. cbn in E.
  cbn [get_meta_component mc_attributes] in Ha. rewrite E in Ha. rewrite nth_error_map in Ha.
  destruct (nth_error (place 0 fs) i) as [[f o]|] eqn:Ei; [|discriminate]. cbn in Ha. injection Ha as <-.
  cbn in Hk. subst m' x. unfold in_record, buffer_attribute. cbn [as_attribute a_component_size a_offset ma_component_size ma_offset ma_ctype fst snd].
  destruct (place_spec fs 0 i f o Ei) as (_ & _ & B & Hin & _).
  assert (S : end_of 0 fs <= struct_size fs).
  { unfold struct_size. apply align_up_spec. destruct (struct_align_cases fs). lia. }
  rewrite C42_set_nan by lia. destruct ((pos <=? e) && (e <? pos + n))%Z%bool; [|reflexivity].
  replace (Z.to_nat (Z.of_nat o + Z.of_nat k)) with (o + k) by lia.
  rewrite (record_byte_at padding fs 0 i f o k Ei Hk).
  rewrite (C70_library_not_given ds name fs attrs f Hds Hc Hin). apply not_given_bytes. exact Hk.
Qed.

(** A created buffer for any component: room for all elements, each of them aligned if the start is. *)
Theorem C42_library_create : forall d c, In d library -> In c (md_components d) -> forall size buffer e, (0 <= e < size)%Z ->
  (Z.of_nat (mc_alignment c) | buffer)%Z ->
  (e * Z.of_nat (mc_size c) + Z.of_nat (mc_size c) <= rounded_bytes (Z.of_nat (mc_size c)) (Z.of_nat (mc_alignment c)) 8 size)%Z /\
  (Z.of_nat (mc_alignment c) | buffer + e * Z.of_nat (mc_size c))%Z /\
  forall a, In a (mc_attributes c) ->
    (Z.of_nat (falign (ma_ctype a)) | buffer + e * Z.of_nat (mc_size c) + Z.of_nat (ma_offset a))%Z.
Proof.
  intros d c Hd Hc size buffer e He Hb. destruct (C70_library_layout d c Hd Hc) as (Nz & M & L & _).
  destruct (C42_create (Z.of_nat (mc_size c)) (Z.of_nat (mc_alignment c)) 8 size) as (R & _ & _); [lia|lia|lia|lia|].
  apply Nat.mod_divide in M; [|exact Nz]. destruct M as [q Eq].
  assert (D : (Z.of_nat (mc_alignment c) | buffer + e * Z.of_nat (mc_size c))%Z).
  { apply Z.divide_add_r; [exact Hb|]. exists (e * Z.of_nat q)%Z. rewrite Eq. rewrite Nat2Z.inj_mul. ring. }
  split; [nia|]. split; [exact D|]. intros a Ha. destruct (L a Ha) as (_ & _ & O & _ & A).
  pose proof (falign_pos (ma_ctype a)) as Np.
  apply Nat.mod_divide in O; [|exact Np]. apply Nat.mod_divide in A; [|exact Np].
  apply Z.divide_add_r.
  - apply (Z.divide_trans _ (Z.of_nat (mc_alignment c))); [|exact D].
    destruct A as [r Er]. exists (Z.of_nat r). rewrite Er. apply Nat2Z.inj_mul.
  - destruct O as [r Er]. exists (Z.of_nat r). rewrite Er. apply Nat2Z.inj_mul.
Qed.

(** ** A case: the rated voltages of three nodes are set from an array; the components of the library have many attributes. *)
Example C42_library_example : exists d c a, In d library /\ In c (md_components d) /\ nth_error (mc_attributes c) 1 = Some a /\
  ma_name a = "u_rated"%string /\ apart (buffer_attribute a) 1000 2000 (-1) 0 3 /\ 2 <= List.length (mc_attributes c).
Proof.
  exists (nth 0 library (mkDataset "" [])), (nth 0 (md_components (nth 0 library (mkDataset "" []))) (mkComponent "" 0 0 [])),
    (mkAttribute "u_rated" FDouble 8 8 16).
  split; [apply nth_In; cbn; lia|]. split; [apply nth_In; cbn; lia|]. split; [reflexivity|]. split; [reflexivity|]. split; [|cbn; lia].
  unfold apart, in_array, stride_of, in_record, buffer_attribute. cbn [a_size a_component_size a_offset ma_size ma_offset ma_component_size].
  intros i k j l. change (-1 <? 0)%Z with true. cbn match. lia.
Qed.

Print Assumptions C42_library_set.
Print Assumptions C42_library_reset.
Print Assumptions C42_library_create.
