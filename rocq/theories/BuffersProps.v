(** C42: setting and getting attributes through the C API are inverse and touch nothing else. *)
From Verif Require Import Common Buffers.
Open Scope Z_scope.

(** ** Specification *)
(** The attribute is a field of its component. *)
Definition field_of (a : meta_attribute) : Prop := 0 <= a_offset a /\ 0 < a_size a /\ a_offset a + a_size a <= a_component_size a.
(** byte [k] of the attribute in the record at position [i] of a buffer, and of value [i] of an array *)
Definition in_record (a : meta_attribute) (buffer i k : Z) : Z := buffer + i * a_component_size a + (a_offset a + k).
Definition in_array (start stride i k : Z) : Z := start + stride * i + k.
Definition stride_of (a : meta_attribute) (stride : Z) : Z := if stride <? 0 then a_size a else stride.
(** No byte of the values [offset], ..., [offset + size - 1] of the array is a byte of the records at these positions. *)
Definition apart (a : meta_attribute) (buffer start stride offset size : Z) : Prop :=
  forall i k j l, offset <= i < offset + size -> 0 <= k < a_size a -> offset <= j < offset + size -> 0 <= l < a_component_size a ->
    in_array start (stride_of a stride) i k <> buffer + j * a_component_size a + l.

(** ** Proofs *)
Lemma copy_in dst src n m k : 0 <= k < n -> copy dst src n m (dst + k) = m (src + k).
Proof. intros H. unfold copy. replace (dst <=? dst + k) with true by lia. replace (dst + k <? dst + n) with true by lia. cbn. f_equal. lia. Qed.
Lemma copy_out dst src n m a : (forall k, 0 <= k < n -> a <> dst + k) -> copy dst src n m a = m a.
Proof. intros H. unfold copy. destruct ((dst <=? a) && (a <? dst + n)) eqn:E; [|reflexivity]. exfalso. apply (H (a - dst)); lia. Qed.
Lemma record_inj a buffer i k j l : field_of a -> 0 <= k < a_size a -> 0 <= l < a_size a -> in_record a buffer i k = in_record a buffer j l -> i = j /\ k = l.
Proof. unfold field_of, in_record. intros H Hk Hl E. assert (i = j) by nia. subst. lia. Qed.

Section Setting.
Variables (a : meta_attribute) (buffer value stride : Z).
Hypothesis Fa : field_of a.
Lemma each_set : forall n i m,
  (forall i' k j l, i <= i' < i + Z.of_nat n -> 0 <= k < a_size a -> i <= j < i + Z.of_nat n -> 0 <= l < a_component_size a -> in_array value stride i' k <> buffer + j * a_component_size a + l) ->
  (forall j k, i <= j < i + Z.of_nat n -> 0 <= k < a_size a -> each false a buffer value stride n i m (in_record a buffer j k) = m (in_array value stride j k)) /\
  (forall x, (forall j k, i <= j < i + Z.of_nat n -> 0 <= k < a_size a -> x <> in_record a buffer j k) -> each false a buffer value stride n i m x = m x).
Proof.
  induction n as [|n IH]; intros i m Ap; [split; [intros; lia|reflexivity]|]. cbn [each].
  destruct (IH (i + 1) (set_value a buffer (value + stride * i) i m)) as [I1 I2]; [intros; apply Ap; lia|].
  assert (At : forall k, 0 <= k < a_size a -> set_value a buffer (value + stride * i) i m (in_record a buffer i k) = m (in_array value stride i k)).
  { intros k Hk. unfold set_value, in_array. replace (in_record a buffer i k) with (address a buffer i + k) by (unfold in_record, address; lia). now apply copy_in. }
  assert (Off : forall x, (forall k, 0 <= k < a_size a -> x <> in_record a buffer i k) -> set_value a buffer (value + stride * i) i m x = m x).
  { intros x Hx. apply copy_out. intros k Hk E. apply (Hx k Hk). rewrite E. unfold in_record, address. lia. }
  split.
  - intros j k Hj Hk. destruct (Z.eq_dec j i) as [->|N].
    + rewrite I2; [now apply At|]. intros j' k' Hj' Hk' E. apply record_inj in E; [lia|assumption..].
    + rewrite I1 by lia. apply Off. intros k' Hk' E. unfold field_of in Fa. apply (Ap j k i (a_offset a + k')); [lia|lia|lia|lia|]. rewrite E. unfold in_record. lia.
  - intros x Hx. rewrite I2 by (intros; apply Hx; lia). apply Off. intros k Hk. apply Hx; lia.
Qed.
End Setting.
Section Getting.
Variables (a : meta_attribute) (buffer value stride : Z).
Hypothesis Fa : field_of a.
Lemma each_get : forall n i m, (stride >= a_size a \/ (n <= 1)%nat) ->
  (forall i' k j l, i <= i' < i + Z.of_nat n -> 0 <= k < a_size a -> i <= j < i + Z.of_nat n -> 0 <= l < a_component_size a -> in_array value stride i' k <> buffer + j * a_component_size a + l) ->
  (forall j k, i <= j < i + Z.of_nat n -> 0 <= k < a_size a -> each true a buffer value stride n i m (in_array value stride j k) = m (in_record a buffer j k)) /\
  (forall x, (forall j k, i <= j < i + Z.of_nat n -> 0 <= k < a_size a -> x <> in_array value stride j k) -> each true a buffer value stride n i m x = m x).
Proof.
  induction n as [|n IH]; intros i m Hst Ap; [split; [intros; lia|reflexivity]|]. cbn [each].
  destruct (IH (i + 1) (get_value a buffer (value + stride * i) i m)) as [I1 I2]; [destruct Hst; [auto|right; lia]|intros; apply Ap; lia|].
  assert (At : forall k, 0 <= k < a_size a -> get_value a buffer (value + stride * i) i m (in_array value stride i k) = m (in_record a buffer i k)).
  { intros k Hk. unfold get_value, in_array. rewrite copy_in by lia. f_equal. unfold in_record, address. lia. }
  assert (Off : forall x, (forall k, 0 <= k < a_size a -> x <> in_array value stride i k) -> get_value a buffer (value + stride * i) i m x = m x).
  { intros x Hx. apply copy_out. intros k Hk E. apply (Hx k Hk). rewrite E. reflexivity. }
  split.
  - intros j k Hj Hk. destruct (Z.eq_dec j i) as [->|N].
    + rewrite I2; [now apply At|]. intros j' k' Hj' Hk' E. unfold in_array in E. destruct Hst as [Hst|Hst]; [nia|lia].
    + rewrite I1 by lia. apply Off. intros k' Hk' E. unfold field_of in Fa. apply (Ap i k' j (a_offset a + k)); [lia|lia|lia|lia|]. rewrite <- E. unfold in_record. lia.
  - intros x Hx. rewrite I2 by (intros; apply Hx; lia). apply Off. intros k Hk. apply Hx; lia.
Qed.
End Getting.

(** ** Theorems *)
(** Setting writes the values of the array to the given positions and nothing else: neither other attributes, nor other records, nor other memory. *)
Theorem C42_set : forall a buffer value offset size stride m m', field_of a -> apart a buffer value stride offset size ->
  PGM_buffer_set_value a buffer value offset size stride m = Done m' ->
  (forall i k, offset <= i < offset + size -> 0 <= k < a_size a -> m' (in_record a buffer i k) = m (in_array value (stride_of a stride) i k)) /\
  (forall x, (forall i k, offset <= i < offset + size -> 0 <= k < a_size a -> x <> in_record a buffer i k) -> m' x = m x).
Proof.
  intros a buffer value offset size stride m m' Fa Ap H. unfold PGM_buffer_set_value, buffer_get_set_value in H. destruct (size <=? 0) eqn:E.
  - inversion H; subst. split; [intros; lia|reflexivity].
  - destruct ((value =? 0) || (buffer =? 0)); [discriminate|]. inversion H; subst.
    destruct (each_set a buffer value (stride_of a stride) Fa (Z.to_nat size) offset m) as [H1 H2]; [rewrite Z2Nat.id by lia; exact Ap|]. rewrite Z2Nat.id in H1, H2 by lia. split; assumption.
Qed.
Theorem C42_get : forall a buffer value offset size stride m m', field_of a -> apart a buffer value stride offset size -> (stride < 0 \/ stride >= a_size a \/ size <= 1) ->
  PGM_buffer_get_value a buffer value offset size stride m = Done m' ->
  (forall i k, offset <= i < offset + size -> 0 <= k < a_size a -> m' (in_array value (stride_of a stride) i k) = m (in_record a buffer i k)) /\
  (forall x, (forall i k, offset <= i < offset + size -> 0 <= k < a_size a -> x <> in_array value (stride_of a stride) i k) -> m' x = m x).
Proof.
  intros a buffer value offset size stride m m' Fa Ap Hst H. unfold PGM_buffer_get_value, buffer_get_set_value in H. destruct (size <=? 0) eqn:E.
  - inversion H; subst. split; [intros; lia|reflexivity].
  - destruct ((value =? 0) || (buffer =? 0)); [discriminate|]. inversion H; subst.
    destruct (each_get a buffer value (stride_of a stride) Fa (Z.to_nat size) offset m) as [H1 H2].
    + unfold stride_of. destruct (stride <? 0) eqn:L; [left; lia|]. destruct Hst as [?|[?|?]]; [lia|left; lia|right; lia].
    + rewrite Z2Nat.id by lia. exact Ap.
    + rewrite Z2Nat.id in H1, H2 by lia. split; assumption.
Qed.
(** What was set is read back. *)
Theorem C42_round_trip : forall a buffer source dest offset size stride stride' m m1 m2, field_of a ->
  apart a buffer source stride offset size -> apart a buffer dest stride' offset size -> (stride' < 0 \/ stride' >= a_size a \/ size <= 1) ->
  PGM_buffer_set_value a buffer source offset size stride m = Done m1 -> PGM_buffer_get_value a buffer dest offset size stride' m1 = Done m2 ->
  forall i k, offset <= i < offset + size -> 0 <= k < a_size a -> m2 (in_array dest (stride_of a stride') i k) = m (in_array source (stride_of a stride) i k).
Proof.
  intros a buffer source dest offset size stride stride' m m1 m2 Fa A1 A2 Hst H1 H2 i k Hi Hk.
  destruct (C42_get _ _ _ _ _ _ _ _ Fa A2 Hst H2) as [G _]. destruct (C42_set _ _ _ _ _ _ _ _ Fa A1 H1) as [Q _]. rewrite G, Q by assumption. reflexivity.
Qed.
(** Other attributes of the component keep their values in every record, and so does this attribute in the records that are not addressed. *)
Theorem C42_others : forall a b buffer value offset size stride m m', field_of a -> field_of b -> apart a buffer value stride offset size ->
  a_component_size a = a_component_size b -> PGM_buffer_set_value a buffer value offset size stride m = Done m' ->
  forall i k, 0 <= k < a_size b -> a_offset a + a_size a <= a_offset b \/ a_offset b + a_size b <= a_offset a \/ ~ offset <= i < offset + size ->
  m' (in_record b buffer i k) = m (in_record b buffer i k).
Proof.
  intros a b buffer value offset size stride m m' Fa Fb Ap Ec H i k Hk D. destruct (C42_set _ _ _ _ _ _ _ _ Fa Ap H) as [_ Q]. apply Q. intros j l Hj Hl E.
  unfold field_of, in_record in *. rewrite Ec in E. assert (i = j) by nia. subst j. lia.
Qed.
(** A call is refused exactly if there is something to do and a pointer is null. *)
Theorem C42_refused : forall is_get a buffer value offset size stride m,
  buffer_get_set_value is_get a buffer value offset size stride m = NullPointer <-> 0 < size /\ (value = 0 \/ buffer = 0).
Proof.
  intros. unfold buffer_get_set_value. destruct (size <=? 0) eqn:E; [split; [discriminate|lia]|]. destruct ((value =? 0) || (buffer =? 0)) eqn:N; [split; [lia|reflexivity]|split; [discriminate|lia]].
Qed.
(** Resetting gives every addressed record the default bytes and leaves all else. *)
Theorem C42_set_nan : forall size record buffer pos n m i k, 0 < size -> 0 <= k < size ->
  set_nan size record buffer pos n m (buffer + i * size + k) = if (pos <=? i) && (i <? pos + n) then record k else m (buffer + i * size + k).
Proof.
  intros size record buffer pos n m i k Hs Hk. unfold set_nan. replace ((buffer + pos * size <=? buffer + i * size + k) && (buffer + i * size + k <? buffer + (pos + n) * size)) with ((pos <=? i) && (i <? pos + n)).
  - destruct ((pos <=? i) && (i <? pos + n)); [|reflexivity]. f_equal. replace (buffer + i * size + k - buffer) with (k + i * size) by ring. rewrite Z.mod_add by lia. now apply Z.mod_small.
  - destruct (pos <=? i) eqn:A, (i <? pos + n) eqn:B; cbn [andb]; symmetry; nia.
Qed.
(** A created buffer has room for all records and its size is a multiple of its alignment, as aligned_alloc requires. *)
Theorem C42_create : forall csize alignment ptr_size size, 0 <= csize -> 0 < alignment -> 0 < ptr_size -> 0 <= size ->
  csize * size <= rounded_bytes csize alignment ptr_size size /\ (Z.max alignment ptr_size | rounded_bytes csize alignment ptr_size size) /\
  rounded_bytes csize alignment ptr_size size < csize * size + Z.max alignment ptr_size.
Proof.
  intros csize al ps size H1 H2 H3 H4. unfold rounded_bytes. set (A := Z.max al ps). assert (HA : 0 < A) by lia. clearbody A.
  pose proof (Z.div_mod (csize * size + A - 1) A ltac:(lia)) as D. pose proof (Z.mod_pos_bound (csize * size + A - 1) A HA) as B.
  refine (conj _ (conj _ _)); [nia|exists ((csize * size + A - 1) / A); reflexivity|nia].
Qed.

(** ** A case *)
(** the second attribute (8 bytes at offset 8) of a component of 24 bytes, positions 2 to 4, values in an array with stride 16 *)
Definition ex_attr : meta_attribute := mkAttr 8 8 24.
Example ex_hypotheses : field_of ex_attr /\ apart ex_attr 1000 5000 16 2 3 /\ apart ex_attr 1000 7000 (-1) 2 3.
Proof. refine (conj _ (conj _ _)); [unfold field_of; cbn; lia|..]; unfold apart, in_array, stride_of, ex_attr; cbn [a_size a_component_size a_offset Z.ltb Z.compare]; intros; lia. Qed.
Example ex_round : match PGM_buffer_set_value ex_attr 1000 5000 2 3 16 (fun a => a) with
  | Done m1 => match PGM_buffer_get_value ex_attr 1000 7000 2 3 (-1) m1 with Done m2 => m2 (in_array 7000 8 4 3) = 5000 + 16 * 4 + 3 /\ m2 1050 = 1050 | NullPointer => False end
  | NullPointer => False end.
Proof. vm_compute. split; reflexivity. Qed.

Print Assumptions C42_set.
Print Assumptions C42_get.
Print Assumptions C42_round_trip.
Print Assumptions C42_others.
Print Assumptions C42_refused.
Print Assumptions C42_set_nan.
Print Assumptions C42_create.
