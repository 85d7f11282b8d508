(** What a dataset says, and when two datasets say the same. *)
From Verif Require Import Common Serial.
Local Open Scope nat_scope.

Section Spec.
Context {D : Type} (nan : D) (is_nan : D -> bool).

(** ** the contents of a dataset: scenario by scenario, component by component, element by element *)
Definition buffer_of (ds : dataset D) (c : nat) : option (comp_buffer D) := find (fun cb => cb_comp cb =? c) (ds_comps ds).
(** the elements of scenario [s] are those at [first_of cb s], ..., [first_of cb s + count_of cb s - 1] in the buffer *)
Definition first_of (cb : comp_buffer D) (s : nat) : nat := match cb_eps cb with Some e => s * e | None => nth s (cb_indptr cb) 0 end.
Definition count_of (cb : comp_buffer D) (s : nat) : nat := match cb_eps cb with Some e => e | None => nth (S s) (cb_indptr cb) 0 - nth s (cb_indptr cb) 0 end.
Definition stored (b : buffer D) (i a : nat) : option (value D) :=
  match b with
  | Rows rows => match nth_error rows i with Some row => nth_error row a | None => None end
  | Cols cols => match find (fun x => fst x =? a) cols with Some x => nth_error (snd x) i | None => None end
  end.
(** the number of elements of component [c] in scenario [s], and attribute [a] of element [i] of them; None: the dataset has no place for it *)
Definition elements (ds : dataset D) (s c : nat) : nat := match buffer_of ds c with Some cb => count_of cb s | None => 0 end.
Definition datum (ds : dataset D) (s c i a : nat) : option (value D) :=
  match buffer_of ds c with Some cb => if i <? count_of cb s then stored (cb_data cb) (first_of cb s + i) a else None | None => None end.

(** ** equal values: not available values equal each other, phase by phase *)
Definition same_double (x y : D) : Prop := (is_nan x = true /\ is_nan y = true) \/ (is_nan x = false /\ x = y).
Definition same_value (v w : value D) : Prop :=
  match v, w with
  | V_int x, V_int y => x = y
  | V_double x, V_double y => same_double x y
  | V_double3 a b c, V_double3 x y z => same_double a x /\ same_double b y /\ same_double c z
  | _, _ => False
  end.
(** the values that mean "not available" in the API: the least integer, NaN, NaN in all phases *)
Definition missing (t : atype) : value D :=
  match t with A_id => V_int (-2147483648)%Z | A_int8 => V_int (-128)%Z | A_double => V_double nan | A_double3 => V_double3 nan nan nan end.
Definition is_missing (t : atype) (v : value D) : bool :=
  match t, v with
  | A_id, V_int z => Z.eqb z (-2147483648)
  | A_int8, V_int z => Z.eqb z (-128)
  | A_double, V_double d => is_nan d
  | A_double3, V_double3 a b c => is_nan a && is_nan b && is_nan c
  | _, _ => false
  end.
(** an attribute that has no place in the dataset is not available *)
Definition same_datum (t : atype) (x y : option (value D)) : Prop :=
  same_value (match x with Some v => v | None => missing t end) (match y with Some v => v | None => missing t end).

(** ** datasets as the API lets a user build them *)
Definition typed (t : atype) (v : value D) : Prop :=
  match t, v with
  | A_id, V_int z => (-2147483648 <= z <= 2147483647)%Z
  | A_int8, V_int z => (-128 <= z <= 127)%Z
  | A_double, V_double _ | A_double3, V_double3 _ _ _ => True
  | _, _ => False
  end.
Definition typed_buffer (mc : meta_comp) (total : nat) (b : buffer D) : Prop :=
  match b with
  | Rows rows => length rows = total /\ forall row, In row rows -> Forall2 (fun x v => typed (ma_type x) v) (mc_attrs mc) row
  | Cols cols => NoDup (map fst cols) /\
      forall a col, In (a, col) cols -> length col = total /\ exists x, nth_error (mc_attrs mc) a = Some x /\ Forall (typed (ma_type x)) col
  end.
(** consistent sizes *)
Definition sized (size : nat) (cb : comp_buffer D) (total : nat) : Prop :=
  match cb_eps cb with
  | Some e => total = e * size
  | None => length (cb_indptr cb) = S size /\ nth 0 (cb_indptr cb) 0 = 0 /\ nth size (cb_indptr cb) 0 = total /\
            forall s, s < size -> nth s (cb_indptr cb) 0 <= nth (S s) (cb_indptr cb) 0
  end.
Definition fits (n : nat) : Prop := (Z.of_nat n < 4294967296)%Z.
Record meta_ok (m : meta_set) : Prop := {
  mo_names : NoDup (map mc_name (ms_comps m));
  mo_attrs : forall mc, In mc (ms_comps m) -> NoDup (map ma_name (mc_attrs mc)) /\ fits (length (mc_attrs mc));
  mo_fits : fits (length (ms_comps m)) }.
Record dataset_ok (ds : dataset D) : Prop := {
  do_meta : meta_ok (ds_meta ds);
  do_single : ds_batch ds = false -> ds_size ds = 1;
  do_size : fits (ds_size ds);
  do_once : NoDup (map cb_comp (ds_comps ds));
  do_buffer : forall cb, In cb (ds_comps ds) -> exists mc total, nth_error (ms_comps (ds_meta ds)) (cb_comp cb) = Some mc /\
    sized (ds_size ds) cb total /\ typed_buffer mc total (cb_data cb) /\ forall s, s < ds_size ds -> fits (count_of cb s) }.

(** ** the buffers of the user for reading *)
Definition target_ok (mc : meta_comp) (t : target) : Prop :=
  match t with Col_buffer attrs => NoDup attrs /\ forall a, In a attrs -> a < length (mc_attrs mc) | _ => True end.
Definition target_has (mc : meta_comp) (t : target) (a : nat) : Prop :=
  match t with No_buffer => False | Row_buffer => a < length (mc_attrs mc) | Col_buffer attrs => In a attrs end.
Definition given (t : target) : Prop := match t with No_buffer | Col_buffer [] => False | _ => True end.

(** ** what a reader is told before reading: which components there are, how many elements, and (compact form) which attributes are given *)
Record described (ds : dataset D) (compact : bool) (p : parsed (D := D)) : Prop := {
  de_meta : pa_meta p = ds_meta ds;
  de_batch : pa_batch p = ds_batch ds;
  de_size : pa_size p = ds_size ds;
  de_once : NoDup (map ci_comp (pa_infos p));
  de_comps : forall c, In c (map ci_comp (pa_infos p)) <-> exists s, s < ds_size ds /\ 0 < elements ds s c;
  de_total : forall i, In i (pa_infos p) -> ci_total i = list_sum (map (fun s => elements ds s (ci_comp i)) (seq 0 (ds_size ds)));
  de_uniform : forall i e, In i (pa_infos p) -> (ci_eps i = Some e <-> forall s, s < ds_size ds -> elements ds s (ci_comp i) = e);
  de_compact : forall i, In i (pa_infos p) -> ci_indicated i = compact;
  de_attributes : forall i mc, In i (pa_infos p) -> nth_error (ms_comps (ds_meta ds)) (ci_comp i) = Some mc -> compact = true ->
    NoDup (ci_attributes i) /\
    forall a, In a (ci_attributes i) <-> exists x s k v, nth_error (mc_attrs mc) a = Some x /\ s < ds_size ds /\ datum ds s (ci_comp i) k a = Some v /\
      is_missing (ma_type x) v = false }.
(** what is read back into the given buffers *)
Record read_back (ds : dataset D) (targets : nat -> target) (ds' : dataset D) : Prop := {
  rb_meta : ds_meta ds' = ds_meta ds;
  rb_batch : ds_batch ds' = ds_batch ds;
  rb_size : ds_size ds' = ds_size ds;
  rb_elements : forall s c, s < ds_size ds -> given (targets c) -> elements ds' s c = elements ds s c;
  rb_datum : forall s c i a mc x, s < ds_size ds -> i < elements ds s c -> nth_error (ms_comps (ds_meta ds)) c = Some mc -> nth_error (mc_attrs mc) a = Some x ->
    target_has mc (targets c) a -> datum ds' s c i a <> None /\ same_datum (ma_type x) (datum ds s c i a) (datum ds' s c i a);
  rb_only : forall s c i a mc v, nth_error (ms_comps (ds_meta ds)) c = Some mc -> datum ds' s c i a = Some v -> target_has mc (targets c) a }.
End Spec.
