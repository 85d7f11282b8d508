(** What is assumed about the text of numbers and about names, and what is read back from JSON. *)
From Coq Require Import String Ascii DecimalString.
From Verif Require Import Common Serial SerialSpec Json.
Local Open Scope nat_scope.

(** a string that can be written between quotes as it is *)
Fixpoint plain (s : string) : Prop :=
  match s with EmptyString => True | String c s' => c <> quote /\ c <> backslash /\ 32 <= nat_of_ascii c /\ plain s' end.
(** a string value that is not taken for infinity *)
Definition no_infinity (s : string) : Prop := s <> "inf"%string /\ s <> "+inf"%string /\ s <> "-inf"%string.
Definition proper (s : string) : Prop := plain s /\ no_infinity s.
Record names_ok (m : meta_set) : Prop := {
  nm_set : proper (ms_name m);
  nm_comp : forall mc, In mc (ms_comps m) -> proper (mc_name mc);
  nm_attr : forall mc x, In mc (ms_comps m) -> In x (mc_attrs mc) -> proper (ma_name x) }.
Fixpoint word_chars (s : string) : Prop := match s with EmptyString => True | String c s' => word_char c = true /\ word_chars s' end.

Section Spec.
Context {D : Type} (nan : D) (is_nan : D -> bool) (of_int : Z -> D) (pinf ninf : D) (inf_sign : D -> option bool).
Context (show_double : D -> string) (read_double : string -> option D) (equal : D -> D -> Prop).   (* [equal]: == of C++ *)
(** seventeen digits are enough to get the same double back; a double that is printed like an integer is equal to that integer (it need not
    be the same: -0.0 is printed as -0) *)
Record text_laws : Prop := {
  tl_nan : is_nan nan = true /\ inf_sign nan = None;
  tl_int : forall z, is_nan (of_int z) = false;
  tl_inf : forall d, match inf_sign d with Some true => d = pinf | Some false => d = ninf | None => True end;
  tl_int_int : forall z i, inf_sign (of_int z) = None -> NilZero.int_of_string (show_double (of_int z)) = Some i -> of_int (Z.of_int i) = of_int z;
  tl_inf_nan : forall d, inf_sign d <> None -> is_nan d = false;
  tl_refl : forall d, is_nan d = false -> equal d d;
  tl_show : forall d, is_nan d = false -> inf_sign d = None ->
    show_double d <> EmptyString /\ word_chars (show_double d) /\ ~ In (show_double d) ["null"; "true"; "false"]%string /\
    match NilZero.int_of_string (show_double d) with
    | Some i => equal d (of_int (Z.of_int i))
    | None => read_double (show_double d) = Some d
    end }.

(** equal values: as in SerialSpec, but doubles are only compared with == *)
Definition equal_double (x y : D) : Prop := (is_nan x = true /\ is_nan y = true) \/ (is_nan x = false /\ is_nan y = false /\ equal x y).
Definition equal_value (v w : value D) : Prop :=
  match v, w with
  | V_int x, V_int y => x = y
  | V_double x, V_double y => equal_double x y
  | V_double3 a b c, V_double3 x y z => equal_double a x /\ equal_double b y /\ equal_double c z
  | _, _ => False
  end.
Definition equal_datum (t : atype) (x y : option (value D)) : Prop :=
  equal_value (match x with Some v => v | None => missing nan t end) (match y with Some v => v | None => missing nan t end).
Record read_back_json (ds : dataset D) (targets : nat -> target) (ds' : dataset D) : Prop := {
  rj_meta : ds_meta ds' = ds_meta ds;
  rj_batch : ds_batch ds' = ds_batch ds;
  rj_size : ds_size ds' = ds_size ds;
  rj_elements : forall s c, s < ds_size ds -> given (targets c) -> elements ds' s c = elements ds s c;
  rj_datum : forall s c i a mc x, s < ds_size ds -> i < elements ds s c -> nth_error (ms_comps (ds_meta ds)) c = Some mc -> nth_error (mc_attrs mc) a = Some x ->
    target_has mc (targets c) a -> datum ds' s c i a <> None /\ equal_datum (ma_type x) (datum ds s c i a) (datum ds' s c i a);
  rj_only : forall s c i a mc v, nth_error (ms_comps (ds_meta ds)) c = Some mc -> datum ds' s c i a = Some v -> target_has mc (targets c) a }.
End Spec.
