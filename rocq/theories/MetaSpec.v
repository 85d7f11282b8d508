(** Specification for C70. *)
From Verif Require Import Common Handle MetaData MetaTables.
From Coq Require Import String.

(** The meta data of the library (meta_data_gen.hpp 23-28). *)
Definition library : list meta_dataset := map get_meta_dataset dataset_structs.

(** No two datasets, no two components of a dataset and no two attributes of a component have the same name. *)
Definition unique_names (md : list meta_dataset) : Prop :=
  NoDup (map md_name md) /\
  (forall d, In d md -> NoDup (map mc_name (md_components d))) /\
  (forall d c, In d md -> In c (md_components d) -> NoDup (map ma_name (mc_attributes c))).

(** Something in the meta data that has the given names. *)
Definition dataset_named (md : list meta_dataset) (d : option string) (p : nat) : Prop :=
  exists ds, nth_error md p = Some ds /\ d = Some (md_name ds).
Definition component_named (md : list meta_dataset) (d c : option string) (p : nat * nat) : Prop :=
  exists ds comp, nth_error md (fst p) = Some ds /\ nth_error (md_components ds) (snd p) = Some comp /\
    d = Some (md_name ds) /\ c = Some (mc_name comp).
Definition attribute_named (md : list meta_dataset) (d c a : option string) (p : nat * nat * nat) : Prop :=
  exists ds comp att, nth_error md (fst (fst p)) = Some ds /\ nth_error (md_components ds) (snd (fst p)) = Some comp /\
    nth_error (mc_attributes comp) (snd p) = Some att /\
    d = Some (md_name ds) /\ c = Some (mc_name comp) /\ a = Some (ma_name att).

(** What a call that looks something up should do: either it returns what was asked for and leaves no error, or there is no such
    thing, it returns null and leaves an error. *)
Definition looks_up {P} (asked : P -> Prop) (r : option handle * option P) : Prop :=
  match r with
  | (Some h, Some p) => asked p /\ h_code h = 0%Z
  | (Some h, None) => (forall p, ~ asked p) /\ h_code h = 1%Z
  | (None, _) => False
  end.

(** The attributes lie in the component, each at an offset that its type allows, one after the other without overlap. *)
Definition bytes (a : meta_attribute) (b : nat) : Prop := ma_offset a <= b < ma_offset a + ma_size a.
Definition well_laid_out (c : meta_component) : Prop :=
  mc_alignment c <> 0 /\ mc_size c mod mc_alignment c = 0 /\
  (forall a, In a (mc_attributes c) ->
     ma_size a = fsize (ma_ctype a) /\ ma_component_size a = mc_size c /\ ma_offset a mod falign (ma_ctype a) = 0 /\
     ma_offset a + ma_size a <= mc_size c /\ mc_alignment c mod falign (ma_ctype a) = 0) /\
  (forall i j a b, nth_error (mc_attributes c) i = Some a -> nth_error (mc_attributes c) j = Some b -> i <> j ->
     forall x, ~ (bytes a x /\ bytes b x)).

(** Where a struct of type [s] can be used as one of type [b] at the same address: every member of [b] is a member of [s] with the
    same type at the same offset, and what [b] needs of space and alignment [s] has. *)
Definition usable_as (s b : list field) : Prop :=
  (forall m f o, find_member m (place 0 b) = Some (f, o) -> exists g, find_member m (place 0 s) = Some (g, o) /\ f_type g = f_type f) /\
  struct_size b <= struct_size s /\ struct_align s mod struct_align b = 0.
