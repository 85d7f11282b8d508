(** Model of the meta data (auxiliary/meta_data.hpp, meta_gen/gen_getters.hpp), of the layout of the structs, and of the meta
    data functions of the C API (power_grid_model_c/src/meta_data.cpp). *)
From Verif Require Import Common Handle.
From Coq Require Import String.
Local Open Scope string_scope.

(** The types of the members of the structs: ID, IntS and the enums (common/enum.hpp: all with underlying type IntS), double,
    RealValue<asymmetric_t>. Their CType (meta_data.hpp 32-49, common/enum.hpp 111). *)
Inductive ftype : Type := FInt32 | FInt8 | FDouble | FDouble3.
(** RealValue<sym> (common/three_phase_tensor.hpp) *)
Definition FReal (sym : bool) : ftype := if sym then FDouble else FDouble3.
Definition ctype_code (t : ftype) : Z := match t with FInt32 => 0 | FInt8 => 1 | FDouble => 2 | FDouble3 => 3 end.
(** sizeof and alignof (x86-64; RealValue<asymmetric_t> is three doubles). *)
Definition fsize (t : ftype) : nat := match t with FInt32 => 4 | FInt8 => 1 | FDouble => 8 | FDouble3 => 24 end.
Definition falign (t : ftype) : nat := match t with FInt32 => 4 | FInt8 => 1 | FDouble => 8 | FDouble3 => 8 end.
(** The default member initialisers of the structs. *)
Inductive fdefault : Type := DNan | DNaID | DNaIntS.
Record field : Type := mkField { f_name : string; f_type : ftype; f_default : fdefault }.

(** The layout of a standard layout struct by the usual ABI: each member at the next offset that its alignment allows. *)
Definition align_up (o a : nat) : nat := ((o + (a - 1)) / a) * a.
Fixpoint place (o : nat) (fs : list field) : list (field * nat) :=
  match fs with
  | [] => []
  | f :: fs' => let x := align_up o (falign (f_type f)) in (f, x) :: place (x + fsize (f_type f)) fs'
  end.
Fixpoint end_of (o : nat) (fs : list field) : nat :=
  match fs with
  | [] => o
  | f :: fs' => end_of (align_up o (falign (f_type f)) + fsize (f_type f)) fs'
  end.
Definition struct_align (fs : list field) : nat := fold_right (fun f a => Nat.max (falign (f_type f)) a) 1 fs.
Definition struct_size (fs : list field) : nat := align_up (end_of 0 fs) (struct_align fs).
Fixpoint find_member (m : string) (l : list (field * nat)) : option (field * nat) :=
  match l with
  | [] => None
  | x :: l' => if f_name (fst x) =? m then Some x else find_member m l'
  end.

(** meta_data.hpp 95-123, 126-165, 168-182, 185-198; the function pointers are left out (Buffers.v has them). *)
Record meta_attribute : Type := mkAttribute {
  ma_name : string; ma_ctype : ftype; ma_offset : nat; ma_size : nat; ma_component_size : nat }.
Record meta_component : Type := mkComponent {
  mc_name : string; mc_size : nat; mc_alignment : nat; mc_attributes : list meta_attribute }.
Record meta_dataset : Type := mkDataset { md_name : string; md_components : list meta_component }.

(** gen_getters.hpp 28-70: get_meta_attribute<&Struct::member>(offsetof(Struct, at), name). A member that the struct does not have
    does not compile: the attribute is left out. *)
Definition get_meta_attribute (fs : list field) (x : string * string * string) : list meta_attribute :=
  match x with (member, at_, name) =>
    match find_member member (place 0 fs), find_member at_ (place 0 fs) with
    | Some (f, _), Some (_, o) => [mkAttribute name (f_type f) o (fsize (f_type f)) (struct_size fs)]
    | _, _ => []
    end
  end.
(** gen_getters.hpp 73-93 *)
Definition get_meta_component (c : string * list field * list (string * string * string)) : meta_component :=
  match c with (name, fs, attrs) =>
    mkComponent name (struct_size fs) (struct_align fs) (flat_map (get_meta_attribute fs) attrs)
  end.
(** gen_getters.hpp 95-105 *)
Definition get_meta_dataset (d : string * list (string * list field * list (string * string * string))) : meta_dataset :=
  mkDataset (fst d) (map get_meta_component (snd d)).

(** ** The functions of the C API, on any meta data [md]. A pointer is null ([None]) or points to a dataset, to a component of a dataset
    or to an attribute of a component, given by positions. *)
Definition find_name {A} (name : A -> string) (n : string) (l : list A) : option nat :=
  (fix go (i : nat) (l : list A) : option nat :=
     match l with
     | [] => None
     | x :: l' => if name x =? n then Some i else go (S i) l'
     end) 0 l.

Section Api.
Variable md : list meta_dataset.
Definition dataset_ptr := nat.
Definition component_ptr := (nat * nat)%type.
Definition attribute_ptr := (nat * nat * nat)%type.
Definition the_dataset (d : dataset_ptr) : option meta_dataset := nth_error md d.
Definition the_component (c : component_ptr) : option meta_component :=
  match the_dataset (fst c) with Some d => nth_error (md_components d) (snd c) | None => None end.
Definition the_attribute (a : attribute_ptr) : option meta_attribute :=
  match the_component (fst a) with Some c => nth_error (mc_attributes c) (snd a) | None => None end.

(** input_sanitization.hpp 86-96: safe_ptr_get and safe_str_view of a null pointer. *)
Definition null_pointer : thrown := StdException "Illegal operation: Received null pointer when not allowed".
(** meta_data.hpp 143, 180, 196 and meta_data.cpp 73: the exceptions; the newline at the end of the texts is left out. *)
Definition index_error : thrown := OutOfRange "Index out of range!".
Definition no_dataset (n : string) : thrown := OutOfRange ("Cannot find dataset with name: " ++ n ++ "!").
Definition no_component (n : string) : thrown := OutOfRange ("Cannot find component with name: " ++ n ++ "!").
Definition no_attribute (n : string) : thrown := OutOfRange ("Cannot find attribute with name: " ++ n ++ "!").

(** Outcome of a functor. *)
Definition thru {A B} (x : A + thrown) (k : A -> B + thrown) : B + thrown :=
  match x with inl a => k a | inr t => inr t end.
Definition non_null {A} (p : option A) : A + thrown := match p with Some x => inl x | None => inr null_pointer end.
Definition ranged {V} (h : option handle) (body : V + thrown) (empty : V) := call_with_catch h body empty (run_handler RangedHandler).
Definition plain {V} (h : option handle) (body : V + thrown) (empty : V) := call_with_catch h body empty (run_handler DefaultHandler).

(** meta_data.hpp 190-197, 174-181, 140-155 *)
Definition get_dataset (n : string) : dataset_ptr + thrown :=
  match find_name md_name n md with Some i => inl i | None => inr (no_dataset n) end.
Definition get_component (d : dataset_ptr) (n : string) : component_ptr + thrown :=
  match the_dataset d with
  | Some ds => match find_name mc_name n (md_components ds) with Some j => inl (d, j) | None => inr (no_component n) end
  | None => inr NotStd
  end.
Definition get_attribute (c : component_ptr) (n : string) : attribute_ptr + thrown :=
  match the_component c with
  | Some comp => match find_name ma_name n (mc_attributes comp) with Some k => inl (c, k) | None => inr (no_attribute n) end
  | None => inr NotStd
  end.

(** The positions of a pointer that does not point into the meta data are undefined behaviour in the code; here they throw
    [NotStd]. *)
Definition deref {A} (x : option A) : A + thrown := match x with Some a => inl a | None => inr NotStd end.
Definition in_range (idx : Z) (n : nat) : bool := ((0 <=? idx) && (idx <? Z.of_nat n))%Z%bool.

(** meta_data.cpp 67 *)
Definition meta_n_datasets (h : option handle) : option handle * Z := (h, Z.of_nat (List.length md)).
(** meta_data.cpp 68-78 *)
Definition meta_get_dataset_by_idx (h : option handle) (idx : Z) : option handle * option dataset_ptr :=
  ranged h (if in_range idx (List.length md) then inl (Some (Z.to_nat idx)) else inr index_error) None.
(** meta_data.cpp 79-83 *)
Definition meta_get_dataset_by_name (h : option handle) (n : option string) : option handle * option dataset_ptr :=
  ranged h (thru (non_null n) (fun n => thru (get_dataset n) (fun d => inl (Some d)))) None.
(** meta_data.cpp 84-86 *)
Definition meta_dataset_name (h : option handle) (d : option dataset_ptr) : option handle * option string :=
  plain h (thru (non_null d) (fun d => thru (deref (the_dataset d)) (fun x => inl (Some (md_name x))))) None.
(** meta_data.cpp 88-90 *)
Definition meta_n_components (h : option handle) (d : option dataset_ptr) : option handle * Z :=
  plain h (thru (non_null d) (fun d => thru (deref (the_dataset d)) (fun x => inl (Z.of_nat (List.length (md_components x)))))) 0%Z.
(** meta_data.cpp 91-103 *)
Definition meta_get_component_by_idx (h : option handle) (d : option dataset_ptr) (idx : Z)
  : option handle * option component_ptr :=
  ranged h (thru (non_null d) (fun d => thru (deref (the_dataset d)) (fun x =>
              if in_range idx (List.length (md_components x)) then inl (Some (d, Z.to_nat idx)) else inr index_error))) None.
(** meta_data.cpp 104-113 *)
Definition meta_get_component_by_name (h : option handle) (d c : option string) : option handle * option component_ptr :=
  ranged h (thru (non_null d) (fun d => thru (get_dataset d) (fun d =>
            thru (non_null c) (fun c => thru (get_component d c) (fun x => inl (Some x)))))) None.
(** meta_data.cpp 114-122: name, size and alignment *)
Definition meta_component_name (h : option handle) (c : option component_ptr) : option handle * option string :=
  plain h (thru (non_null c) (fun c => thru (deref (the_component c)) (fun x => inl (Some (mc_name x))))) None.
Definition meta_component_size (h : option handle) (c : option component_ptr) : option handle * nat :=
  plain h (thru (non_null c) (fun c => thru (deref (the_component c)) (fun x => inl (mc_size x)))) 0.
Definition meta_component_alignment (h : option handle) (c : option component_ptr) : option handle * nat :=
  plain h (thru (non_null c) (fun c => thru (deref (the_component c)) (fun x => inl (mc_alignment x)))) 0.
(** meta_data.cpp 124-126 *)
Definition meta_n_attributes (h : option handle) (c : option component_ptr) : option handle * Z :=
  plain h (thru (non_null c) (fun c => thru (deref (the_component c)) (fun x => inl (Z.of_nat (List.length (mc_attributes x)))))) 0%Z.
(** meta_data.cpp 127-139 *)
Definition meta_get_attribute_by_idx (h : option handle) (c : option component_ptr) (idx : Z)
  : option handle * option attribute_ptr :=
  ranged h (thru (non_null c) (fun c => thru (deref (the_component c)) (fun x =>
              if in_range idx (List.length (mc_attributes x)) then inl (Some (c, Z.to_nat idx)) else inr index_error))) None.
(** meta_data.cpp 140-151 *)
Definition meta_get_attribute_by_name (h : option handle) (d c a : option string) : option handle * option attribute_ptr :=
  ranged h (thru (non_null d) (fun d => thru (get_dataset d) (fun d =>
            thru (non_null c) (fun c => thru (get_component d c) (fun c =>
            thru (non_null a) (fun a => thru (get_attribute c a) (fun x => inl (Some x)))))))) None.
(** meta_data.cpp 152-160: name, type and offset *)
Definition meta_attribute_name (h : option handle) (a : option attribute_ptr) : option handle * option string :=
  plain h (thru (non_null a) (fun a => thru (deref (the_attribute a)) (fun x => inl (Some (ma_name x))))) None.
Definition meta_attribute_ctype (h : option handle) (a : option attribute_ptr) : option handle * Z :=
  plain h (thru (non_null a) (fun a => thru (deref (the_attribute a)) (fun x => inl (ctype_code (ma_ctype x))))) 0%Z.
Definition meta_attribute_offset (h : option handle) (a : option attribute_ptr) : option handle * nat :=
  plain h (thru (non_null a) (fun a => thru (deref (the_attribute a)) (fun x => inl (ma_offset x)))) 0.
End Api.
