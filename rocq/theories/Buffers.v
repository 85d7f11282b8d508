(** Model of the C API's access to attributes in component buffers: power_grid_model_c/src/buffer.cpp 33-107,
    auxiliary/meta_gen/gen_getters.hpp 28-91 (set_value, get_value, set_nan).
    Simplifications: memory is a function from addresses to bytes; an assignment of a value copies its bytes; alignment of the user's pointers and the
    bounds of the user's arrays are not checked by the code and are hypotheses of the theorems; Idx and size_t are unbounded integers. *)
From Verif Require Import Common.
Open Scope Z_scope.

Definition mem : Type := Z -> Z.
(** assignment of a value of [n] bytes *)
Definition copy (dst src n : Z) (m : mem) : mem := fun a => if (dst <=? a) && (a <? dst + n) then m (src + (a - dst)) else m a.
(** meta_data.hpp 91-97 *)
Record meta_attribute : Type := mkAttr { a_offset : Z; a_size : Z; a_component_size : Z }.
(** gen_getters.hpp 49-58 *)
Definition address (a : meta_attribute) (buffer pos : Z) : Z := buffer + pos * a_component_size a + a_offset a.
Definition set_value (a : meta_attribute) (buffer value pos : Z) : mem -> mem := copy (address a buffer pos) value (a_size a).
Definition get_value (a : meta_attribute) (buffer value pos : Z) : mem -> mem := copy value (address a buffer pos) (a_size a).
Inductive access : Type := Done (m : mem) | NullPointer.
(** buffer.cpp 84-91: [n] values from position [i] on *)
Fixpoint each (is_get : bool) (a : meta_attribute) (buffer value stride : Z) (n : nat) (i : Z) (m : mem) : mem :=
  match n with
  | O => m
  | S n' => each is_get a buffer value stride n' (i + 1)
              (if is_get then get_value a buffer (value + stride * i) i m else set_value a buffer (value + stride * i) i m)
  end.
(** 65-92, 94-107; address 0 is the null pointer, safe_ptr throws *)
Definition buffer_get_set_value (is_get : bool) (a : meta_attribute) (buffer value offset size stride : Z) (m : mem) : access :=
  if size <=? 0 then Done m
  else if (value =? 0) || (buffer =? 0) then NullPointer
  else Done (each is_get a buffer value (if stride <? 0 then a_size a else stride) (Z.to_nat size) offset m).
Definition PGM_buffer_set_value := buffer_get_set_value false.
Definition PGM_buffer_get_value := buffer_get_set_value true.
(** gen_getters.hpp 82-86: std::fill with a default record, whose bytes are [record] *)
Definition set_nan (component_size : Z) (record : Z -> Z) (buffer pos size : Z) (m : mem) : mem :=
  fun a => if (buffer + pos * component_size <=? a) && (a <? buffer + (pos + size) * component_size) then record ((a - buffer) mod component_size) else m a.
(** buffer.cpp 34-48: the number of bytes that are allocated *)
Definition rounded_bytes (component_size alignment pointer_size size : Z) : Z :=
  let alignment := Z.max alignment pointer_size in
  let requested := component_size * size in
  (requested + alignment - 1) / alignment * alignment.
