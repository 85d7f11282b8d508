(** Model of common/grouped_index_vector.hpp and index_mapping.hpp. Indices are natural numbers: the code asserts
    that they are not negative. *)
From Verif Require Import Common.

(** ** Grouped index vectors *)

(** grouped_index_vector.hpp 39-49: sparse_encode. [next] is the iterator next_group as an offset from begin. *)
Fixpoint sparse_encode_loop (elements : list nat) (next : nat) (groups : list nat) : list nat :=
  match groups with
  | [] => []
  | g :: gs =>
      let next' := next + upper_bound (skipn next elements) g in
      next' :: sparse_encode_loop elements next' gs
  end.
Definition sparse_encode (elements : list nat) (num_groups : nat) : list nat :=
  0 :: sparse_encode_loop elements 0 (seq 0 num_groups).

(** std::fill(begin + lo, begin + hi, x); positions at or after the end are undefined behaviour in C++, callers
    must have hi <= size. *)
Fixpoint fill (l : list nat) (lo hi x : nat) : list nat :=
  match l with
  | [] => []
  | y :: l' =>
      match lo, hi with
      | 0, 0 => y :: l'
      | 0, S h => x :: fill l' 0 h x
      | S _, 0 => y :: l'
      | S lo', S h => y :: fill l' lo' h x
      end
  end.

(** grouped_index_vector.hpp 54-60: sparse_decode. *)
Fixpoint sparse_decode_loop (res : list nat) (indptr : list nat) (group : nat) : list nat :=
  match indptr with
  | lo :: ((hi :: _) as rest) => sparse_decode_loop (fill res lo hi group) rest (S group)
  | _ => res
  end.
Definition sparse_decode (indptr : list nat) : list nat :=
  sparse_decode_loop (repeat 0 (last indptr 0)) indptr 0.

(** grouped_index_vector.hpp 104-184: SparseGroupedIdxVector; the state is indptr_. *)
Definition sparse_of_indptr (v : list nat) : list nat := match v with [] => [0] | _ => v end. (* 171-172 *)
Definition sparse_from_dense (d : list nat) (n : nat) : list nat := sparse_of_indptr (sparse_encode d n). (* 179-180 *)
Definition sparse_size (p : list nat) : nat := length p - 1. (* 159 *)
Definition sparse_element_size (p : list nat) : nat := last p 0. (* 164 *)
(** 119-128, 162: None = dereference out of range *)
Definition sparse_range (p : list nat) (g : nat) : option (nat * nat) :=
  match nth_error p g, nth_error p (S g) with
  | Some lo, Some hi => Some (lo, hi)
  | _, _ => None
  end.
Definition sparse_group (p : list nat) (e : nat) : nat := upper_bound p e - 1. (* 165-168 *)

(** grouped_index_vector.hpp 186-293: DenseGroupedIdxVector. *)
Record dense := mkDense { d_num : nat; d_vec : list nat }.
Definition dense_from_sparse (p : list nat) : dense := mkDense (length p - 1) (sparse_decode p). (* 284-286 *)
Definition dense_size (d : dense) : nat := d_num d. (* 268 *)
Definition dense_element_size (d : dense) : nat := length (d_vec d). (* 272 *)
(** std::ranges::equal_range of a subrange [start, stop) as offsets from the begin of the vector *)
Definition equal_range_in (v : list nat) (start stop g : nat) : nat * nat :=
  let sub := firstn (stop - start) (skipn start v) in
  (start + lower_bound sub g, start + upper_bound sub g).
(** 200-215, 274 *)
Definition dense_range (d : dense) (g : nat) : nat * nat := equal_range_in (d_vec d) 0 (length (d_vec d)) g.
Definition dense_group (d : dense) (e : nat) : option nat := nth_error (d_vec d) e. (* 273 *)

(** 188-261: the iterator over groups, with the operations ++, --, += n and -= n of IteratorFacade. *)
Record giter := mkIter { it_group : nat; it_lo : nat; it_hi : nat }.
Definition dense_begin (d : dense) : giter := let r := dense_range d 0 in mkIter 0 (fst r) (snd r).
(** number of leading elements that are not greater than g, the find_if of 244 *)
Fixpoint find_gt (l : list nat) (g : nat) : nat :=
  match l with [] => 0 | x :: l' => if g <? x then 0 else S (find_gt l' g) end.
Definition it_increment (d : dense) (i : giter) : giter := (* 242-246 *)
  let g := S (it_group i) in
  mkIter g (it_hi i) (it_hi i + find_gt (skipn (it_hi i) (d_vec d)) g).
(** 247-253: the reverse find_if looks for the last element smaller than g before it_lo *)
Definition it_decrement (d : dense) (i : giter) : giter :=
  let g := it_group i - 1 in
  let rev_prefix := rev (firstn (it_lo i) (d_vec d)) in
  let fix find_lt l := match l with [] => 0 | x :: l' => if x <? g then 0 else S (find_lt l') end in
  mkIter g (it_lo i - find_lt rev_prefix) (it_lo i).
Definition it_advance (d : dense) (i : giter) (n : nat) : giter := (* 254-260, n > 0 *)
  let g := it_group i + n in
  let r := equal_range_in (d_vec d) (it_hi i) (length (d_vec d)) g in mkIter g (fst r) (snd r).
Definition it_retreat (d : dense) (i : giter) (n : nat) : giter := (* 254-260, n < 0 *)
  let g := it_group i - n in
  let r := equal_range_in (d_vec d) 0 (it_lo i) g in mkIter g (fst r) (snd r).

(** ** Index mappings *)

(** index_mapping.hpp 74-77: the counter *)
Definition count_entries (idx : list nat) (n_B : nat) : list nat :=
  fold_left (fun c j => upd j (S (nth j c 0)) c) idx (repeat 0 n_B).
Fixpoint scan_from (acc : nat) (l : list nat) : list nat :=
  match l with [] => [] | x :: l' => (acc + x) :: scan_from (acc + x) l' end.

(** index_mapping.hpp 83-85: the backward placement loop, one step *)
Definition place (st : list nat * list nat) (entry : nat * nat) : list nat * list nat :=
  let (counter, reorder) := st in
  let (i_A, j_B) := entry in
  let c := nth j_B counter 0 - 1 in
  (upd j_B c counter, upd c i_A reorder).

(** index_mapping.hpp 61-90. Requires all entries below n_B (otherwise the counter is accessed out of bounds). *)
Definition build_sparse_mapping (idx : list nat) (n_B : nat) : list nat * list nat :=
  let n_A := length idx in
  let entries := combine (seq 0 n_A) idx in
  let cum := scan_from 0 (count_entries idx n_B) in
  let '(_, reorder) := fold_left place (rev entries) (cum, repeat 0 n_A) in
  (0 :: cum, reorder).

(** index_mapping.hpp 123-128 *)
Definition build_dense_mapping_counting_sort (idx : list nat) (n_B : nat) : list nat * list nat :=
  let (indptr, reorder) := build_sparse_mapping idx n_B in (sparse_decode indptr, reorder).

Section Sort.
  (** std::ranges::sort on pairs (lexicographic order): any function; its contract is assumed where needed. *)
  Variable sort : list (nat * nat) -> list (nat * nat).

  (** index_mapping.hpp 99-121 *)
  Definition build_dense_mapping_comparison_sort (idx : list nat) : list nat * list nat :=
    let m := sort (combine idx (seq 0 (length idx))) in (map fst m, map snd m).

  (** index_mapping.hpp 149-154. The floating point criterion of 130-145 is an arbitrary choice here. *)
  Definition build_dense_mapping (criterion : nat -> nat -> bool) (idx : list nat) (n_B : nat) : list nat * list nat :=
    if criterion (length idx) n_B then build_dense_mapping_counting_sort idx n_B
    else build_dense_mapping_comparison_sort idx.
End Sort.
