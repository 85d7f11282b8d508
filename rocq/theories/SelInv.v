(** The selective inverse (math_solver/sparse_lu_solver.hpp 320-338, 657-767): the blocks of the inverse matrix at the stored entries,
    computed in place of the factors, in exact arithmetic. Only for block matrices; for scalars the code throws (327-330). *)
From Verif Require Import Common SparseLU.

Section SelInv.
Context {T V Q : Type}.
Variable o : block_ops T V Q.
Variable pt : pattern.

(** What is done with one block besides [block_ops] *)
Record inv_ops : Type := mkInvOps {
  i_zero : T;                                   (* Tensor::Zero() *)
  i_add : T -> T -> T;
  i_opp : T -> T;
  i_upper_left : T -> T -> T;                   (* 750-757: left, upper solve with the packed pivot *)
  i_lower_right : T -> T -> T;                  (* 759-767: right, lower solve *)
  i_inverse_lu : T -> T }.                      (* 206-214: inverse of the product of the packed factors *)
Variable v : inv_ops.

(** 687-696: the blocks of column p below the diagonal and their positions; row p right of the diagonal tells the rows *)
Definition buffer_l (p u_start : nat) (data : list T) (k : nat) (s : list T * list nat) : res (list T * list nat) :=
  do l_row <- get (cols pt) (u_start + k);
  do lo <- get (indptr pt) l_row;
  do hi <- get (diag pt) l_row;
  do e <- find_entry pt l_row p lo hi;
  do x <- get data e;
  Done (fst s ++ [x], snd s ++ [e]).
(** 686 *)
Definition slice (first n : nat) (data : list T) : res (list T) :=
  do _ <- check (first + n <=? length data); Done (firstn n (skipn first data)).
(** 703-707: sum of Z_km * L_mp over m, the search moves on in row k *)
Definition add_zl (data l_col : list T) (u_start z_row row_end m : nat) (s : T * nat) : res (T * nat) :=
  do z_col <- get (cols pt) (u_start + m);
  do z_idx <- find_entry pt z_row z_col (S (snd s)) row_end;
  do z <- get data z_idx;
  do l <- get l_col m;
  Done (i_add v (fst s) (b_mul o z l), z_idx).
(** 699-709: column below the pivot *)
Definition column_below (pivot : T) (l_col : list T) (l_indices : list nat) (u_start n k : nat) (data : list T) : res (list T) :=
  do z_row <- get (cols pt) (u_start + k);
  do l_idx <- get l_indices k;
  do row_end <- get (indptr pt) (S z_row);
  do s <- for_range 0 n (add_zl data l_col u_start z_row row_end) (i_zero v, l_idx);
  put l_idx (i_opp v (i_lower_right v pivot (fst s))) data.
(** 715-719: sum of U_pm * Z_mj over m *)
Definition add_uz (data u_row : list T) (l_indices : list nat) (u_start z_col m : nat) (sum : T) : res T :=
  do z_row <- get (cols pt) (u_start + m);
  do l_idx <- get l_indices m;
  do row_end <- get (indptr pt) (S z_row);
  do z_idx <- find_entry pt z_row z_col (S l_idx) row_end;
  do z <- get data z_idx;
  do u <- get u_row m;
  Done (i_add v sum (b_mul o u z)).
(** 712-721: row right of the pivot *)
Definition row_right (pivot : T) (u_row : list T) (l_indices : list nat) (u_start n j : nat) (data : list T) : res (list T) :=
  do z_col <- get (cols pt) (u_start + j);
  do sum <- for_range 0 n (add_uz data u_row l_indices u_start z_col) (i_zero v);
  put (u_start + j) (i_opp v (i_upper_left v pivot sum)) data.
(** 725-727: sum of U_pm * Z_mp over m *)
Definition add_up (data u_row : list T) (l_indices : list nat) (m : nat) (sum : T) : res T :=
  do u <- get u_row m;
  do l_idx <- get l_indices m;
  do z <- get data l_idx;
  Done (i_add v sum (b_mul o u z)).

(** 676-730 *)
Definition update_pivot (p : nat) (data : list T) : res (list T) :=
  do pivot_idx <- get (diag pt) p;
  do u_end <- get (indptr pt) (S p);
  let u_start := S pivot_idx in
  let n := u_end - u_start in
  do pivot <- get data pivot_idx;
  do u_row <- slice u_start n data;
  do l <- for_range 0 n (buffer_l p u_start data) ([], []);
  do data <- for_range 0 n (column_below pivot (fst l) (snd l) u_start n) data;
  do data <- for_range 0 n (row_right pivot u_row (snd l) u_start n) data;
  do sum <- for_range 0 n (add_up data u_row (snd l)) (i_zero v);
  put pivot_idx (b_sub o (i_inverse_lu v pivot) (i_upper_left v pivot sum)) data.

(** 667-670 *)
Definition restore_entry (perm : list (Q * Q)) (row idx : nat) (data : list T) : res (list T) :=
  do z <- get data idx;
  do pq_row <- get perm row;
  do col <- get (cols pt) idx;
  do pq_col <- get perm col;
  put idx (b_perm_right o (b_perm_left o (snd pq_row) z) (fst pq_col)) data.
Definition restore_entries (perm : list (Q * Q)) (row : nat) (data : list T) : res (list T) :=
  do lo <- get (indptr pt) row;
  do hi <- get (indptr pt) (S row);
  for_range lo hi (restore_entry perm row) data.
(** 657-672 *)
Definition selective_inverse_blocks (data : list T) (perm : list (Q * Q)) : res (list T) :=
  do data <- fold_left (fun r p => bind r (update_pivot p)) (rev (seq 0 (size pt))) (Done data);
  for_range 0 (size pt) (restore_entries perm) data.
(** 323-338: refused after a perturbed factorisation *)
Definition selective_inverse (s : lu_state T Q) : res (list T) :=
  if lu_perturbed s then Singular else selective_inverse_blocks (lu_data s) (lu_perm s).
End SelInv.
Arguments inv_ops : clear implicits.
