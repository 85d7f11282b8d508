(** The sparse LU solver (math_solver/sparse_lu_solver.hpp 277-828), for scalar and for block matrices, in exact arithmetic.
    The blocks, their vectors and what happens inside a diagonal block are parameters; DenseLU.v models the inside of a block. *)
From Verif Require Import Common.

(** Ub: a failed assertion or an access outside a vector; Singular: SparseMatrixError *)
Inductive res (A : Type) : Type := Done (a : A) | Singular | Ub.
Arguments Done {A} a. Arguments Singular {A}. Arguments Ub {A}.
Definition bind {A B} (r : res A) (f : A -> res B) : res B := match r with Done a => f a | Singular => Singular | Ub => Ub end.
Definition get {A} (l : list A) (i : nat) : res A := match nth_error l i with Some x => Done x | None => Ub end.
Definition put {A} (i : nat) (x : A) (l : list A) : res (list A) := if i <? length l then Done (upd i x l) else Ub.
Definition check (b : bool) : res unit := if b then Done tt else Ub.
Notation "'do' x <- r ; e" := (bind r (fun x => e)) (at level 200, x name, r at level 100, e at level 200).
(** for (i = lo; i < hi; ++i) *)
Definition for_range {S} (lo hi : nat) (body : nat -> S -> res S) (s : S) : res S :=
  fold_left (fun r i => bind r (body i)) (seq lo (hi - lo)) (Done s).

Section SparseLU.
(** T: entries of the matrix (scalars or blocks), V: entries of right hand side and solution, Q: permutations inside a block *)
Context {T V Q : Type}.

(** What is done with one entry or block. Scalar entries (263-275): permutations do nothing, [factor] checks that the pivot is
    not zero, [solve_lower] does nothing, [solve_right_upper] and [solve_upper_v] divide. *)
Record block_ops : Type := mkBlockOps {
  b_sub : T -> T -> T;                          (* a - b *)
  b_mul : T -> T -> T;                          (* dot(a, b) *)
  b_vsub : V -> V -> V;
  b_act : T -> V -> V;                          (* dot(a, v) *)
  (** 366-390: factor the pivot: packed factors, row and column permutation, and whether the pivot was perturbed *)
  b_factor : T -> option (T * Q * Q * bool);
  b_perm_left : Q -> T -> T;                    (* p * block *)
  b_perm_right : T -> Q -> T;                   (* block * q *)
  b_perm_v : Q -> V -> V;                       (* p * v, q * v *)
  b_solve_lower : T -> T -> T;                  (* left, lower solve with the packed pivot *)
  b_solve_right_upper : T -> T -> T;            (* right, upper solve *)
  b_solve_lower_v : T -> V -> V;
  b_solve_upper_v : T -> V -> V }.
Variable o : block_ops.

(** 288-295 *)
Record pattern : Type := mkPattern { indptr : list nat; cols : list nat; diag : list nat }.
Variable pt : pattern.
Definition size : nat := length (indptr pt) - 1.
Definition linear_search_threshold : nat := 16.

(** 734-748: position of (row, col) among begin..end; both searches *)
Fixpoint find_first (c : nat) (l : list nat) : nat := match l with [] => 0 | y :: l' => if y =? c then 0 else S (find_first c l') end.
Definition find_entry (row col first last : nat) : res nat :=
  do row_begin <- get (indptr pt) row;
  do row_end <- get (indptr pt) (S row);
  do _ <- check ((row_begin <=? first) && (first <? last) && (last <=? row_end));
  let range := firstn (last - first) (skipn first (cols pt)) in
  let found := first + (if last - first <? linear_search_threshold then find_first col range else lower_bound range col) in
  do _ <- check (found <? last);
  do c <- get (cols pt) found;
  do _ <- check (c =? col);
  Done found.

Record lu_state : Type := mkLu { lu_data : list T; lu_perm : list (Q * Q); lu_pos : list nat; lu_perturbed : bool }.

(** 402-414: rows of L left of the pivot, columns of U above it. For scalar entries the code skips this loop; then it changes
    only positions of rows above the pivot, which are not used any more. *)
Definition permute_left (pivot : nat) (p q : Q) (l_idx : nat) (s : list T * list nat) : res (list T * list nat) :=
  let (data, pos) := s in
  do l <- get data l_idx;
  do data <- put l_idx (b_perm_left o p l) data;
  do u_row <- get (cols pt) l_idx;
  do u_idx <- get pos u_row;
  do c <- get (cols pt) u_idx;
  do _ <- check (c =? pivot);
  do u <- get data u_idx;
  do data <- put u_idx (b_perm_right o u q) data;
  do pos <- put u_row (S u_idx) pos;
  Done (data, pos).
(** 421-428 *)
Definition solve_right (lu : T) (p : Q) (u_idx : nat) (data : list T) : res (list T) :=
  do u <- get data u_idx;
  put u_idx (b_solve_lower o lu (b_perm_left o p u)) data.
(** 477-484: subtract l * u in row l_row *)
Definition schur (l_row row_end : nat) (l : T) (u_idx : nat) (s : list T * nat) : res (list T * nat) :=
  let (data, a_idx) := s in
  do u_col <- get (cols pt) u_idx;
  do a_idx <- find_entry l_row u_col (S a_idx) row_end;
  do a <- get data a_idx;
  do u <- get data u_idx;
  do data <- put a_idx (b_sub o a (b_mul o l u)) data;
  Done (data, a_idx).
(** 437-487 *)
Definition eliminate (pivot : nat) (lu : T) (q : Q) (u_start u_end : nat) (l_ref : nat) (s : list T * list nat) : res (list T * list nat) :=
  let (data, pos) := s in
  do l_row <- get (cols pt) l_ref;
  do l_idx <- get pos l_row;
  do c <- get (cols pt) l_idx;
  do _ <- check (c =? pivot);
  do a <- get data l_idx;
  let l := b_solve_right_upper o lu (b_perm_right o a q) in
  do data <- put l_idx l data;
  do row_end <- get (indptr pt) (S l_row);
  do s <- for_range u_start u_end (schur l_row row_end l) (data, l_idx);
  do pos <- put l_row (S l_idx) pos;
  Done (fst s, pos).

(** 363-490: one pivot *)
Definition pivot_step (pivot : nat) (s : lu_state) : res lu_state :=
  do pivot_idx <- get (diag pt) pivot;
  do a <- get (lu_data s) pivot_idx;
  match b_factor o a with
  | None => Singular
  | Some (lu, p, q, perturbed) =>
      do data <- put pivot_idx lu (lu_data s);
      do perm <- put pivot (p, q) (lu_perm s);
      do row_begin <- get (indptr pt) pivot;
      do row_end <- get (indptr pt) (S pivot);
      do dp <- for_range row_begin pivot_idx (permute_left pivot p q) (data, lu_pos s);
      do data <- for_range (S pivot_idx) row_end (solve_right lu p) (fst dp);
      do dp <- for_range (S pivot_idx) row_end (eliminate pivot lu q (S pivot_idx) row_end) (data, snd dp);
      do x <- get (snd dp) pivot;
      do pos <- put pivot (S x) (snd dp);
      Done (mkLu (fst dp) perm pos (lu_perturbed s || perturbed))
  end.
(** 346-495 (without 348-352, 492-494: the threshold for perturbation and the copy of the matrix belong to [b_factor] and to the
    refinement below). [perm0]: the pre-allocated permutations *)
Definition prefactorize (data : list T) (perm0 : list (Q * Q)) : res lu_state :=
  for_range 0 size pivot_step (mkLu data perm0 (firstn size (indptr pt)) false).

(** 777-799: one row of the forward substitution *)
Definition forward_row (data : list T) (perm : list (Q * Q)) (rhs : list V) (row : nat) (x : list V) : res (list V) :=
  do pq <- get perm row;
  do b <- get rhs row;
  do lo <- get (indptr pt) row;
  do d <- get (diag pt) row;
  do v <- for_range lo d (fun l_idx v => do c <- get (cols pt) l_idx; do _ <- check (c <? row);
                                         do l <- get data l_idx; do xc <- get x c; Done (b_vsub o v (b_act o l xc))) (b_perm_v o (fst pq) b);
  do lu <- get data d;
  put row (b_solve_lower_v o lu v) x.
(** 802-820: one row of the backward substitution; the entries of the row from right to left *)
Definition backward_row (data : list T) (row : nat) (x : list V) : res (list V) :=
  do d <- get (diag pt) row;
  do hi <- get (indptr pt) (S row);
  do v0 <- get x row;
  do v <- fold_left (fun r u_idx => bind r (fun v => do c <- get (cols pt) u_idx; do _ <- check (row <? c);
                                         do u <- get data u_idx; do xc <- get x c; Done (b_vsub o v (b_act o u xc))))
            (rev (seq (S d) (hi - S d))) (Done v0);
  do lu <- get data d;
  put row (b_solve_upper_v o lu v) x.
(** 823-825 *)
Definition restore_row (perm : list (Q * Q)) (row : nat) (x : list V) : res (list V) :=
  do pq <- get perm row; do v <- get x row; put row (b_perm_v o (snd pq) v) x.
(** 769-827; [x0]: the vector given for the result *)
Definition solve_once (data : list T) (perm : list (Q * Q)) (rhs x0 : list V) : res (list V) :=
  do x <- for_range 0 size (forward_row data perm rhs) x0;
  do x <- fold_left (fun r row => bind r (backward_row data row)) (rev (seq 0 size)) (Done x);
  for_range 0 size (restore_row perm) x.

(** 565-578: rhs - A * x, row by row, over the matrix as it was before the factorisation; [r0]: the vector that is overwritten *)
Definition residual_row (original : list T) (rhs x : list V) (row : nat) (r : list V) : res (list V) :=
  do b <- get rhs row;
  do lo <- get (indptr pt) row;
  do hi <- get (indptr pt) (S row);
  do v <- for_range lo hi (fun idx v => do c <- get (cols pt) idx; do m <- get original idx; do xc <- get x c; Done (b_vsub o v (b_act o m xc))) b;
  put row v r.
Definition residual (original : list T) (rhs x r0 : list V) : res (list V) := for_range 0 size (residual_row original rhs x) r0.

(** 514-538: iterative refinement after a perturbed factorisation. [backward_error] (580-622) of the residual and the current
    solution, of which only the comparison with the tolerance matters: [small]: not greater than the tolerance. *)
Definition max_iterative_refinement : nat := 5.
Section Refinement.
Context {E : Type} (vadd : V -> V -> V) (v0 : V) (backward_error : list V -> list V -> E) (small : E -> bool).
Fixpoint refine (n : nat) (original data : list T) (perm : list (Q * Q)) (rhs r dx x : list V) : res (list V) :=
  match n with
  | O => Singular                                   (* 526-528 *)
  | S n' =>
      do dx <- solve_once data perm r dx;
      let err := backward_error r x in
      let x' := map (fun ab => vadd (fst ab) (snd ab)) (combine x dx) in
      do r <- residual original rhs x' r;
      if small err then Done x' else refine n' original data perm rhs r dx x'
  end.
(** 309-318, 546-563; [original]: the copy made by prefactorize (494) *)
Definition solve_prefactorized (perturbed : bool) (original data : list T) (perm : list (Q * Q)) (rhs x0 : list V) : res (list V) :=
  if perturbed then refine (S max_iterative_refinement) original data perm rhs rhs (repeat v0 size) (repeat v0 size)
  else solve_once data perm rhs x0.
(** 299-306 *)
Definition prefactorize_and_solve (data : list T) (perm0 : list (Q * Q)) (rhs x0 : list V) : res (lu_state * list V) :=
  do s <- prefactorize data perm0;
  do x <- solve_prefactorized (lu_perturbed s) data (lu_data s) (lu_perm s) rhs x0;
  Done (s, x).
End Refinement.
End SparseLU.
Arguments block_ops : clear implicits.
Arguments lu_state : clear implicits.
Arguments mkBlockOps {T V Q}.
