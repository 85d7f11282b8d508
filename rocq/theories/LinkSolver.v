(** Model of link_solver.hpp: flows through the links inside a topological node, in exact arithmetic.
    Unordered maps and sets are functions and lists without duplicates: the order in which a set is walked does not matter here.
    Integer coefficients (int8_t) are unbounded integers. Node numbers in range are assumed. *)
From Verif Require Import Common.

Section LinkSolver.
(** std::complex<double> *)
Context {F : Type}.
Record flow_ops : Type := mkFlowOps {
  f_add : F -> F -> F; f_sub : F -> F -> F; f_mul : F -> F -> F; f_div : F -> F -> F; f_neg : F -> F;
  f_0 : F;
  f_z : Z -> F }.                                  (* static_cast<DoubleComplex>(integer) *)
Variable o : flow_ops.

(** 38-68: CooSparseMatrix, by row and column *)
Definition coo : Type := nat -> nat -> option Z.
Definition coo_empty : coo := fun _ _ => None.
Definition coo_put (v : option Z) (r c : nat) (m : coo) : coo := fun r' c' => if (r' =? r) && (c' =? c) then v else m r' c'.
Definition set_value (v : Z) (r c : nat) (m : coo) : coo := coo_put (Some v) r c m.
Definition add_to_value (v : Z) (r c : nat) (m : coo) : coo :=
  match m r c with
  | Some w => if (w + v =? 0)%Z then coo_put None r c m else coo_put (Some (w + v)%Z) r c m
  | None => if (v =? 0)%Z then m else coo_put (Some v) r c m
  end.

Definition edge : Type := nat * nat.               (* from node, to node *)
Definition edge_at (es : list edge) (i : nat) : edge := nth i es (0, 0).
Definition rows_at (h : list (list nat)) (i : nat) : list nat := nth i h [].
Definition load_at (l : list F) (v : nat) : F := nth v l (f_0 o).

(** 70-81, 142-144: everything that the forward elimination changes; of EdgeHistory only the rows, the events are not read *)
Record fw_state : Type := mkFw {
  w_edges : list edge;
  w_adj : nat -> list nat;
  w_contracted : list nat;
  w_loads : list F;
  w_row : nat;
  w_matrix : coo;
  w_rhs : list F;
  w_free : list nat;
  w_pivots : list nat;
  w_hist : list (list nat) }.

Definition mem (x : nat) (l : list nat) : bool := existsb (Nat.eqb x) l.
Definition insert (x : nat) (l : list nat) : list nat := if mem x l then l else l ++ [x].
Definition erase (x : nat) (l : list nat) : list nat := filter (fun y => negb (y =? x)) l.
Definition upd_adj (v : nat) (f : list nat -> list nat) (adj : nat -> list nat) : nat -> list nat := fun u => if u =? v then f (adj u) else adj u.
(** 92-100 *)
Definition build_adjacency_map (es : list edge) : nat -> list nat :=
  fold_left (fun adj ie => upd_adj (snd (snd ie)) (insert (fst ie)) (upd_adj (fst (snd ie)) (insert (fst ie)) adj)) (combine (seq 0 (length es)) es) (fun _ => []).
(** 102-105 *)
Definition write_history (i row : nat) (h : list (list nat)) : list (list nat) := upd i (rows_at h i ++ [row]) h.

(** 107-132, 172-179: one edge adjacent to the to node [b] of the pivot is attached to the from node [a] *)
Definition reattach (a b row : nat) (s : fw_state) (f : nat) : fw_state :=
  let e := edge_at (w_edges s) f in
  let (e', v) := if fst e =? b then ((a, snd e), (-1)%Z) else ((fst e, a), 1%Z) in
  mkFw (upd f e' (w_edges s))
    (upd_adj a (insert f) (upd_adj b (erase f) (w_adj s)))
    (if fst e' =? snd e' then insert f (w_contracted s) else w_contracted s)
    (w_loads s) (w_row s) (set_value v row f (w_matrix s)) (w_rhs s) (w_free s) (w_pivots s)
    (write_history f row (w_hist s)).
(** 150-165, 181: the pivot edge itself *)
Definition delete_edge (i a b : nat) (s : fw_state) : fw_state :=
  let loads := upd a (f_add o (load_at (w_loads s) a) (load_at (w_loads s) b)) (w_loads s) in
  mkFw (w_edges s) (upd_adj b (erase i) (upd_adj a (erase i) (w_adj s))) (w_contracted s) loads (S (w_row s))
    (set_value 1 (w_row s) i (w_matrix s)) (w_rhs s ++ [load_at loads b]) (w_free s) (w_pivots s ++ [i]) (write_history i (w_row s) (w_hist s)).
(** 146-183 *)
Definition forward_step (s : fw_state) (i : nat) : fw_state :=
  if mem i (w_contracted s) then
    mkFw (w_edges s) (w_adj s) (w_contracted s) (w_loads s) (w_row s) (w_matrix s) (w_rhs s) (w_free s ++ [i]) (w_pivots s) (w_hist s)
  else
    let (a, b) := edge_at (w_edges s) i in
    let s' := delete_edge i a b s in
    fold_left (reattach a b (w_row s)) (w_adj s' b) s'.
(** 137-145, 233-240 *)
Definition forward_init (es : list edge) (loads : list F) : fw_state :=
  mkFw es (build_adjacency_map es) [] (map (f_neg o) loads) 0 coo_empty [] [] [] (repeat [] (length es)).
Definition forward_elimination (es : list edge) (loads : list F) : fw_state :=
  fold_left forward_step (seq 0 (length es)) (forward_init es loads).

(** 207-226: one earlier row of a pivot column; None: no value (std::bad_optional_access) *)
Definition substitute_row (free : list nat) (pivot_col pivot_row : nat) (s : option (coo * list F)) (row : nat) : option (coo * list F) :=
  match s with
  | None => None
  | Some (m, rhs) =>
      match m row pivot_col with
      | None => None
      | Some mult =>
          let m1 := add_to_value (- mult) row pivot_col m in
          let m2 := fold_left (fun m c => match m pivot_row c with Some v => add_to_value (- (mult * v)) row c m | None => m end)
                      (filter (fun c => pivot_col <? c) free) m1 in
          Some (m2, upd row (f_sub o (load_at rhs row) (f_mul o (f_z o mult) (load_at rhs pivot_row))) rhs)
      end
  end.
(** 186-196, 200-228. The free columns are in increasing order, so upper_bound selects those greater than the pivot column. *)
Definition substitute_pivot (free : list nat) (hist : list (list nat)) (s : option (coo * list F)) (p : nat) : option (coo * list F) :=
  let rows := rows_at hist p in
  fold_left (substitute_row free p (last rows 0)) (tl (rev rows)) s.
Definition backward_substitution (w : fw_state) : option (coo * list F) :=
  fold_left (substitute_pivot (w_free w) (w_hist w)) (rev (tl (w_pivots w))) (Some (w_matrix w, w_rhs w)).

(** 250-290: the solutions are extended_rhs - dfs_matrix * lambda *)
Record solution_set : Type := mkSolutionSet { dfs_matrix : coo; extended_rhs : list F }.
Definition set_solution_system (pivots free : list nat) (m : coo) (rhs : list F) : solution_set :=
  let cols := seq 0 (length free) in
  let s := fold_left (fun s row =>
    let p := nth row pivots 0 in
    mkSolutionSet
      (fold_left (fun d c => match m row (nth c free 0) with Some v => set_value v p c d | None => d end) cols (dfs_matrix s))
      (upd p (load_at rhs row) (extended_rhs s))) (seq 0 (length pivots)) (mkSolutionSet coo_empty (repeat (f_0 o) (length pivots + length free))) in
  fold_left (fun s c => mkSolutionSet (set_value (-1) (nth c free 0) c (dfs_matrix s)) (upd (nth c free 0) (f_0 o) (extended_rhs s))) cols s.

(** 292-325: normal equations, the right hand side as last column *)
Definition sum_over (l : list nat) (f : nat -> option F) : F :=
  fold_left (fun acc i => match f i with Some v => f_add o acc v | None => acc end) l (f_0 o).
Definition normal_rhs (s : solution_set) (total c : nat) : F :=
  sum_over (seq 0 total) (fun r => match dfs_matrix s r c with Some v => Some (f_mul o (f_z o v) (load_at (extended_rhs s) r)) | None => None end).
Definition normal_entry (s : solution_set) (total c d : nat) : F :=
  sum_over (seq 0 total) (fun r => match dfs_matrix s r c, dfs_matrix s r d with Some v, Some w => Some (f_z o (v * w)) | _, _ => None end).
Definition set_projection_system (s : solution_set) (nfree total : nat) : list (list F) :=
  map (fun c => map (fun d => if d <? c then normal_entry s total d c else normal_entry s total c d) (seq 0 nfree) ++ [normal_rhs s total c]) (seq 0 nfree).

(** 327-360: elimination without pivoting *)
Definition sys_at (m : list (list F)) (r c : nat) : F := nth c (nth r m []) (f_0 o).
Definition eliminate_row (n col : nat) (m : list (list F)) (row : nat) : list (list F) :=
  let factor := f_div o (sys_at m row col) (f_neg o (sys_at m col col)) in
  upd row (map (fun c => if c <=? col then (if c =? col then factor else sys_at m row c)
                         else f_add o (sys_at m row c) (f_mul o factor (sys_at m col c))) (seq 0 (S n))) m.
Definition gauss_forward (n : nat) (m : list (list F)) : list (list F) :=
  fold_left (fun m col => fold_left (eliminate_row n col) (seq (S col) (n - S col)) m) (seq 0 n) m.
Definition set_last (n row : nat) (v : F) (m : list (list F)) : list (list F) := upd row (upd n v (nth row m [])) m.
Definition back_row (n : nat) (m : list (list F)) (row : nat) : list (list F) :=
  let sum := fold_left (fun acc c => f_sub o acc (f_mul o (sys_at m row c) (sys_at m c n))) (seq (S row) (n - S row)) (f_0 o) in
  set_last n row (f_div o (f_add o (sys_at m row n) sum) (sys_at m row row)) m.
(** 349 is the case of the last row, where the sum is empty *)
Definition naive_gauss_elimination (n : nat) (m : list (list F)) : list (list F) :=
  fold_left (back_row n) (rev (seq 0 n)) (gauss_forward n m).

(** 362-382; [lambda]: the last column of the system *)
Definition compute_internal_loads (s : solution_set) (lambda : list F) : list F :=
  map (fun r => f_sub o (load_at (extended_rhs s) r)
    (sum_over (seq 0 (length lambda)) (fun c => match dfs_matrix s r c with Some v => Some (f_mul o (f_z o v) (load_at lambda c)) | None => None end)))
    (seq 0 (length (extended_rhs s))).

(** 232-246, 385-405; 392: dfs_matrix is empty iff there are no free edges *)
Definition compute_loads_link_elements (es : list edge) (loads : list F) : option (list F) :=
  let w := forward_elimination es loads in
  match backward_substitution w with
  | None => None
  | Some (m, rhs) =>
      let s := set_solution_system (w_pivots w) (w_free w) m rhs in
      let nfree := length (w_free w) in
      match nfree with
      | O => Some (extended_rhs s)
      | _ => let sys := naive_gauss_elimination nfree (set_projection_system s nfree (nfree + length (w_pivots w))) in
             Some (compute_internal_loads s (map (fun r => last r (f_0 o)) sys))
      end
  end.
End LinkSolver.
Arguments flow_ops : clear implicits.
Arguments fw_state : clear implicits.
Arguments mkFlowOps {F}.
