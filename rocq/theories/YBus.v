(** Model of math_solver/y_bus.hpp: the structure of the admittance matrix and its values. An index -1 is None. *)
From Verif Require Import Common NatMap GroupedIdx.

(** calculation_parameters.hpp: YBusElementType (bff = 0 ... fill_in_tf = 6), YBusElement *)
Inductive element_type := E_bff | E_bft | E_btf | E_btt | E_shunt | E_fill_ft | E_fill_tf.
Record element : Type := mkElement { el_type : element_type; el_idx : nat }.
(** y_bus.hpp 37-40: YBusElementMap *)
Record element_map : Type := mkMap { el_pos : nat * nat; el : element }.

(** calculation_parameters.hpp 164-212: MathModelTopology, the part used here *)
Record math_topo : Type := mkMathTopo {
  mt_n_bus : nat;
  mt_branch : list (option nat * option nat);
  mt_shunt : dense;
  mt_fill_in : list (nat * nat) }.

(** 43-52: append_element_vector *)
Definition element_at (b1 b2 : option nat) (ty : element_type) (idx : nat) : list element_map :=
  match b1, b2 with Some i, Some j => [mkMap (i, j) (mkElement ty idx)] | _, _ => [] end.
Definition enumerate {A} (l : list A) : list (nat * A) := combine (seq 0 (length l)) l.
(** 134-141 *)
Definition branch_elements (kb : nat * (option nat * option nat)) : list element_map :=
  let '(k, (f, t)) := kb in
  element_at f f E_bff k ++ element_at f t E_bft k ++ element_at t f E_btf k ++ element_at t t E_btt k.
(** 143-147. The iteration over the groups shows [dense_range] for each group (theorem C04_iterator_shows_group). *)
Definition shunt_elements (d : dense) (bus : nat) : list element_map :=
  let (lo, hi) := dense_range d bus in
  flat_map (fun s => element_at (Some bus) (Some bus) E_shunt s) (seq lo (hi - lo)).
(** 148-154 *)
Definition fill_elements (kf : nat * (nat * nat)) : list element_map :=
  let '(k, (i, j)) := kf in element_at (Some i) (Some j) E_fill_ft k ++ element_at (Some j) (Some i) E_fill_tf k.
(** 122-154 *)
Definition elements (t : math_topo) : list element_map :=
  flat_map branch_elements (enumerate (mt_branch t)) ++
  flat_map (shunt_elements (mt_shunt t)) (seq 0 (dense_size (mt_shunt t))) ++
  flat_map fill_elements (enumerate (mt_fill_in t)).

(** 55-88: counting_sort_element, one of the two passes. Requires keys below n_bus. Simplification: the second pass
    starts with a cleared temporary; every position is overwritten. *)
Definition no_element : element_map := mkMap (0, 0) (mkElement E_bff 0).
Definition place_element (key : element_map -> nat) (st : list nat * list element_map) (e : element_map) : list nat * list element_map :=
  let c := nth (key e) (fst st) 0 - 1 in (upd (key e) c (fst st), upd c e (snd st)).
Definition counting_pass (key : element_map -> nat) (n_bus : nat) (vec : list element_map) : list element_map :=
  let cum := scan_from 0 (count_entries (map key vec) n_bus) in
  snd (fold_left (place_element key) (rev vec) (cum, repeat no_element (length vec))).
Definition counting_sort_element (vec : list element_map) (n_bus : nat) : list element_map :=
  counting_pass (fun e => fst (el_pos e)) n_bus (counting_pass (fun e => snd (el_pos e)) n_bus vec).

(** 91-118: YBusStructure with the counters of 158-162 *)
Record y_scan : Type := mkScan {
  sc_row_indptr : list nat;
  sc_col_indices : list nat;
  sc_entry_indptr : list nat;
  sc_pos : list (nat * nat);
  sc_bus_entry : list nat;
  sc_row_indptr_lu : list nat;
  sc_col_indices_lu : list nat;
  sc_diag_lu : list nat;
  sc_map_lu : list (option nat);
  sc_off_diag : list (nat * nat);
  sc_row_start : nat;
  sc_row_start_lu : nat;
  sc_fill_count : nat }.
Definition sc_nnz (s : y_scan) : nat := length (sc_col_indices s).
Definition sc_nnz_lu (s : y_scan) : nat := length (sc_col_indices_lu s).

(** v[i] = x; None: out of bounds *)
Definition set_at {A} (i : nat) (x : A) (l : list A) : option (list A) := if i <? length l then Some (upd i x l) else None.
Definition is_fill (e : element_map) : bool := match el_type (el e) with E_fill_ft | E_fill_tf => true | _ => false end.
Definition pos_eqb (a b : nat * nat) : bool := (fst a =? fst b) && (snd a =? snd b).
(** 219-225: elements in the same position *)
Fixpoint drop_pos (p : nat * nat) (l : list element_map) : list element_map :=
  match l with e :: l' => if pos_eqb (el_pos e) p then drop_pos p l' else l | [] => [] end.
(** 193-195, 203-205: row_indptr[++row_start] = nnz if the row changes *)
Definition next_row (row : nat) (start : nat) (nnz : nat) (indptr : list nat) : option (nat * list nat) :=
  if start <? row then option_map (fun v => (S start, v)) (set_at (S start) nnz indptr) else Some (start, indptr).
(** 215-218, 242-244: off_diag_map[idx][side] = nnz; other element types have no side *)
Definition set_off_diag (idx : nat) (side : option bool) (x : nat) (m : list (nat * nat)) : option (list (nat * nat)) :=
  match side, nth_error m idx with
  | Some false, Some (_, b) => set_at idx (x, b) m
  | Some true, Some (a, _) => set_at idx (a, x) m
  | _, _ => None
  end.
Definition side_of (ty : element_type) : option bool :=
  match ty with E_bft | E_fill_ft => Some false | E_btf | E_fill_tf => Some true | _ => None end.

(** 184-259: one iteration of the outer loop, at [done] elements from the start, [e] the current element, [rest] the
    elements after it. Returns the remaining elements. *)
Definition scan_step (n_branch : nat) (total : nat) (e : element_map) (rest : list element_map) (s : y_scan) : option (list element_map * y_scan) :=
  let '(row, col) := el_pos e in
  match next_row row (sc_row_start_lu s) (sc_nnz_lu s) (sc_row_indptr_lu s) with
  | None => None
  | Some (start_lu, indptr_lu) =>
      if is_fill e then
        match set_off_diag (el_idx (el e) + n_branch) (side_of (el_type (el e))) (sc_nnz_lu s) (sc_off_diag s) with
        | None => None
        | Some od =>
            Some (rest, mkScan (sc_row_indptr s) (sc_col_indices s) (sc_entry_indptr s) (sc_pos s) (sc_bus_entry s)
                    indptr_lu (sc_col_indices_lu s ++ [col]) (sc_diag_lu s) (sc_map_lu s ++ [None]) od
                    (sc_row_start s) start_lu (S (sc_fill_count s)))
        end
      else
        match next_row row (sc_row_start s) (sc_nnz s) (sc_row_indptr s) with
        | None => None
        | Some (start, indptr) =>
            match (if row =? col
                   then match set_at row (sc_nnz s) (sc_bus_entry s), set_at row (sc_nnz_lu s) (sc_diag_lu s) with
                        | Some be, Some dl => Some (be, dl, sc_off_diag s)
                        | _, _ => None
                        end
                   else match set_off_diag (el_idx (el e)) (side_of (el_type (el e))) (sc_nnz_lu s) (sc_off_diag s) with
                        | Some od => Some (sc_bus_entry s, sc_diag_lu s, od)
                        | None => None
                        end) with
            | None => None
            | Some (be, dl, od) =>
                let rest' := drop_pos (row, col) rest in
                Some (rest', mkScan indptr (sc_col_indices s ++ [col]) (sc_entry_indptr s ++ [total - length rest' - sc_fill_count s])
                        (sc_pos s ++ [(row, col)]) be
                        indptr_lu (sc_col_indices_lu s ++ [col]) dl (sc_map_lu s ++ [Some (sc_nnz s)]) od
                        start start_lu (sc_fill_count s))
            end
        end
  end.
Fixpoint scan (fuel : nat) (n_branch total : nat) (l : list element_map) (s : y_scan) : option y_scan :=
  match l with
  | [] => Some s
  | e :: rest =>
      match fuel with
      | O => None
      | S fuel' => match scan_step n_branch total e rest s with Some (l', s') => scan fuel' n_branch total l' s' | None => None end
      end
  end.

(** 91-118 *)
Record y_structure : Type := mkYStructure {
  row_indptr : list nat;
  col_indices : list nat;
  y_bus_element : list element;
  y_bus_entry_indptr : list nat;
  y_bus_pos_in_entries : list (nat * nat);
  bus_entry : list nat;
  row_indptr_lu : list nat;
  col_indices_lu : list nat;
  diag_lu : list nat;
  map_lu_y_bus : list (option nat);
  lu_transpose_entry : list nat }.

(** 287-293 *)
Definition fill_transpose (od : list (nat * nat)) (v : list nat) : option (list nat) :=
  fold_left (fun r ab => match r with
                         | None => None
                         | Some v => match set_at (fst ab) (snd ab) v with None => None | Some v => set_at (snd ab) (fst ab) v end
                         end) od (Some v).

(** 121-294. 270-283: without branches and shunts one artificial element is added. *)
Definition build_structure (t : math_topo) : option y_structure :=
  let n := mt_n_bus t in
  let n_branch := length (mt_branch t) in
  let vec := counting_sort_element (elements t) n in
  let s0 := mkScan (repeat 0 (S n)) [] [0] [] (repeat 0 n) (repeat 0 (S n)) [] (repeat 0 n) []
              (repeat (0, 0) (n_branch + length (mt_fill_in t))) 0 0 0 in
  match scan (length vec) n_branch (length vec) vec s0 with
  | None => None
  | Some s =>
      match set_at (S (sc_row_start s)) (sc_nnz s) (sc_row_indptr s), set_at (S (sc_row_start_lu s)) (sc_nnz_lu s) (sc_row_indptr_lu s) with
      | Some ri, Some ril =>
          let ye := map el (filter (fun e => negb (is_fill e)) vec) in
          if (n_branch =? 0) && (dense_element_size (mt_shunt t) =? 0) then
            match fill_transpose (sc_off_diag s) (seq 0 1) with
            | Some tr => Some (mkYStructure [0; 1] [0] ye [0; 0] (sc_pos s) [0] [0; 1] [0] [0] [Some 0] tr)
            | None => None
            end
          else
            match fill_transpose (sc_off_diag s) (seq 0 (sc_nnz_lu s)) with
            | Some tr => Some (mkYStructure ri (sc_col_indices s) ye (sc_entry_indptr s) (sc_pos s) (sc_bus_entry s)
                                 ril (sc_col_indices_lu s) (sc_diag_lu s) (sc_map_lu s) tr)
            | None => None
            end
      | _, _ => None
      end
  end.

(** ** values *)
Section Values.
(** admittances, and the parameters of sources *)
Context {Y S' : Type} (yadd : Y -> Y -> Y) (y0 : Y).

(** calculation_parameters.hpp: BranchCalcParam, MathModelParam, MathModelParamIncrement *)
Record branch_param : Type := mkBranchParam { yff : Y; yft : Y; ytf : Y; ytt : Y }.
Record model_param : Type := mkParam { p_branch : list branch_param; p_shunt : list Y; p_source : list S' }.
(** (position, new value) *)
Record increment : Type := mkIncrement { i_branch : list (nat * branch_param); i_shunt : list (nat * Y); i_source : list (nat * S') }.

Definition zero_branch : branch_param := mkBranchParam y0 y0 y0 y0.
(** 413-425 *)
Definition contribution (p : model_param) (e : element) : Y :=
  match el_type e with
  | E_shunt => nth (el_idx e) (p_shunt p) y0
  | E_bff => yff (nth (el_idx e) (p_branch p) zero_branch)
  | E_bft => yft (nth (el_idx e) (p_branch p) zero_branch)
  | E_btf => ytf (nth (el_idx e) (p_branch p) zero_branch)
  | E_btt => ytt (nth (el_idx e) (p_branch p) zero_branch)
  | E_fill_ft | E_fill_tf => y0
  end.
Definition entry_elements (s : y_structure) (entry : nat) : list element :=
  let lo := nth entry (y_bus_entry_indptr s) 0 in
  let hi := nth (S entry) (y_bus_entry_indptr s) 0 in
  firstn (hi - lo) (skipn lo (y_bus_element s)).

Record y_bus : Type := mkYBus {
  yb_param : model_param;
  yb_admittance : list Y;
  yb_per_branch : list (list nat);
  yb_per_shunt : list (list nat) }.

(** 400-431 *)
Definition update_entries (s : y_structure) (p : model_param) (entries : list nat) (adm : list Y) : list Y :=
  fold_left (fun adm e => upd e (fold_left (fun a c => yadd a (contribution p c)) (entry_elements s e) y0) adm) entries adm.
(** 319: nnz() *)
Definition nnz (s : y_structure) : nat := last (row_indptr s) 0.
(** 433-453 *)
Definition push_at (k e : nat) (l : list (list nat)) : list (list nat) := upd k (nth k l [] ++ [e]) l.
Definition register_entries (s : y_structure) (p : model_param) : list (list nat) * list (list nat) :=
  fold_left (fun bs entry =>
    fold_left (fun bs c => match el_type c with
                           | E_shunt => (fst bs, push_at (el_idx c) entry (snd bs))
                           | _ => (push_at (el_idx c) entry (fst bs), snd bs)
                           end) (entry_elements s entry) bs)
    (seq 0 (nnz s)) (repeat [] (length (p_branch p)), repeat [] (length (p_shunt p))).
(** 342-353 *)
Definition update_admittance (s : y_structure) (p : model_param) (y : y_bus) : y_bus :=
  let adm := if length (yb_admittance y) =? nnz s then yb_admittance y else repeat y0 (nnz s) in
  let (pb, ps) := register_entries s p in
  mkYBus p (update_entries s p (seq 0 (nnz s)) adm) pb ps.
(** 300-311 *)
Definition new_y_bus (s : y_structure) (p : model_param) : y_bus := update_admittance s p (mkYBus p [] [] []).
(** 455-480: sort and unique are [sset] *)
Definition affected_entries (y : y_bus) (inc : increment) : list nat :=
  sset (flat_map (fun kb => nth (fst kb) (yb_per_branch y) []) (i_branch inc) ++
        flat_map (fun kb => nth (fst kb) (yb_per_shunt y) []) (i_shunt inc)).
(** 379-391 *)
Definition set_all {A} (changes : list (nat * A)) (l : list A) : list A := fold_left (fun l kv => upd (fst kv) (snd kv) l) changes l.
Definition apply_increment (inc : increment) (p : model_param) : model_param :=
  mkParam (set_all (i_branch inc) (p_branch p)) (set_all (i_shunt inc) (p_shunt p)) (set_all (i_source inc) (p_source p)).
(** 361-396 *)
Definition update_admittance_increment (s : y_structure) (inc : increment) (y : y_bus) : y_bus :=
  let p := apply_increment inc (yb_param y) in
  mkYBus p (update_entries s p (affected_entries y inc) (yb_admittance y)) (yb_per_branch y) (yb_per_shunt y).
End Values.

(** ** currents and powers *)
Section Flows.
(** Y: admittances, U: voltages and currents. dot: matrix times vector; umul: product per phase; conj: complex conjugate *)
Context {Y S' U : Type} (y0 : Y) (u0 : U) (uadd : U -> U -> U) (uneg : U -> U) (umul : U -> U -> U) (conj : U -> U) (dot : Y -> U -> U).
(** 482-487. transform_reduce may add in another order; here from left to right, starting with zero. *)
Definition injection_current (s : y_structure) (y : @y_bus Y S') (u : list U) (bus : nat) : U :=
  let lo := nth bus (row_indptr s) 0 in
  let hi := nth (S bus) (row_indptr s) 0 in
  fold_left uadd (map (fun jy => dot (snd jy) (nth (fst jy) u u0))
                      (combine (firstn (hi - lo) (skipn lo (col_indices s))) (firstn (hi - lo) (skipn lo (yb_admittance y))))) u0.
(** 482-497 *)
Definition calculate_injection (s : y_structure) (y : @y_bus Y S') (u : list U) : list U :=
  map (fun bus => umul (conj (injection_current s y u bus)) (nth bus u u0)) (seq 0 (length (bus_entry s))).

(** 501-525 *)
Record branch_flow : Type := mkFlow { i_f : U; i_t : U; s_f : U; s_t : U }.
Definition voltage (u : list U) (b : option nat) : U := match b with Some i => nth i u u0 | None => u0 end.
Definition calculate_branch_flow (t : math_topo) (y : @y_bus Y S') (u : list U) : list branch_flow :=
  map (fun bp : (option nat * option nat) * branch_param =>
         let uf := voltage u (fst (fst bp)) in
         let ut := voltage u (snd (fst bp)) in
         let i_f := uadd (dot (yff (snd bp)) uf) (dot (yft (snd bp)) ut) in
         let i_t := uadd (dot (ytf (snd bp)) uf) (dot (ytt (snd bp)) ut) in
         mkFlow i_f i_t (umul uf (conj i_f)) (umul ut (conj i_t)))
      (combine (mt_branch t) (p_branch (yb_param y))).

(** 531-546: (i, s) per shunt *)
Definition calculate_shunt_flow (t : math_topo) (y : @y_bus Y S') (u : list U) : list (U * U) :=
  fold_left (fun out bus =>
      let (lo, hi) := dense_range (mt_shunt t) bus in
      fold_left (fun out sh => let i := uneg (dot (nth sh (p_shunt (yb_param y)) y0) (nth bus u u0)) in
                               upd sh (i, umul (nth bus u u0) (conj i)) out) (seq lo (hi - lo)) out)
    (seq 0 (dense_size (mt_shunt t))) (repeat (u0, u0) (dense_element_size (mt_shunt t))).
End Flows.
