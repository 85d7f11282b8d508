(** What the structure of an admittance matrix must be, in terms of the branches, shunts and fill-ins of a sub-grid. *)
From Coq Require Import Sorting.Sorted.
From Verif Require Import Common GroupedIdx YBus.

(** [member t c i j]: the branch side or shunt [c] belongs at row [i], column [j] *)
Inductive member (t : math_topo) : element -> nat -> nat -> Prop :=
| m_ff k f o : nth_error (mt_branch t) k = Some (Some f, o) -> member t (mkElement E_bff k) f f
| m_ft k f o : nth_error (mt_branch t) k = Some (Some f, Some o) -> member t (mkElement E_bft k) f o
| m_tf k f o : nth_error (mt_branch t) k = Some (Some f, Some o) -> member t (mkElement E_btf k) o f
| m_tt k f o : nth_error (mt_branch t) k = Some (f, Some o) -> member t (mkElement E_btt k) o o
| m_shunt k b : nth_error (d_vec (mt_shunt t)) k = Some b -> member t (mkElement E_shunt k) b b.
(** a fill-in joins [i] and [j] *)
Definition filled (t : math_topo) (i j : nat) : Prop := In (i, j) (mt_fill_in t) \/ In (j, i) (mt_fill_in t).

(** a sub-grid as the topology analysis makes them *)
Record sub_grid_ok (t : math_topo) : Prop := {
  go_branch : forall k b, nth_error (mt_branch t) k = Some b ->
    (forall i, fst b = Some i -> i < mt_n_bus t) /\ (forall i, snd b = Some i -> i < mt_n_bus t);
  go_shunt_num : d_num (mt_shunt t) = mt_n_bus t;
  go_shunt_sorted : StronglySorted le (d_vec (mt_shunt t));
  go_shunt : forall b, In b (d_vec (mt_shunt t)) -> b < mt_n_bus t;
  go_fill : forall i j, In (i, j) (mt_fill_in t) -> i < mt_n_bus t /\ j < mt_n_bus t /\ i <> j;
  go_fill_once : forall p q i j, nth_error (mt_fill_in t) p = Some (i, j) ->
    nth_error (mt_fill_in t) q = Some (i, j) \/ nth_error (mt_fill_in t) q = Some (j, i) -> p = q;
  go_fill_new : forall i j c, filled t i j -> ~ member t c i j;
  (** every bus carries something, or there is one bus and nothing else *)
  go_bus : (forall i, i < mt_n_bus t -> exists c, member t c i i) \/ (mt_n_bus t = 1 /\ mt_branch t = [] /\ d_vec (mt_shunt t) = []);
  go_nonempty : 0 < mt_n_bus t }.

(** compressed rows: entry [e] is at row [i], column [j] *)
Definition csr_at (indptr cols : list nat) (e i j : nat) : Prop :=
  nth_error cols e = Some j /\
  exists lo hi, nth_error indptr i = Some lo /\ nth_error indptr (S i) = Some hi /\ lo <= e < hi.
Record csr (n : nat) (indptr cols : list nat) : Prop := {
  csr_length : length indptr = S n;
  csr_first : nth_error indptr 0 = Some 0;
  csr_last : nth_error indptr n = Some (length cols);
  csr_sorted : StronglySorted le indptr;
  csr_increasing : forall e e' i j j', csr_at indptr cols e i j -> csr_at indptr cols e' i j' -> e < e' -> j < j';
  csr_range : forall j, In j cols -> j < n }.

Record structure_ok (t : math_topo) (s : y_structure) : Prop := {
  so_csr : csr (mt_n_bus t) (row_indptr s) (col_indices s);
  so_csr_lu : csr (mt_n_bus t) (row_indptr_lu s) (col_indices_lu s);
  (** which entries exist *)
  so_pattern : forall i j, (exists e, csr_at (row_indptr s) (col_indices s) e i j) <-> (i = j /\ i < mt_n_bus t) \/ exists c, member t c i j;
  so_pattern_lu : forall i j, (exists e, csr_at (row_indptr_lu s) (col_indices_lu s) e i j) <->
    (exists e, csr_at (row_indptr s) (col_indices s) e i j) \/ filled t i j;
  (** diagonal entries *)
  so_bus_entry : length (bus_entry s) = mt_n_bus t /\
    forall i e, nth_error (bus_entry s) i = Some e -> csr_at (row_indptr s) (col_indices s) e i i;
  so_diag_lu : length (diag_lu s) = mt_n_bus t /\
    forall i e, nth_error (diag_lu s) i = Some e -> csr_at (row_indptr_lu s) (col_indices_lu s) e i i;
  (** entries of the matrix inside the structure with fill-ins *)
  so_map : length (map_lu_y_bus s) = length (col_indices_lu s) /\
    forall e i j m, nth_error (map_lu_y_bus s) e = Some m -> csr_at (row_indptr_lu s) (col_indices_lu s) e i j ->
    match m with Some e' => csr_at (row_indptr s) (col_indices s) e' i j | None => filled t i j end;
  (** transposed entries *)
  so_transpose : length (lu_transpose_entry s) = length (col_indices_lu s) /\
    forall e i j e', nth_error (lu_transpose_entry s) e = Some e' -> csr_at (row_indptr_lu s) (col_indices_lu s) e i j ->
    csr_at (row_indptr_lu s) (col_indices_lu s) e' j i;
  (** every branch side and shunt is listed once, among the elements of the entry of its own bus pair, and nothing else is listed *)
  so_entry_indptr : length (y_bus_entry_indptr s) = S (length (col_indices s));
  so_listed : forall c i j, member t c i j -> exists p e lo hi, nth_error (y_bus_element s) p = Some c /\
    csr_at (row_indptr s) (col_indices s) e i j /\
    nth_error (y_bus_entry_indptr s) e = Some lo /\ nth_error (y_bus_entry_indptr s) (S e) = Some hi /\ lo <= p < hi;
  so_once : NoDup (y_bus_element s);
  so_only : forall c, In c (y_bus_element s) -> exists i j, member t c i j }.

(** the branch sides and shunts at row [i], column [j]: branches in order, then shunts in order *)
Definition incident (t : math_topo) (i j : nat) : list element :=
  let here (a b : option nat) := match a, b with Some a, Some b => (a =? i) && (b =? j) | _, _ => false end in
  flat_map (fun kb : nat * (option nat * option nat) => let (k, ft) := kb in let (f, o) := ft in
    (if here f f then [mkElement E_bff k] else []) ++ (if here f o then [mkElement E_bft k] else []) ++
    (if here o f then [mkElement E_btf k] else []) ++ (if here o o then [mkElement E_btt k] else []))
    (enumerate (mt_branch t)) ++
  flat_map (fun kb : nat * nat => if (i =? j) && (snd kb =? i) then [mkElement E_shunt (fst kb)] else []) (enumerate (d_vec (mt_shunt t))).

(** the terms of the entry at row [i], column [j], for given parameters: branches in order, then shunts in order *)
Definition entry_terms {Y S'} (t : math_topo) (p : @model_param Y S') (i j : nat) : list Y :=
  let here (a b : option nat) := match a, b with Some a, Some b => (a =? i) && (b =? j) | _, _ => false end in
  flat_map (fun bp : (option nat * option nat) * branch_param => let (ft, b) := bp in let (f, o) := ft in
    (if here f f then [yff b] else []) ++ (if here f o then [yft b] else []) ++
    (if here o f then [ytf b] else []) ++ (if here o o then [ytt b] else []))
    (combine (mt_branch t) (p_branch p)) ++
  flat_map (fun sp : nat * Y => if (i =? j) && (fst sp =? i) then [snd sp] else []) (combine (d_vec (mt_shunt t)) (p_shunt p)).

(** a history of updates: all parameters, or some of them *)
Inductive y_update {Y S' : Type} : Type := U_full (p : @model_param Y S') | U_increment (inc : @increment Y S').
Arguments y_update : clear implicits.
(** the last value given for position [k] *)
Definition given {A} (changes : list (nat * A)) (k : nat) : option A := option_map snd (find (fun kv => fst kv =? k) (rev changes)).
Definition changed {A} (changes : list (nat * A)) (before after : list A) : Prop :=
  length after = length before /\
  forall k x, nth_error before k = Some x -> nth_error after k = Some (match given changes k with Some v => v | None => x end).
(** the parameters that hold after a history *)
Inductive params_after {Y S'} : list (y_update Y S') -> @model_param Y S' -> @model_param Y S' -> Prop :=
| pa_nil p : params_after [] p p
| pa_full q l p p' : params_after l q p' -> params_after (U_full q :: l) p p'
| pa_inc inc l p q p' : changed (i_branch inc) (p_branch p) (p_branch q) -> changed (i_shunt inc) (p_shunt p) (p_shunt q) ->
    changed (i_source inc) (p_source p) (p_source q) -> params_after l q p' -> params_after (U_increment inc :: l) p p'.
(** sizes and positions fit the sub-grid *)
Definition params_fit {Y S'} (t : math_topo) (p : @model_param Y S') : Prop :=
  length (p_branch p) = length (mt_branch t) /\ length (p_shunt p) = length (d_vec (mt_shunt t)).
Definition update_fits {Y S'} (t : math_topo) (n_source : nat) (u : y_update Y S') : Prop :=
  match u with
  | U_full p => params_fit t p /\ length (p_source p) = n_source
  | U_increment inc => (forall k v, In (k, v) (i_branch inc) -> k < length (mt_branch t)) /\
      (forall k v, In (k, v) (i_shunt inc) -> k < length (d_vec (mt_shunt t))) /\ (forall k v, In (k, v) (i_source inc) -> k < n_source)
  end.
