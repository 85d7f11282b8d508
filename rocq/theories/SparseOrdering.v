(** Model of the minimum degree ordering (sparse_ordering.hpp). *)
From Verif Require Import Common NatMap.

(** std::map<Idx, IdxVector>: adjacency lists *)
Notation graph := (list (nat * list nat)).

(** ** sparse_ordering.hpp 21-62: DegreeLookup *)
Record lookup : Type := mkLookup { v2d : list (nat * nat); d2v : list (nat * list nat) }.
(** 45-52 *)
Definition remove_degree (u deg : nat) (m : list (nat * list nat)) : list (nat * list nat) :=
  match mfind deg m with
  | None => m
  | Some s => match serase u s with [] => merase deg m | s' => mset deg s' m end
  end.
Definition insert_degree (u deg : nat) (m : list (nat * list nat)) : list (nat * list nat) :=
  mset deg (sinsert u (match mfind deg m with Some s => s | None => [] end)) m.
(** 23-31 *)
Definition lk_set (u deg : nat) (g : lookup) : lookup :=
  match mfind u (v2d g) with
  | Some old => mkLookup (mset u deg (v2d g)) (insert_degree u deg (remove_degree u old (d2v g)))
  | None => mkLookup (mset u deg (v2d g)) (insert_degree u deg (d2v g))
  end.
(** 33-41 *)
Definition lk_erase (u : nat) (g : lookup) : lookup :=
  match mfind u (v2d g) with
  | None => g
  | Some deg => mkLookup (merase u (v2d g)) (remove_degree u deg (d2v g))
  end.
(** 59-62: the first vertex of the smallest degree; an empty lookup is undefined behaviour. *)
Definition min_element (g : lookup) : option nat :=
  match d2v g with
  | (_, u :: _) :: _ => match mfind u (v2d g) with Some _ => Some u | None => None end
  | _ => None
  end.

(** 68-73 *)
Definition num_adjacent (u : nat) (d : graph) : nat := match mfind u d with Some l => length l | None => 0 end.
(** d[e], which creates an empty entry *)
Definition adj_or_new (e : nat) (d : graph) : list nat := match mfind e d with Some l => l | None => [] end.
Definition push (k e : nat) (d : graph) : graph := mset k (adj_or_new k d ++ [e]) d.
Definition erase_all (x : nat) (l : list nat) : list nat := filter (fun y => negb (y =? x)) l.

(** 77-87 *)
Definition degrees_of (d : graph) : lookup :=
  fold_left (fun g ka => lk_set (fst ka) (length (snd ka)) g) d (mkLookup [] []).

(** 89-100: for each element of [l], in the order of the keys, the other elements in the order of [l]. ([l] has no
    duplicates, so that removing position i is removing the value.) *)
Definition make_clique (l : list nat) : graph :=
  fold_left (fun d x => mset x (erase_all x l) d) l [].

(** 102-121: neighbours of [u], and those with the same closed neighbourhood as [u]. d.at(v) throws if v is no key. *)
Fixpoint indistinguishable (lu : list nat) (d : graph) (l : list nat) : option (list nat) :=
  match l with
  | [] => Some []
  | v :: l' =>
      match mfind v d with
      | None => None
      | Some lv =>
          match indistinguishable lu d l' with
          | None => None
          | Some rl => Some (if list_eq_dec Nat.eq_dec lu (sort_idx (lv ++ [v])) then v :: rl else rl)
          end
      end
  end.
Definition check_indistinguishable (u : nat) (d : graph) : option (list nat * list nat) :=
  match mfind u d with
  | None => None
  | Some l => match indistinguishable (sort_idx (l ++ [u])) d l with None => None | Some rl => Some (l, rl) end
  end.

(** 123-126 *)
Definition in_graph (k e : nat) (d : graph) : bool :=
  match mfind k d with Some l => existsb (Nat.eqb e) l | None => false end.

(** 138-157: one iteration of the loop over the removed vertices: [uu] leaves the lists of its neighbours; it and the
    neighbours whose lists become empty leave the map. *)
Definition unlink (uu : nat) (es : list nat) (d : graph) : graph * list nat :=
  fold_left (fun del e => let a := erase_all uu (adj_or_new e (fst del)) in
                          (mset e a (fst del), if match a with [] => true | _ => false end then snd del ++ [e] else snd del))
            es (d, []).
Definition remove_one (uu : nat) (d : graph) : graph :=
  let es := adj_or_new uu d in
  let d := mset uu es d in
  let del := unlink uu es d in
  fold_left (fun d x => merase x d) (snd del ++ [uu]) (fst del).

(** 161-173: the neighbours become a clique *)
Definition add_fill (k : nat) (df : graph * list (nat * nat)) (e : nat) : graph * list (nat * nat) :=
  if in_graph k e (fst df) then df else (push e k (push k e (fst df)), snd df ++ [(k, e)]).
Definition add_clique (dd : graph) (df : graph * list (nat * nat)) : graph * list (nat * nat) :=
  fold_left (fun df ka => fold_left (add_fill (fst ka)) (snd ka) df) dd df.

(** 128-180 *)
Definition remove_vertices_update_degrees (u : nat) (d : graph) (dgd : lookup) (fills : list (nat * nat))
  : option (graph * lookup * list (nat * nat) * list nat) :=
  match check_indistinguishable u d with
  | None => None
  | Some (nbs, rl) =>
      let removed := rl ++ [u] in
      let nbs' := fold_left (fun l uu => if uu =? u then l else erase_all uu l) removed nbs in
      let dgd1 := fold_left (fun g uu => lk_erase uu g) removed dgd in
      let d1 := fold_left (fun d uu => remove_one uu d) removed d in
      let df := add_clique (make_clique nbs') (d1, fills) in
      let dgd2 := fold_left (fun g e => lk_set e (num_adjacent e (fst df)) g) nbs' dgd1 in
      Some (fst df, dgd2, snd df, rl)
  end.

(** 200-217: the loop, at most [n] iterations *)
Fixpoint ordering_loop (n : nat) (d : graph) (dgd : lookup) (alpha : list nat) (fills : list (nat * nat))
  : option (list nat * list (nat * nat)) :=
  match n with
  | O => Some (alpha, fills)
  | S n' =>
      match min_element dgd with
      | None => None
      | Some u =>
          let alpha := alpha ++ [u] in
          if length d =? 2 then
            match d with
            | (from, to :: _) :: _ => Some (alpha ++ [if u =? from then to else from], fills)
            | _ => None
            end
          else
            match remove_vertices_update_degrees u d dgd fills with
            | None => None
            | Some (d', dgd', fills', rl) =>
                let alpha := alpha ++ rl in
                match d' with
                | [] => Some (alpha, fills')
                | _ => ordering_loop n' d' dgd' alpha fills'
                end
            end
      end
  end.

(** 183-194: make symmetric and remove duplicates. Simplification: the loop of 185-189 also visits the keys it inserts;
    this only repeats entries that are already there and duplicates are removed in 190-193. *)
Definition make_symmetric (d : graph) : graph :=
  fold_left (fun acc ka => fold_left (fun acc e => push e (fst ka) acc) (snd ka) acc) d d.
Definition unique_sorted (d : graph) : graph := map (fun ka => (fst ka, sset (snd ka))) d.
(** 183-219 *)
Definition minimum_degree_ordering (d : graph) : option (list nat * list (nat * nat)) :=
  let d := unique_sorted (make_symmetric d) in
  ordering_loop (length d) d (degrees_of d) [] [].
