(** Model of update datasets and of how their records find their components
    (main_core/update.hpp 44-255, main_model_impl.hpp 109-198, job_adapter.hpp 113-149). *)
From Verif Require Import Common Container Component MainModel.

Section UpdateData.
Context {O : DOps}.

(** An update dataset: for each component type that is present, the records (id and attributes) of every scenario.
    Row and columnar buffers give the same records (auxiliary/dataset.hpp, see Dataset.v). *)
Definition records (t : ctype) : Type := list (list (Z * comp_upd t)).
Definition upd_data : Type := forall t, option (records t).

(** is_nan(id) of common/common.hpp for ids. *)
Definition id_na (id : Z) : bool := (id =? na_IntID)%Z.

(** main_core/update.hpp 58-83: UpdateCompProperties (flags dense and is_columnar are not used for decisions). *)
Record props : Type := mkProps {
  has_any : bool; ids_all_na : bool; ids_part_na : bool; uniform : bool; ids_match : bool;
  eps : option nat;          (* elements_ps_in_update, [None] = invalid_index *)
  in_base : nat }.
Definition is_some_n (o : option nat) (n : nat) : bool := match o with Some m => m =? n | None => false end.
Definition qualify (p : props) : bool :=
  (ids_match p && ids_all_na p && uniform p && is_some_n (eps p) (in_base p))%bool.
Definition provided_ids_valid (p : props) : bool :=
  (negb (has_any p) || (ids_match p && negb (ids_all_na p || ids_part_na p)))%bool.
Definition is_independent (p : props) : bool := (qualify p || provided_ids_valid p)%bool.
(** [None] = na_Idx *)
Definition get_n_elements (p : props) : option nat := if qualify p then eps p else None.

(** main_core/update.hpp 85-89 and 91-95 *)
Definition get_all_ids_na {t} (r : records t) : bool := forallb (forallb (fun x => id_na (fst x))) r.
Definition get_any_ids_na {t} (r : records t) : bool := existsb (existsb (fun x => id_na (fst x))) r.

(** std::ranges::equal on ids *)
Fixpoint ids_equal {t} (a b : list (Z * comp_upd t)) : bool :=
  match a, b with
  | [], [] => true
  | x :: a', y :: b' => ((fst x =? fst y)%Z && ids_equal a' b')%bool
  | _, _ => false
  end.
(** main_core/update.hpp 97-113 *)
Definition get_update_ids_match {t} (r : records t) : bool :=
  match r with
  | [] => true
  | first :: rest => forallb (fun cur => ids_equal cur first) rest
  end.

(** auxiliary/dataset.hpp 311-343: all scenarios have the same number of elements; the number per scenario. *)
Definition is_uniform {t} (r : records t) : bool :=
  match r with
  | [] => true
  | first :: rest => forallb (fun cur => length cur =? length first) rest
  end.
Definition uniform_eps {t} (r : records t) : nat := match r with [] => 0 | first :: _ => length first end.

(** main_core/update.hpp 115-150 *)
Definition check_component_independence {t} (r : option (records t)) (n_component : nat) : props :=
  match r with
  | None => mkProps false true false true true (Some 0) n_component
  | Some r =>
      let u := is_uniform r in
      let e := if u then Some (uniform_eps r) else None in
      if existsb (fun s => negb (length s =? 0)) r then
        let all := get_all_ids_na r in
        mkProps true all (negb all && get_any_ids_na r) u (u && get_update_ids_match r) e n_component
      else mkProps false true false u true e n_component
  end.

(** main_core/update.hpp 152-170 *)
Definition validate (p : props) : res unit :=
  if negb (has_any p) then Ok tt
  else if match get_n_elements p with Some n => in_base p <? n | None => false end then Err DatasetError
  else if ids_part_na p then Err DatasetError
  else if (ids_all_na p && negb (is_some_n (get_n_elements p) (in_base p)))%bool then Err DatasetError
  else Ok tt.

(** main_core/update.hpp 187-204 and 217-231: positions by id (the same lookup as get_indexer), or in order. *)
Definition get_component_sequence (c : mcontainer) (t : ctype) (rs : list (Z * comp_upd t)) (n : option nat)
  : res (list nat) :=
  match n with
  | None => get_indexer c t (map fst rs)
  | Some _ => Ok (seq 0 (length rs))
  end.

Definition scenario_of {t} (r : option (records t)) (s : nat) : list (Z * comp_upd t) :=
  match r with None => [] | Some r => nth s r [] end.

(** main_core/update.hpp 234-255 *)
Definition sequence_for (c : mcontainer) (d : upd_data) (s : nat) (ps : ctype -> props) (cached : bool) (t : ctype)
  : res (list nat) :=
  if (negb (xorb cached (is_independent (ps t))) || match d t with None => true | _ => false end)%bool then Ok []
  else
    let! _ := validate (ps t) in
    get_component_sequence c t (scenario_of (d t) s) (get_n_elements (ps t)).
Definition get_all_sequences (c : mcontainer) (d : upd_data) (s : nat) (ps : ctype -> props) (cached : bool)
  : res (ctype -> list nat) :=
  foldM (fun acc t => let! l := sequence_for c d s ps cached t in Ok (tset (F := fun _ => list nat) acc t l))
        all_ctypes (fun _ => []).

Definition all_props (c : mcontainer) (d : upd_data) (t : ctype) : props :=
  check_component_independence (d t) (size_of (is_base (GExact t)) c).

(** The attributes of the records of one scenario. *)
Definition attributes (d : upd_data) (s : nat) (t : ctype) : list (comp_upd t) := map snd (scenario_of (d t) s).

Section Run.
Context {T P : Type}.

(** main_model_impl.hpp 191-198 (called with scenario 0 of the dataset, main_model.hpp 87-89): permanent update. *)
Definition update_model (c : mcontainer) (d : upd_data) (st : mm (T := T) (P := P)) : mm * outcome :=
  match get_all_sequences c d 0 (all_props c d) false with
  | Err e => (st, Throw e)
  | Ok sq => update_components false (attributes d 0) sq st
  end.

(** job_adapter.hpp 79-88: the part of the adapter that depends on the update data, and the model it works on. *)
Record adapter : Type := mkAdapter {
  ad_model : mm (T := T) (P := P);
  ad_props : ctype -> props;              (* update_independence_ *)
  ad_all : ctype -> list nat;             (* all_scenarios_sequence_ *)
  ad_cur : ctype -> list nat }.           (* current_scenario_sequence_cache_ *)

(** job_adapter.hpp 113-125 *)
Definition prepare (c : mcontainer) (d : upd_data) (st : mm (T := T) (P := P)) : res adapter :=
  let ps := all_props c d in
  let! sq := get_all_sequences c d 0 ps false in
  Ok (mkAdapter st ps sq (fun _ => [])).

(** job_adapter.hpp 141-149 *)
Definition view (a : adapter) (t : ctype) : list nat :=
  if is_independent (ad_props a t) then ad_all a t else ad_cur a t.

(** job_adapter.hpp 127-134 *)
Definition setup (c : mcontainer) (d : upd_data) (s : nat) (a : adapter) : adapter * outcome :=
  match get_all_sequences c d s (ad_props a) true with
  | Err e => (a, Throw e)
  | Ok cur =>
      let a := mkAdapter (ad_model a) (ad_props a) (ad_all a) cur in
      let '(st, o) := update_components true (attributes d s) (view a) (ad_model a) in
      (mkAdapter st (ad_props a) (ad_all a) cur, o)
  end.

(** job_adapter.hpp 136-139 *)
Definition winddown (a : adapter) : adapter * outcome :=
  match restore_components (view a) (ad_model a) with
  | (st, Fine) => (mkAdapter st (ad_props a) (ad_all a) (fun _ => []), Fine)
  | (st, o) => (mkAdapter st (ad_props a) (ad_all a) (ad_cur a), o)
  end.
End Run.
End UpdateData.
