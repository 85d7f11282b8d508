(** Model of auxiliary/serialization/{serializer,deserializer,common}.hpp. The msgpack bytes are modelled as the sequence of msgpack
    tokens they encode; the byte encoding of the msgpack library is not modelled. A position in the bytes is modelled by the tokens
    from there on. JSON is in Json.v. *)
From Coq Require Import String.
From Verif Require Import Common.
Local Open Scope nat_scope.

(** Done; Thrown: an exception; Undef: undefined behaviour (access out of range) *)
Inductive res (A : Type) : Type := Done (a : A) | Thrown | Undef.
Arguments Done {A}. Arguments Thrown {A}. Arguments Undef {A}.
Definition bindR {A B} (r : res A) (f : A -> res B) : res B := match r with Done a => f a | Thrown => Thrown | Undef => Undef end.
Definition getR {A} (o : option A) : res A := match o with Some a => Done a | None => Undef end.
Definition findR {A} (o : option A) : res A := match o with Some a => Done a | None => Thrown end.
Fixpoint mapR {A B} (f : A -> res B) (l : list A) : res (list B) :=
  match l with [] => Done [] | a :: l' => bindR (f a) (fun b => bindR (mapR f l') (fun bs => Done (b :: bs))) end.
Fixpoint foldR {A B} (f : B -> A -> res B) (l : list A) (b : B) : res B :=
  match l with [] => Done b | a :: l' => bindR (f b a) (foldR f l') end.

(** ** metadata (meta_data.hpp) *)
Inductive atype := A_id | A_int8 | A_double | A_double3.      (* int32_t, int8_t, double, RealValue<asymmetric_t> *)
Record meta_attr := mkAttr { ma_name : string; ma_type : atype }.
Record meta_comp := mkComp { mc_name : string; mc_attrs : list meta_attr }.
Record meta_set := mkSet { ms_name : string; ms_comps : list meta_comp }.
Fixpoint find_index {A} (p : A -> bool) (l : list A) : option nat :=
  match l with [] => None | a :: l' => if p a then Some 0 else option_map S (find_index p l') end.
(** get_component, get_attribute, find_attribute: the first with the name *)
Definition comp_index (m : meta_set) (name : string) : option nat := find_index (fun x => String.eqb (mc_name x) name) (ms_comps m).
Definition attr_index (m : meta_comp) (name : string) : option nat := find_index (fun x => String.eqb (ma_name x) name) (mc_attrs m).

Section Serial.
(** doubles: any type with a test for NaN, a NaN and a conversion from integers *)
Context {D : Type}.
Variable nan : D.
Variable is_nan : D -> bool.
Variable of_int : Z -> D.

Inductive value := V_int (z : Z) | V_double (d : D) | V_double3 (a b c : D).
(** common.hpp: na_IntID, na_IntS; meta_data.hpp 72-89: nan_value *)
Definition na_id : Z := (-2147483648)%Z.
Definition na_int8 : Z := (-128)%Z.
Definition na (t : atype) : value :=
  match t with A_id => V_int na_id | A_int8 => V_int na_int8 | A_double => V_double nan | A_double3 => V_double3 nan nan nan end.
(** three_phase_tensor.hpp 365-377 *)
Definition is_na (t : atype) (v : value) : bool :=
  match t, v with
  | A_id, V_int z => Z.eqb z na_id
  | A_int8, V_int z => Z.eqb z na_int8
  | A_double, V_double d => is_nan d
  | A_double3, V_double3 a b c => is_nan a && is_nan b && is_nan c
  | _, _ => false
  end.

(** ** datasets: a buffer is row based (one list of all attributes per element) or columnar (one list of elements per given attribute) *)
Inductive buffer := Rows (rows : list (list value)) | Cols (cols : list (nat * list value)).
Record comp_buffer := mkBuf { cb_comp : nat; cb_eps : option nat; cb_indptr : list nat; cb_data : buffer }.   (* cb_eps: None is -1 *)
Record dataset := mkData { ds_meta : meta_set; ds_batch : bool; ds_size : nat; ds_comps : list comp_buffer }.

Inductive token := Nil | TBool (b : bool) | TInt (z : Z) | TFloat (d : D) | Str (s : string) | ArrayH (n : nat) | MapH (n : nat).

(** ** serializer.hpp *)
Section Serializer.
Variable ds : dataset.
Definition uint32_end : Z := 4294967296%Z.
(** 584-600 *)
Definition pack_array (n : nat) : res (list token) := if (Z.of_nat n <? uint32_end)%Z then Done [ArrayH n] else Thrown.
Definition pack_map (n : nat) : res (list token) := if (Z.of_nat n <? uint32_end)%Z then Done [MapH n] else Thrown.
(** 54-70, 624-635 *)
Definition pack_scalar (d : D) : token := if is_nan d then Nil else TFloat d.
Definition pack_value (v : value) : list token :=
  match v with
  | V_int z => [TInt z]
  | V_double d => [TFloat d]
  | V_double3 a b c => [ArrayH 3; pack_scalar a; pack_scalar b; pack_scalar c]
  end.
Definition meta_of (cb : comp_buffer) : res meta_comp := getR (nth_error (ms_comps (ds_meta ds)) (cb_comp cb)).
Definition type_of (m : meta_comp) (a : nat) : res atype := getR (option_map ma_type (nth_error (mc_attrs m) a)).
Definition name_of (m : meta_comp) (a : nat) : res string := getR (option_map ma_name (nth_error (mc_attrs m) a)).

(** 335-359: buffer, first element, number of elements *)
Definition view : Type := comp_buffer * nat * nat.
Definition view_of (cb : comp_buffer) (first last : nat) : res view :=
  match cb_eps cb with
  | None => bindR (getR (nth_error (cb_indptr cb) first)) (fun i => bindR (getR (nth_error (cb_indptr cb) last)) (fun j => Done (cb, i, j - i)))
  | Some e => Done (cb, e * first, e * (last - first))
  end.
Definition create_view (first last : nat) : res (list view) :=
  bindR (mapR (fun cb => view_of cb first last) (ds_comps ds)) (fun vs => Done (filter (fun v => 0 <? snd v) vs)).

(** 602-622 *)
Definition row_value (rows : list (list value)) (i a : nat) : res value := getR (match nth_error rows i with Some r => nth_error r a | None => None end).
Definition check_na (m : meta_comp) (a : nat) (v : value) : res bool := bindR (type_of m a) (fun t => Done (is_na t v)).
Definition all_na (m : meta_comp) (a : nat) (get : nat -> res value) (first n : nat) : res bool :=
  bindR (mapR (fun i => bindR (get i) (check_na m a)) (seq first n)) (fun bs => Done (forallb (fun b => b) bs)).
Definition find_col (cols : list (nat * list value)) (a : nat) : option (list value) := option_map snd (find (fun x => fst x =? a) cols).

(** 361-392: the attributes of one component, and their columns *)
Definition check_attribute (v : view) (m : meta_comp) (a : nat) : res (list nat) :=
  match cb_data (fst (fst v)) with
  | Rows rows => bindR (all_na m a (fun i => row_value rows i a) (snd (fst v)) (snd v)) (fun b => Done (if b then [] else [a]))
  | Cols cols =>
      match find_col cols a with
      | Some col => bindR (all_na m a (fun i => getR (nth_error col i)) 0 (snd v)) (fun b => Done (if b then [] else [a]))
      | None => Done []
      end
  end.
Definition check_component (v : view) : res (nat * list nat) :=
  bindR (meta_of (fst (fst v))) (fun m =>
    bindR (mapR (check_attribute v m) (seq 0 (List.length (mc_attrs m)))) (fun l => Done (cb_comp (fst (fst v)), concat l))).
(** std::map with the component as key: sorted by address, which is the order in the metadata *)
Fixpoint map_insert (k : nat) (x : list nat) (l : list (nat * list nat)) : list (nat * list nat) :=
  match l with
  | [] => [(k, x)]
  | (k', x') :: l' => if k <? k' then (k, x) :: l else if k =? k' then (k, x) :: l' else (k', x') :: map_insert k x l'
  end.
Definition check_attributes : res (list (nat * list nat)) :=
  bindR (create_view 0 (ds_size ds)) (fun vs =>
    bindR (mapR check_component vs) (fun l => Done (fold_left (fun acc kx => map_insert (fst kx) (snd kx) acc) l []))).
Definition map_find (k : nat) (l : list (nat * list nat)) : option (list nat) := option_map snd (find (fun x => fst x =? k) l).

(** 519-582 *)
Definition element_value (b : buffer) (i a : nat) : res value :=
  match b with
  | Rows rows => row_value rows i a
  | Cols cols => bindR (getR (find_col cols a)) (fun col => getR (nth_error col i))
  end.
Definition pack_element_in_list (m : meta_comp) (b : buffer) (attrs : list nat) (i : nat) : res (list token) :=
  bindR (pack_array (List.length attrs)) (fun h =>
    bindR (mapR (fun a => bindR (element_value b i a) (fun v => bindR (check_na m a v) (fun x => Done (if x then [Nil] else pack_value v)))) attrs)
      (fun l => Done (h ++ concat l))).
Definition dict_attrs (m : meta_comp) (b : buffer) : list nat :=
  match b with Rows _ => seq 0 (List.length (mc_attrs m)) | Cols cols => map fst cols end.
(** a columnar buffer packs its columns one by one, also when an attribute is there twice *)
Definition dict_value (b : buffer) (i : nat) (k a : nat) : res value :=
  match b with Rows rows => row_value rows i a | Cols cols => bindR (getR (nth_error cols k)) (fun ac => getR (nth_error (snd ac) i)) end.
Definition pack_element_in_dict (m : meta_comp) (b : buffer) (i : nat) : res (list token) :=
  let attrs := dict_attrs m b in
  bindR (mapR (fun ka => bindR (dict_value b i (fst ka) (snd ka)) (fun v => bindR (check_na m (snd ka) v) (fun x => bindR (name_of m (snd ka)) (fun name =>
           Done (if x then [] else [Str name :: pack_value v])))))
         (combine (seq 0 (List.length attrs)) attrs)) (fun l =>
    bindR (pack_map (List.length (concat l))) (fun h => Done (h ++ concat (concat l)))).

(** 462-517; [attributes]: None is the verbose form *)
Definition pack_component (attributes : option (list (nat * list nat))) (v : view) : res (list token) :=
  let cb := fst (fst v) in
  bindR (meta_of cb) (fun m =>
  bindR (pack_array (snd v)) (fun h =>
  bindR (match attributes with None => Done [] | Some l => getR (map_find (cb_comp cb) l) end) (fun attrs =>
  bindR (mapR (fun i => match attributes with
                        | None => pack_element_in_dict m (cb_data cb) i
                        | Some _ => pack_element_in_list m (cb_data cb) attrs i
                        end) (seq (snd (fst v)) (snd v))) (fun l =>
    Done (Str (mc_name m) :: h ++ concat l))))).
(** 455-460 *)
Definition pack_scenario (attributes : option (list (nat * list nat))) (s : nat) : res (list token) :=
  bindR (create_view s (S s)) (fun vs =>
  bindR (pack_map (List.length vs)) (fun h => bindR (mapR (pack_component attributes) vs) (fun l => Done (h ++ concat l)))).
(** 438-441, 412-436; pack of a std::map *)
Definition pack_attributes (attributes : option (list (nat * list nat))) : res (list token) :=
  match attributes with
  | None => Done [MapH 0]
  | Some l =>
      bindR (mapR (fun ka => bindR (getR (nth_error (ms_comps (ds_meta ds)) (fst ka))) (fun m =>
               bindR (mapR (name_of m) (snd ka)) (fun names => Done (Str (mc_name m) :: ArrayH (List.length names) :: map Str names)))) l)
        (fun ts => Done (MapH (List.length l) :: concat ts))
  end.
Definition serialize (compact : bool) : res (list token) :=
  bindR (if compact then bindR check_attributes (fun l => Done (Some l)) else Done None) (fun attributes =>
  bindR (pack_attributes attributes) (fun at_tokens =>
  bindR (if ds_batch ds then pack_array (ds_size ds) else Done []) (fun h =>
  bindR (mapR (pack_scenario attributes) (seq 0 (ds_size ds))) (fun l =>
    Done ([MapH 5; Str "version"; Str "1.0"; Str "type"; Str (ms_name (ds_meta ds)); Str "is_batch"; TBool (ds_batch ds); Str "attributes"] ++
          at_tokens ++ Str "data" :: h ++ concat l))))).
End Serializer.

(** ** deserializer.hpp *)
Notation stream := (list token).
(** 551-561 with 240-293: the header only *)
Definition parse_map_array (map_ok array_ok : bool) (l : stream) : res (nat * bool * stream) :=
  match l with
  | MapH n :: l' => if map_ok then Done (n, true, l') else Thrown
  | ArrayH n :: l' => if array_ok then Done (n, false, l') else Thrown
  | _ => Thrown
  end.
Definition parse_string (l : stream) : res (string * stream) := match l with Str s :: l' => Done (s, l') | _ => Thrown end.
Definition parse_bool (l : stream) : res (bool * stream) := match l with TBool b :: l' => Done (b, l') | _ => Thrown end.
Definition children (t : token) : nat := match t with ArrayH n => n | MapH n => 2 * n | _ => 0 end.
(** 575-584: skip [n] objects; the flag says whether one of the tokens is a map *)
Fixpoint skip_objects (n : nat) (l : stream) : res (bool * stream) :=
  match n with
  | 0 => Done (false, l)
  | S n' => match l with
            | [] => Thrown
            | t :: l' => bindR (skip_objects (children t + n') l') (fun r => Done (match t with MapH _ => true | _ => fst r end, snd r))
            end
  end.

(** 320-429. [old] is the value in the buffer. *)
Definition int_range (t : atype) (z : Z) : bool :=
  match t with
  | A_id => (-2147483648 <=? z)%Z && (z <=? 2147483647)%Z
  | _ => (-128 <=? z)%Z && (z <=? 127)%Z
  end.
Definition parse_scalar (old : D) (l : stream) : res (D * stream) :=
  match l with
  | Nil :: l' => Done (old, l')
  | TInt z :: l' => Done (of_int z, l')
  | TFloat d :: l' => Done (d, l')
  | _ => Thrown
  end.
Definition parse_value (t : atype) (old : value) (l : stream) : res (value * stream) :=
  match t, old with
  | A_id, V_int _ | A_int8, V_int _ =>
      match l with
      | Nil :: l' => Done (old, l')
      | TInt z :: l' => if int_range t z then Done (V_int z, l') else Thrown
      | _ => Thrown
      end
  | A_double, V_double d => bindR (parse_scalar d l) (fun r => Done (V_double (fst r), snd r))
  | A_double3, V_double3 a b c =>
      match l with
      | Nil :: l' => Done (old, l')
      | ArrayH n :: l' =>
          if n =? 3 then
            bindR (parse_scalar a l') (fun r1 => bindR (parse_scalar b (snd r1)) (fun r2 => bindR (parse_scalar c (snd r2)) (fun r3 =>
              Done (V_double3 (fst r1) (fst r2) (fst r3), snd r3))))
          else Thrown
      | _ => Thrown
      end
  | _, _ => Undef
  end.

(** 447-454: ComponentByteMeta *)
Record byte_meta := mkMeta { bm_comp : string; bm_size : nat; bm_data : stream; bm_map : bool }.
(** 763-777 *)
Fixpoint pre_count_components (n : nat) (l : stream) : res (list byte_meta * stream) :=
  match n with
  | 0 => Done ([], l)
  | S n' =>
      bindR (parse_string l) (fun r => bindR (parse_map_array false true (snd r)) (fun h => bindR (skip_objects 1 (snd r)) (fun k =>
        bindR (pre_count_components n' (snd k)) (fun rest => Done (mkMeta (fst r) (fst (fst h)) (snd r) (fst k) :: fst rest, snd rest)))))
  end.
Definition pre_count_scenario (l : stream) : res (list byte_meta * stream) :=
  bindR (parse_map_array true false l) (fun h => pre_count_components (fst (fst h)) (snd h)).
Fixpoint pre_count_scenarios (n : nat) (l : stream) : res (list (list byte_meta) * stream) :=
  match n with
  | 0 => Done ([], l)
  | S n' => bindR (pre_count_scenario l) (fun r => bindR (pre_count_scenarios n' (snd r)) (fun rest => Done (fst r :: fst rest, snd rest)))
  end.
(** 742-761; the result says whether the data is a batch *)
Definition pre_count_data (is_batch : option bool) (l : stream) : res (bool * list (list byte_meta) * stream) :=
  bindR (parse_map_array true true l) (fun h =>
    let batch := negb (snd (fst h)) in
    if match is_batch with Some b => negb (Bool.eqb b batch) | None => false end then Thrown
    else bindR (if batch then pre_count_scenarios (fst (fst h)) (snd h) else pre_count_scenarios 1 l) (fun r => Done (batch, fst r, snd r))).
(** 704-719 *)
Fixpoint read_strings (n : nat) (l : stream) : res (list string * stream) :=
  match n with
  | 0 => Done ([], l)
  | S n' => bindR (parse_string l) (fun r => bindR (read_strings n' (snd r)) (fun rest => Done (fst r :: fst rest, snd rest)))
  end.
Fixpoint read_attributes (n : nat) (l : stream) : res (list (string * list string) * stream) :=
  match n with
  | 0 => Done ([], l)
  | S n' =>
      bindR (parse_string l) (fun r => bindR (parse_map_array false true (snd r)) (fun h => bindR (read_strings (fst (fst h)) (snd h)) (fun names =>
        bindR (read_attributes n' (snd names)) (fun rest => Done ((fst r, fst names) :: fst rest, snd rest)))))
  end.
(** 635-680 *)
Record root := mkRoot {
  ro_version : option string;
  ro_type : option string;
  ro_is_batch : bool;
  ro_has_is_batch : bool;
  ro_attributes : option (list (string * list string));
  ro_data : option (list (list byte_meta)) }.
Fixpoint parse_root (n : nat) (r : root) (l : stream) : res (root * stream) :=
  match n with
  | 0 => Done (r, l)
  | S n' =>
      bindR (parse_string l) (fun k => let (key, l1) := k in
        if String.eqb key "version" then
          bindR (parse_string l1) (fun x => parse_root n' (mkRoot (Some (fst x)) (ro_type r) (ro_is_batch r) (ro_has_is_batch r) (ro_attributes r) (ro_data r)) (snd x))
        else if String.eqb key "type" then
          bindR (parse_string l1) (fun x => parse_root n' (mkRoot (ro_version r) (Some (fst x)) (ro_is_batch r) (ro_has_is_batch r) (ro_attributes r) (ro_data r)) (snd x))
        else if String.eqb key "is_batch" then
          bindR (parse_bool l1) (fun x =>
            if match ro_data r with Some _ => negb (Bool.eqb (ro_is_batch r) (fst x)) | None => false end then Thrown
            else parse_root n' (mkRoot (ro_version r) (ro_type r) (fst x) true (ro_attributes r) (ro_data r)) (snd x))
        else if String.eqb key "attributes" then
          bindR (parse_map_array true false l1) (fun h => bindR (read_attributes (fst (fst h)) (snd h)) (fun x =>
            parse_root n' (mkRoot (ro_version r) (ro_type r) (ro_is_batch r) (ro_has_is_batch r) (Some (fst x)) (ro_data r)) (snd x)))
        else if String.eqb key "data" then
          bindR (pre_count_data (if ro_has_is_batch r then Some (ro_is_batch r) else None) l1) (fun x =>
            parse_root n' (mkRoot (ro_version r) (ro_type r) (fst (fst x)) (ro_has_is_batch r) (ro_attributes r) (Some (snd (fst x)))) (snd x))
        else bindR (skip_objects 1 l1) (fun x => parse_root n' r (snd x)))
  end.

(** what is known about a component after the first pass: ComponentInfo (dataset.hpp 46-59) and msg_data_offsets_ *)
Record comp_info := mkInfo { ci_comp : nat; ci_eps : option nat; ci_total : nat; ci_msg : list byte_meta; ci_indicated : bool; ci_attributes : list nat }.
Record parsed := mkParsed { pa_meta : meta_set; pa_batch : bool; pa_size : nat; pa_infos : list comp_info; pa_attributes : list (nat * list nat) }.

(** 832-848. [seen]: the batch size that is read from [dataset_handler_]. This member is being initialised with the result of
    pre_parse() when it is read, so the value is right only if the compiler constructs the local variable [handler] of 698 in place. *)
Fixpoint adjacent_equal (l : list nat) : bool := match l with x :: ((y :: _) as l') => (x =? y) && adjacent_equal l' | _ => true end.
Definition uniform_elements (seen : nat) (counter : list nat) : res (option nat) :=
  if negb ((seen <? 2) || adjacent_equal counter) then Done None
  else if seen =? 0 then Done (Some 0)
  else match counter with c :: _ => Done (Some c) | [] => Undef end.
(** 799-830; components that are missing in a scenario have size 0 *)
Definition scenario_meta (name : string) (s : list byte_meta) : byte_meta :=
  match find (fun x => String.eqb (bm_comp x) name) s with Some x => x | None => mkMeta "" 0 [] false end.
Definition count_component (m : meta_set) (seen : nat) (counts : list (list byte_meta)) (k : nat) : res comp_info :=
  bindR (getR (nth_error (ms_comps m) k)) (fun mc =>
    let msg := map (scenario_meta (mc_name mc)) counts in
    let counter := map bm_size msg in
    bindR (uniform_elements seen counter) (fun eps =>
      let total := match eps with None => fold_right Nat.add 0 counter | Some e => e * List.length counts end in
      Done (mkInfo k eps total msg (negb (existsb bm_map msg)) []))).
(** 779-797; std::set: sorted by address *)
Definition count_data (m : meta_set) (seen : nat) (counts : list (list byte_meta)) : res (list comp_info) :=
  bindR (mapR (fun s => mapR (fun x => findR (comp_index m (bm_comp x))) s) counts) (fun ks =>
    mapR (count_component m seen counts) (filter (fun k => existsb (Nat.eqb k) (concat ks)) (seq 0 (List.length (ms_comps m))))).
(** 721-740 *)
Definition set_indications (k : nat) (attrs : list nat) (i : comp_info) : comp_info :=
  if ci_comp i =? k then if ci_indicated i then mkInfo (ci_comp i) (ci_eps i) (ci_total i) (ci_msg i) (ci_indicated i) attrs else i else i.
Definition predefined (m : meta_set) (acc : list comp_info * list (nat * list nat)) (x : string * list string) : res (list comp_info * list (nat * list nat)) :=
  bindR (findR (comp_index m (fst x))) (fun k => bindR (getR (nth_error (ms_comps m) k)) (fun mc =>
    bindR (mapR (fun name => findR (attr_index mc name)) (snd x)) (fun attrs =>
      if existsb (fun i => ci_comp i =? k) (fst acc) then Done (map (set_indications k attrs) (fst acc), map_insert k attrs (snd acc)) else Thrown))).
Variable metas : list meta_set.
(** 594-702 *)
Definition pre_parse (elide : nat -> nat) (l : stream) : res parsed :=
  bindR (parse_map_array true false l) (fun h => bindR (parse_root (fst (fst h)) (mkRoot None None false false None None) (snd h)) (fun rl =>
    let r := fst rl in
    match ro_version r, ro_type r, ro_attributes r, ro_data r with
    | Some _, Some ty, Some attrs, Some counts =>
        if negb (ro_has_is_batch r) then Thrown
        else bindR (findR (find (fun m => String.eqb (ms_name m) ty) metas)) (fun m =>
          let n := List.length counts in
          if negb (ro_is_batch r) && negb (n =? 1) then Thrown
          else bindR (count_data m (elide n) counts) (fun infos =>
            bindR (foldR (predefined m) attrs (infos, [])) (fun ia => Done (mkParsed m (ro_is_batch r) n (fst ia) (snd ia)))))
    | _, _, _, _ => Thrown
    end)).

(** ** second pass: the user gives, per component, no buffer, a row based buffer or columns *)
Inductive target := No_buffer | Row_buffer | Col_buffer (attrs : list nat).
(** 1103-1118 *)
Definition blank (mc : meta_comp) (total : nat) (t : target) : res buffer :=
  match t with
  | Col_buffer attrs => bindR (mapR (fun a => bindR (type_of mc a) (fun ty => Done (a, repeat (na ty) total))) attrs) (fun cols => Done (Cols cols))
  | _ => Done (Rows (repeat (map (fun x => na (ma_type x)) (mc_attrs mc)) total))
  end.
Definition update {A} (i : nat) (f : A -> res A) (l : list A) : res (list A) :=
  bindR (getR (nth_error l i)) (fun x => bindR (f x) (fun y => Done (upd i y l))).
(** 1051-1071: parse one attribute of element [i] in place *)
Definition parse_in_row (mc : meta_comp) (rows : list (list value)) (i a : nat) (l : stream) : res (list (list value) * stream) :=
  bindR (type_of mc a) (fun ty => bindR (row_value rows i a) (fun old => bindR (parse_value ty old l) (fun r =>
    bindR (update i (update a (fun _ => Done (fst r))) rows) (fun rows' => Done (rows', snd r))))).
Definition parse_in_col (mc : meta_comp) (cols : list (nat * list value)) (k i : nat) (l : stream) : res (list (nat * list value) * stream) :=
  bindR (getR (nth_error cols k)) (fun ac => bindR (type_of mc (fst ac)) (fun ty => bindR (getR (nth_error (snd ac) i)) (fun old => bindR (parse_value ty old l) (fun r =>
    bindR (update k (fun ac => bindR (update i (fun _ => Done (fst r)) (snd ac)) (fun col => Done (fst ac, col))) cols) (fun cols' => Done (cols', snd r)))))).
(** parse the value into attribute [a] if the buffer has it, skip it otherwise; [a] None: unknown key *)
Definition parse_attribute (mc : meta_comp) (b : buffer) (i : nat) (a : option nat) (l : stream) : res (buffer * stream) :=
  let skip := bindR (skip_objects 1 l) (fun r => Done (b, snd r)) in
  match a with
  | None => skip
  | Some a =>
      match b with
      | Rows rows => bindR (parse_in_row mc rows i a l) (fun r => Done (Rows (fst r), snd r))
      | Cols cols =>
          match find_index (fun x => fst x =? a) cols with
          | Some k => bindR (parse_in_col mc cols k i l) (fun r => Done (Cols (fst r), snd r))
          | None => skip
          end
      end
  end.
(** 991-1025 *)
Fixpoint parse_map_element (mc : meta_comp) (n : nat) (b : buffer) (i : nat) (l : stream) : res (buffer * stream) :=
  match n with
  | 0 => Done (b, l)
  | S n' => bindR (parse_string l) (fun k => bindR (parse_attribute mc b i (attr_index mc (fst k)) (snd k)) (fun r => parse_map_element mc n' (fst r) i (snd r)))
  end.
(** 1027-1049 *)
Fixpoint parse_attributes (mc : meta_comp) (attrs : list nat) (b : buffer) (i : nat) (l : stream) : res (buffer * stream) :=
  match attrs with
  | [] => Done (b, l)
  | a :: attrs' => bindR (parse_attribute mc b i (Some a) l) (fun r => parse_attributes mc attrs' (fst r) i (snd r))
  end.
(** common.hpp 35-65: no column of the buffer is among the predefined attributes *)
Definition no_overlap (b : buffer) (attrs : list nat) : bool :=
  match b with Rows _ => false | Cols cols => forallb (fun a => negb (existsb (fun x => fst x =? a) cols)) attrs end.
(** 963-989 *)
Definition parse_element (mc : meta_comp) (attrs : list nat) (b : buffer) (i : nat) (l : stream) : res (buffer * stream) :=
  bindR (parse_map_array true true l) (fun h =>
    let '(n, is_map, l1) := h in
    if is_map then parse_map_element mc n b i l1
    else if no_overlap b attrs then bindR (skip_objects 1 l) (fun r => Done (b, snd r))
    else if n =? List.length attrs then parse_attributes mc attrs b i l1 else Thrown).
Fixpoint parse_elements (mc : meta_comp) (attrs : list nat) (n : nat) (b : buffer) (i : nat) (l : stream) : res (buffer * stream) :=
  match n with
  | 0 => Done (b, l)
  | S n' => bindR (parse_element mc attrs b i l) (fun r => parse_elements mc attrs n' (fst r) (S i) (snd r))
  end.
(** 932-961 *)
Definition parse_scenario (mc : meta_comp) (attrs : list nat) (first : nat) (x : byte_meta) (b : buffer) : res buffer :=
  if bm_size x =? 0 then Done b
  else if no_overlap b attrs && negb (bm_map x) then Done b
  else bindR (parse_map_array false true (bm_data x)) (fun h => bindR (parse_elements mc attrs (bm_size x) b first (snd h)) (fun r => Done (fst r))).
Fixpoint running (acc : nat) (l : list nat) : list nat := match l with [] => [] | x :: l' => (acc + x) :: running (acc + x) l' end.
(** 850-930 *)
Definition parse_component (p : parsed) (i : comp_info) (t : target) : res (list comp_buffer) :=
  match t with
  | No_buffer | Col_buffer [] => Done []
  | _ =>
      bindR (getR (nth_error (ms_comps (pa_meta p)) (ci_comp i))) (fun mc => bindR (blank mc (ci_total i) t) (fun b =>
        let indptr := match ci_eps i with None => 0 :: running 0 (map bm_size (ci_msg i)) | Some _ => [] end in
        let attrs := match map_find (ci_comp i) (pa_attributes p) with Some l => l | None => [] end in
        let first s := match ci_eps i with None => getR (nth_error indptr s) | Some e => Done (s * e) end in
        bindR (if ci_indicated i && no_overlap b attrs then Done b
               else foldR (fun b sx => bindR (first (fst sx)) (fun f => parse_scenario mc attrs f (snd sx) b)) (combine (seq 0 (pa_size p)) (ci_msg i)) b)
          (fun b' => Done [mkBuf (ci_comp i) (ci_eps i) indptr b'])))
  end.
(** 502-512 *)
Definition parse (p : parsed) (targets : nat -> target) : res dataset :=
  bindR (mapR (fun i => parse_component p i (targets (ci_comp i))) (pa_infos p)) (fun l => Done (mkData (pa_meta p) (pa_batch p) (pa_size p) (concat l))).
End Serial.
Arguments value : clear implicits. Arguments buffer : clear implicits. Arguments comp_buffer : clear implicits. Arguments dataset : clear implicits.
Arguments token : clear implicits.
