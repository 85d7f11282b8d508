(** Model of datasets: auxiliary/dataset.hpp 75-197, 202-720 and the calls of power_grid_model_c/src/dataset.cpp.
    Simplifications: names of components and attributes are numbers; a record is a function from attributes to values; the memory behind a pointer is
    the list of what lies there, so advancing a pointer drops from the list; reading beyond the list is undefined behaviour, an own outcome; Idx is
    unbounded; the alternative without exceptions [assert] is undefined behaviour as in a release build without assertions the code goes on. *)
From Verif Require Import Common NatMap.
Open Scope Z_scope.

Section Datasets.
Context {V : Type}.
Definition record : Type := nat -> V.
(** the default constructed record: everything is NaN *)
Variable default : record.
(** the components of the dataset type and their attributes (meta data) *)
Variable known : nat -> bool.
Variable known_attribute : nat -> nat -> bool.
(** the component "node" *)
Variable node : nat.

Inductive error : Type := BadBatchSize | IndptrMissing | IndptrEnds | IndptrDecreasing | IndptrUnexpected | Duplicate | BadTotal | Unknown | RowBased | NullData | NotBatch.
Inductive outcome (A : Type) : Type := Ok (x : A) | Throw (e : error) | Undefined.
Arguments Ok {A}. Arguments Throw {A}. Arguments Undefined {A}.
Definition bind {A B} (x : outcome A) (f : A -> outcome B) : outcome B := match x with Ok a => f a | Throw e => Throw e | Undefined => Undefined end.

(** 215-221; [attributes]: the attribute and its column, None is the null pointer *)
Record buffer : Type := mkBuffer { data : option (list record); attributes : list (nat * option (list V)); indptr : list Z }.
(** 46-52 *)
Record component : Type := mkComp { name : nat; eps : Z; total : Z; buf : buffer }.
Record dataset : Type := mkDataset { is_batch : bool; batch_size : Z; comps : list component }.

(** 231-243 *)
Definition create (batch : bool) (size : Z) : outcome dataset :=
  if size <? 0 then Throw BadBatchSize else if negb batch && negb (size =? 1) then Throw BadBatchSize else Ok (mkDataset batch size []).
(** 362-374 *)
Definition find_component (d : dataset) (c : nat) : option component := find (fun x => Nat.eqb (name x) c) (comps d).
(** 584-586: the first [batch_size + 1] offsets behind the pointer; undefined if there are fewer *)
Definition indptr_span (d : dataset) (p : list Z) : outcome (list Z) :=
  let n := Z.to_nat (batch_size d + 1) in if (length p <? n)%nat then Undefined else Ok (firstn n p).
(** std::ranges::adjacent_find *)
Fixpoint adjacent (bad : Z -> Z -> bool) (l : list Z) : bool :=
  match l with x :: (y :: _) as r => bad x y || adjacent bad r | _ => false end.
(** 595-615, immutable *)
Definition check_non_uniform (d : dataset) (e t : Z) (p : option (list Z)) : outcome unit :=
  if e <? 0 then
    match p with
    | None => Throw IndptrMissing
    | Some p => bind (indptr_span d p) (fun s =>
        if negb (hd 0 s =? 0) || negb (last s 0 =? t) then Throw IndptrEnds else if adjacent (fun x y => y <? x) s then Throw IndptrDecreasing else Ok tt)
    end
  else match p with None => Ok tt | Some _ => Throw IndptrUnexpected end.
(** 588-593, 617-626 *)
Definition check_component (d : dataset) (c : nat) (e t : Z) : outcome unit :=
  match find_component d c with
  | Some _ => Throw Duplicate
  | None => if (0 <=? e) && negb (e * batch_size d =? t) then Throw BadTotal else if known c then Ok tt else Throw Unknown
  end.
(** 398-412 *)
Definition add_buffer (d : dataset) (c : nat) (e t : Z) (p : option (list Z)) (rows : option (list record)) : outcome dataset :=
  bind (check_non_uniform d e t p) (fun _ => bind (check_component d c e t) (fun _ =>
    bind (match p with Some p => indptr_span d p | None => Ok [] end) (fun s => Ok (mkDataset (is_batch d) (batch_size d) (comps d ++ [mkComp c e t (mkBuffer rows [] s)]))))).
(** 628-646 *)
Definition is_some {A} (x : option A) : bool := match x with Some _ => true | None => false end.
Definition add_attribute_buffer (d : dataset) (c a : nat) (col : option (list V)) : outcome dataset :=
  match find_component d c with
  | None => Throw Unknown
  | Some x =>
    if is_some (data (buf x)) then Throw RowBased
    else if existsb (fun q => Nat.eqb (fst q) a) (attributes (buf x)) then Throw Duplicate
    else if (0 <? total x) && negb (is_some col) then Throw NullData
    else if negb (known_attribute c a) then Throw Unknown
    else Ok (mkDataset (is_batch d) (batch_size d) (map (fun y => if Nat.eqb (name y) c
           then mkComp (name y) (eps y) (total y) (mkBuffer (data (buf y)) (attributes (buf y) ++ [(a, col)]) (indptr (buf y))) else y) (comps d)))
  end.

(** ** Reading *)
(** element [i] of a column *)
Definition column_at (col : option (list V)) (i : Z) : option V := match col with Some l => if i <? 0 then None else nth_error l (Z.to_nat i) | None => None end.
(** 95-107, Proxy::get: a default record, then each attribute in turn *)
Fixpoint gather (atts : list (nat * option (list V))) (i : Z) (r : record) : option record :=
  match atts with
  | [] => Some r
  | (a, col) :: rest => match column_at col i with Some v => gather rest i (fun b => if Nat.eqb b a then v else r b) | None => None end
  end.
(** element [i] of a component; None: outside the memory *)
Definition element (b : buffer) (i : Z) : option record :=
  match data b with Some rows => if i <? 0 then None else nth_error rows (Z.to_nat i) | None => gather (attributes b) i default end.
Fixpoint elements (b : buffer) (i : Z) (n : nat) : option (list record) :=
  match n with O => Some [] | S n' => match element b i, elements b (i + 1) n' with Some r, Some l => Some (r :: l) | _, _ => None end end.
(** 648-660: the range of a scenario, begin and end; [nth_error]: offsets outside the span are undefined *)
Definition span_of (x : component) (s : Z) : option (Z * Z) :=
  if s <? 0 then Some (0, total x)
  else if eps x <? 0 then match nth_error (indptr (buf x)) (Z.to_nat s), nth_error (indptr (buf x)) (Z.to_nat (s + 1)) with Some a, Some b => Some (a, b) | _, _ => None end
  else Some (eps x * s, eps x * (s + 1)).
Definition component_view (x : component) (s : Z) : outcome (list record) :=
  match span_of x s with
  | Some (a, b) => match elements (buf x) a (Z.to_nat (b - a)) with Some l => Ok l | None => Undefined end
  | None => Undefined
  end.
(** 461-483, 556-564, 662-687; [s] = -1: everything *)
Definition view (d : dataset) (c : nat) (s : Z) : outcome (list record) :=
  if batch_size d <=? s then Undefined
  else if negb (is_batch d) && (0 <? s) then Throw NotBatch
  else match find_component d c with None => Ok [] | Some x => component_view x s end.

(** ** Parts of a batch *)
(** meta_data.hpp advance_ptr *)
Definition advance {A} (p : option (list A)) (n : Z) : option (list A) := option_map (skipn (Z.to_nat n)) p.
(** 507-523, one component *)
Definition individual_component (s : Z) (x : component) : outcome component :=
  bind (if 0 <=? eps x then Ok (eps x, eps x * s)
        else match nth_error (indptr (buf x)) (Z.to_nat s), nth_error (indptr (buf x)) (Z.to_nat (s + 1)) with Some a, Some b => Ok (b - a, a) | _, _ => Undefined end)
    (fun '(size, offset) => Ok (mkComp (name x) size size
       (mkBuffer (advance (data (buf x)) offset) (if is_some (data (buf x)) then attributes (buf x) else map (fun q => (fst q, advance (snd q) offset)) (attributes (buf x))) []))).
Fixpoint map_out {A B} (f : A -> outcome B) (l : list A) : outcome (list B) :=
  match l with [] => Ok [] | x :: l' => bind (f x) (fun y => bind (map_out f l') (fun r => Ok (y :: r))) end.
(** 499-525 *)
Definition individual (d : dataset) (s : Z) : outcome dataset :=
  if (s <? 0) || (batch_size d <=? s) then Undefined else bind (map_out (individual_component s) (comps d)) (fun cs => Ok (mkDataset false 1 cs)).
(** 309-313 *)
Definition is_dense_comp (x : component) : bool := match indptr (buf x) with [] => true | _ => false end.
Definition is_dense (d : dataset) : bool := forallb is_dense_comp (comps d).
(** 528-554 *)
Definition slice (d : dataset) (b e : Z) : outcome dataset :=
  if negb ((b <=? e) && (0 <=? b) && (e <=? batch_size d) && is_batch d && is_dense d) then Undefined
  else if b =? e then add_buffer (mkDataset true 0 []) node 0 0 None None
  else bind (individual d b) (fun r => Ok (mkDataset true (e - b) (map (fun x => mkComp (name x) (eps x) (eps x * (e - b)) (buf x)) (comps r)))).
(** 326-360 *)
Definition is_uniform_comp (x : component) : outcome bool :=
  if is_dense_comp x then Ok true
  else match indptr (buf x) with
       | a :: b :: _ => Ok (negb (adjacent (fun start stop => negb (stop - start =? b - a)) (indptr (buf x))))
       | _ => Undefined
       end.
Definition is_uniform (d : dataset) (c : nat) : outcome bool := match find_component d c with None => Ok true | Some x => is_uniform_comp x end.
Definition uniform_elements_per_scenario (d : dataset) (c : nat) : outcome Z :=
  match find_component d c with
  | None => Ok 0
  | Some x => if is_dense_comp x then Ok (eps x) else match indptr (buf x) with a :: b :: _ => Ok (b - a) | _ => Undefined end
  end.

(** ** Writing through a columnar view *)
(** 109-117, Proxy::operator=: the given attributes of element [i] *)
Definition store (atts : list (nat * option (list V))) (i : nat) (r : record) : list (nat * option (list V)) :=
  map (fun q => (fst q, option_map (fun l => upd i (r (fst q)) l) (snd q))) atts.
End Datasets.
Arguments Ok {A}. Arguments Throw {A}. Arguments Undefined {A}.

(** ** Chains of datasets *)
(** The datasets that exist, each with its pointer to the next dimension. *)
Definition heap : Type := list (nat * option nat).
Inductive walk_result : Type := Found | End | Dangling | OutOfFuel.
(** 567-573: follow the chain from [cur]; a pointer to a dataset that does not exist any more is undefined behaviour *)
Fixpoint walk (fuel : nat) (h : heap) (this : nat) (cur : option nat) : walk_result :=
  match fuel with
  | O => OutOfFuel
  | S fuel' => match cur with None => End | Some c => if Nat.eqb this c then Found else match mfind c h with Some n => walk fuel' h this n | None => Dangling end end
  end.
Inductive call : Type := Create (p : nat) | SetNext (p n : nat) | Destroy (p : nat).
Inductive reply : Type := Done | Refused | UndefinedBehaviour.
(** 566-575; dataset.cpp 105-127, 146-151. A new dataset may lie where a destroyed one was. [Create] at a place in use and [Destroy] of nothing do not occur. *)
Definition do_call (h : heap) (x : call) : heap * reply :=
  match x with
  | Create p => match mfind p h with None => (mset p None h, Done) | Some _ => (h, UndefinedBehaviour) end
  | Destroy p => match mfind p h with Some _ => (merase p h, Done) | None => (h, UndefinedBehaviour) end
  | SetNext p n =>
    match mfind p h with
    | None => (h, UndefinedBehaviour)
    | Some _ => match walk (S (S (length h))) h p (Some n) with
                | End => (mset p (Some n) h, Done) | Found => (h, Refused) | Dangling | OutOfFuel => (h, UndefinedBehaviour)
                end
    end
  end.
