(** What a batch dataset means, independent of the checks and of the pointer arithmetic of the code. *)
From Verif Require Import Common NatMap Datasets.
Open Scope Z_scope.

(** The sizes and offsets describe a batch of [n] scenarios: [e] elements per scenario, or offsets from 0 to the total that never decrease. *)
Definition describes (n e t : Z) (p : option (list Z)) : Prop :=
  (0 <= e /\ p = None /\ t = e * n) \/
  (e < 0 /\ exists l, p = Some l /\ nth 0 l 0 = 0 /\ nth (Z.to_nat n) l 0 = t /\ forall i, (i < Z.to_nat n)%nat -> nth i l 0 <= nth (S i) l 0).
(** The user's array of offsets is as long as the batch requires. *)
Definition readable (n : Z) (p : option (list Z)) : Prop := forall l, p = Some l -> Z.of_nat (length l) >= n + 1.

Section Spec.
Context {V : Type} (default : nat -> V) (known : nat -> bool) (known_attribute : nat -> nat -> bool).
(** Datasets that can be made by calls of the API. *)
Inductive built : @dataset V -> Prop :=
  | b_create b n d : create b n = Ok d -> built d
  | b_buffer d c e t p rows d' : built d -> add_buffer known d c e t p rows = Ok d' -> built d'
  | b_attribute d c a col d' : built d -> add_attribute_buffer known_attribute d c a col = Ok d' -> built d'.
(** The user's arrays are as long as declared. *)
Definition backed (x : @component V) : Prop :=
  match data (buf x) with
  | Some rows => total x <= Z.of_nat (length rows)
  | None => forall a col, In (a, col) (attributes (buf x)) -> match col with Some l => total x <= Z.of_nat (length l) | None => total x <= 0 end
  end.
(** Two records agree on the attributes given; the others are as by default. *)
Definition agrees (given : list nat) (full columnar : nat -> V) : Prop := forall a, columnar a = if existsb (Nat.eqb a) given then full a else default a.
End Spec.

(** Following the chain from one dataset leads to another in one or more steps. *)
Inductive leads (h : heap) : nat -> nat -> Prop :=
  | l_one p q : mfind p h = Some (Some q) -> leads h p q
  | l_more p q r : mfind p h = Some (Some q) -> leads h q r -> leads h p r.
Definition acyclic (h : heap) : Prop := forall p, ~ leads h p p.
(** every linked dataset exists *)
Definition no_dangling (h : heap) : Prop := forall p q, mfind p h = Some (Some q) -> mfind q h <> None.
Fixpoint run (h : heap) (xs : list call) : heap := match xs with [] => h | x :: xs' => run (fst (do_call h x)) xs' end.
