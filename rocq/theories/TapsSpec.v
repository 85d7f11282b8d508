(** Specification for C27 and C47. *)
From Verif Require Import Common Component TwoPort Taps.

(** the value of int8 *)
Definition int8 (z : Z) : Prop := (-128 <= z <= 127)%Z.
(** [x] is the position of the range with ends [a] and [b], in either order, that is nearest to [p]: [p] itself if it lies in the range *)
Definition between (a b x : Z) : Prop := (a <= x <= b \/ b <= x <= a)%Z.
Definition nearest (a b p x : Z) : Prop := between a b x /\ forall y, between a b y -> (Z.abs (x - p) <= Z.abs (y - p))%Z.
(** the last position that was given; the missing value is -128 *)
Definition given (p : Z) : bool := negb (p =? -128)%Z.
Definition last_given (first : Z) (ps : list Z) : Z := last (filter given ps) first.
(** the position asked for at construction: tap_pos, else tap_nom, else 0 *)
Definition first_position (i : taps_in) : Z := if given (ti_pos i) then ti_pos i else if given (ti_nom i) then ti_nom i else 0%Z.
