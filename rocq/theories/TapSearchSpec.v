(** What is said about the search for tap positions, independently of how it works. *)
From Verif Require Import Common Component.
From Verif Require Import TapSearch.

(** A tap changer: its ends are given (-128 means not available) and it stands between them. *)
Definition usable (t : tap) : Prop :=
  (-128 < tap_min t)%Z /\ (-128 < tap_max t)%Z /\ (Z.min (tap_min t) (tap_max t) <= tap_pos t <= Z.max (tap_min t) (tap_max t))%Z.
(** Only the position differs. *)
Definition same_range (t t' : tap) : Prop := tap_min t = tap_min t' /\ tap_max t = tap_max t'.
(** The regulated transformers exist. *)
Definition known (order : ranked) (ts : list tap) : Prop := forall rgs rg, In rgs order -> In rg rgs -> rg_trafo rg < length ts.

(** The number of positions a tap changer has in addition to its present one, at most, over the transformers of one rank. *)
Definition widest (ts : list tap) (rgs : list regulated) : nat := list_max (map (fun rg => Z.to_nat (Z.abs (tap_max (tap_at ts rg) - tap_min (tap_at ts rg)))) rgs).
Fixpoint rank_product (ts : list tap) (order : ranked) : nat :=
  match order with [] => 1 | rgs :: order' => (2 * widest ts rgs + 1) * rank_product ts order' end.

(** The position that gives the highest and lowest voltage at the controlled side. A position towards tap_max raises the voltage at the side of the tap changer, C47. *)
Definition top (t : tap) (at_tap : bool) : Z := if at_tap then tap_max t else tap_min t.
Definition bottom (t : tap) (at_tap : bool) : Z := if at_tap then tap_min t else tap_max t.

Section Bands.
Context {D : Type} (leb : D -> D -> bool).
(** IEEE comparison: a number is equal to itself, NaN is not; on numbers a total order. *)
Definition is_number (x : D) : Prop := leb x x = true.
Record order_laws : Prop := {
  ol_trans : forall x y z, leb x y = true -> leb y z = true -> leb x z = true;
  ol_total : forall x y, is_number x -> is_number y -> leb x y = true \/ leb y x = true }.
Definition in_band (v : D) (b : D * D) : Prop := leb (fst b) v = true /\ leb v (snd b) = true.
Definition below (v : D) (b : D * D) : Prop := leb v (fst b) = true /\ leb (fst b) v = false.
Definition above (v : D) (b : D * D) : Prop := leb (snd b) v = true /\ leb v (snd b) = false.
(** the voltage is in the band, or the tap changer stands at the end that corrects it best *)
Definition acceptable (v : D) (b : D * D) (t : tap) (at_tap : bool) : Prop :=
  in_band v b \/ (below v b /\ tap_pos t = top t at_tap) \/ (above v b /\ tap_pos t = bottom t at_tap).
End Bands.

(** With one regulated transformer: the number of steps from the position with the lowest voltage at the controlled side. *)
Definition height (t : tap) (at_tap : bool) (p : Z) : Z := Z.abs (p - bottom t at_tap).
Definition within (t : tap) (p : Z) : Prop := (Z.min (tap_min t) (tap_max t) <= p <= Z.max (tap_min t) (tap_max t))%Z.
(** the voltage [V] rises, or stays the same, with the height *)
Definition rises {D : Type} (leb : D -> D -> bool) (t : tap) (at_tap : bool) (V : Z -> D) : Prop :=
  forall p q, within t p -> within t q -> (height t at_tap p <= height t at_tap q)%Z -> leb (V p) (V q) = true.
