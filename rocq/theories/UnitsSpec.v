(** What values in SI units mean, said without the model's bases.  Only the shape [val] of results (one
    value, or one per phase), complex pairs and the names of the kinds of components are shared with the
    model. *)
From Coq Require Import Reals List ZArith.
From Verif Require Import Units.
Import ListNotations.
Local Open Scope R_scope.

(** something holds for the value, or for the values of every phase *)
Definition each {A : Type} (y : symmetry) (P : A -> Prop) : val y A -> Prop :=
  match y with
  | symmetric => fun x => P x
  | asymmetric => fun x => let '(a, b, c) := x in P a /\ P b /\ P c
  end.
Definition each2 {A B : Type} (y : symmetry) (P : A -> B -> Prop) : val y A -> val y B -> Prop :=
  match y with
  | symmetric => fun x x' => P x x'
  | asymmetric => fun x x' => let '(a, b, c) := x in let '(a', b', c') := x' in P a a' /\ P b b' /\ P c c'
  end.
Definition each3 {A B D : Type} (y : symmetry) (P : A -> B -> D -> Prop) : val y A -> val y B -> val y D -> Prop :=
  match y with
  | symmetric => fun x x' x'' => P x x' x''
  | asymmetric => fun x x' x'' =>
      let '(a, b, c) := x in let '(a', b', c') := x' in let '(a'', b'', c'') := x'' in
      P a a' a'' /\ P b b' b'' /\ P c c' c''
  end.

(** a symmetric result is line voltage and three-phase power, an asymmetric one voltage and power of a
    phase *)
Definition line_factor (y : symmetry) : R := match y with symmetric => sqrt 3 | asymmetric => 1 end.

(** angles are equal up to full turns *)
Definition same_angle (a b : R) : Prop := exists k : Z, a = b + IZR k * (2 * PI).

(** powers of loads and shunts are reported as consumption, of generators and sources as production *)
Definition produces (k : appliance) : R := match k with generator | source => 1 | load | shunt => -1 end.

(** sums over lists *)
Definition vzero (y : symmetry) : val y R := match y with symmetric => 0 | asymmetric => (0, 0, 0) end.
Definition total (y : symmetry) (xs : list (val y R)) : val y R := fold_right (vmap2 Rplus y) (vzero y) xs.
Definition cvzero (y : symmetry) : val y C :=
  match y with symmetric => (0, 0) | asymmetric => ((0, 0), (0, 0), (0, 0)) end.
Definition ctotal (y : symmetry) (xs : list (val y C)) : val y C := fold_right (vmap2 cadd y) (cvzero y) xs.

(** a power given for three phases, or for each, as a power per phase or for three phases *)
Definition share (from to : symmetry) : val from R -> val to R :=
  match from, to with
  | symmetric, symmetric => fun p => p
  | symmetric, asymmetric => fun p => (p / 3, p / 3, p / 3)
  | asymmetric, symmetric => fun p => let '(a, b, c) := p in a + b + c
  | asymmetric, asymmetric => fun p => p
  end.
(** how the power of a load depends on the voltage relative to the rated voltage *)
Definition voltage_dependence (t : load_type) (v : R) : R :=
  match t with const_pq => 1 | const_y => v * v | const_i => v end.

(** phases of equal magnitude, b 120 degrees behind a and c 120 degrees ahead *)
Definition balanced (x angle : val asymmetric R) : Prop :=
  let '(xa, xb, xc) := x in let '(ta, tb, tc) := angle in
  xb = xa /\ xc = xa /\ same_angle tb (ta - 2 * PI / 3) /\ same_angle tc (ta + 2 * PI / 3).
Definition balanced_phasors (x : val asymmetric C) : Prop :=
  let '(xa, xb, xc) := x in xb = cmul xa (cexp (- (2 * PI / 3))) /\ xc = cmul xa (cexp (2 * PI / 3)).

(** the positive sequence of three phasors given by magnitude and angle *)
Definition positive_sequence (m a : val asymmetric R) : C :=
  let '(ma, mb, mc) := m in let '(aa, ab, ac) := a in
  ((ma * cos aa + mb * cos (ab + 2 * PI / 3) + mc * cos (ac - 2 * PI / 3)) / 3,
   (ma * sin aa + mb * sin (ab + 2 * PI / 3) + mc * sin (ac - 2 * PI / 3)) / 3).

(** the variance of the mean of three independent quantities *)
Definition variance_of_mean (v : val asymmetric R) : R := let '(a, b, c) := v in (a + b + c) / 9.
