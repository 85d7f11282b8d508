(** Specification for C26: the circuit of a branch, written as circuit equations, without the model's formulas. *)
From Coq Require Import Field.
From Verif Require Import Common TwoPort.

Section Spec.
Context {C : Type} (o : cx_ops C).
Local Notation "a + b" := (c_add o a b). Local Notation "a - b" := (c_sub o a b). Local Notation "a * b" := (c_mul o a b).
Local Notation zero := (c_0 o). Local Notation one := (c_1 o).

(** The laws of the complex numbers that are used. *)
Record cx_laws : Prop := {
  cl_field : field_theory (c_0 o) (c_1 o) (c_add o) (c_mul o) (c_sub o) (c_neg o) (c_div o) (c_inv o) eq;
  cl_conj_add : forall a b, c_conj o (a + b) = c_conj o a + c_conj o b;
  cl_conj_mul : forall a b, c_conj o (a * b) = c_conj o a * c_conj o b;
  cl_conj_conj : forall a, c_conj o (c_conj o a) = a;
  cl_two : one + one <> zero;
  cl_three : one + one + one <> zero;
  cl_small0 : c_small o zero = true;
  cl_eq0 : forall y, c_eq0 o y = true <-> y = zero }.
(** exp(i n 30 degrees) *)
Record rot_laws : Prop := {
  rl_0 : c_rot o 0 = one;
  rl_add : forall m n, c_rot o (m + n) = c_rot o m * c_rot o n;
  rl_half : c_rot o 6 = c_neg o one;
  rl_period : c_rot o 12 = one;
  rl_conj : forall n, c_conj o (c_rot o n) = c_rot o (- n);
  rl_three : one + c_rot o 4 + c_rot o 8 = zero }.
(** the modulus of a ratio *)
Definition ratio_ok (n : C) : Prop := n <> zero /\ c_abs o n * c_abs o n = n * c_conj o n.

(** An ideal transformer of complex ratio [n] (it conserves power: voltage times the conjugate of the current) at the from side, a series admittance, and half of the shunt
    admittance at each end. A closed switch connects a terminal to the node; behind an open switch no current flows and the terminal has a voltage of its own.
    [w], [v]: the voltages at the ends of the series admittance; [i1], [i2]: the currents into them. *)
Definition pi_circuit (from_closed to_closed : bool) (y_series y_shunt n u_from u_to i_from i_to : C) : Prop :=
  exists w v i1 i2, two o * i1 = y_shunt * w + two o * y_series * (w - v) /\ two o * i2 = y_shunt * v + two o * y_series * (v - w) /\
    (if from_closed then u_from = n * w /\ i1 = c_conj o n * i_from else i1 = zero /\ i_from = zero) /\
    (if to_closed then u_to = v /\ i_to = i2 else i2 = zero /\ i_to = zero).

(** the same with coupled phases, without transformer *)
Definition vadd (u v : @vec C) : @vec C := fun p => u p + v p.
Definition vsub (u v : @vec C) : @vec C := fun p => u p - v p.
Definition veq (u v : @vec C) : Prop := forall p, u p = v p.
Definition vscale (c : C) (u : @vec C) : @vec C := fun p => c * u p.
Definition vzero : @vec C := fun _ => zero.
Definition pi_circuit3 (from_closed to_closed : bool) (y_series y_shunt : @mat C) (u_from u_to i_from i_to : @vec C) : Prop :=
  exists w v i1 i2, veq (vscale (two o) i1) (vadd (dotv o y_shunt w) (vscale (two o) (dotv o y_series (vsub w v)))) /\
    veq (vscale (two o) i2) (vadd (dotv o y_shunt v) (vscale (two o) (dotv o y_series (vsub v w)))) /\
    (if from_closed then veq u_from w /\ veq i_from i1 else veq i1 vzero /\ veq i_from vzero) /\
    (if to_closed then veq u_to v /\ veq i_to i2 else veq i2 vzero /\ veq i_to vzero).

(** what the calculation does with the four admittances *)
Definition injects (p : two_port C) (u_from u_to i_from i_to : C) : Prop :=
  i_from = yff p * u_from + yft p * u_to /\ i_to = ytf p * u_from + ytt p * u_to.
Definition injects3 (p : two_port mat) (u_from u_to i_from i_to : @vec C) : Prop :=
  veq i_from (vadd (dotv o (yff p) u_from) (dotv o (yft p) u_to)) /\ veq i_to (vadd (dotv o (ytf p) u_from) (dotv o (ytt p) u_to)).

(** the three symmetrical components: phases b and c lag by 120 and 240 degrees, lead by them, or are equal *)
Definition positive : @vec C := fun p => match p with PhA => one | PhB => c_rot o 8 | PhC => c_rot o 4 end.
Definition negative : @vec C := fun p => match p with PhA => one | PhB => c_rot o 4 | PhC => c_rot o 8 end.
Definition equal_phases : @vec C := fun _ => one.
(** A three-phase two-port acts on voltages that are multiples of [s] as the single-phase two-port [q]. *)
Definition acts_as (p : two_port mat) (s : @vec C) (q : two_port C) : Prop :=
  forall u, veq (dotv o (yff p) (vscale u s)) (vscale (yff q * u) s) /\ veq (dotv o (yft p) (vscale u s)) (vscale (yft q * u) s) /\
    veq (dotv o (ytf p) (vscale u s)) (vscale (ytf q * u) s) /\ veq (dotv o (ytt p) (vscale u s)) (vscale (ytt q * u) s).

(** The positive sequence admittance of a matrix: the positive sequence part of the current when a positive sequence voltage of 1 is applied. *)
Definition seq1 (m : @mat C) : C :=
  let i := dotv o m positive in c_div o (i PhA + c_rot o 4 * i PhB + c_rot o 8 * i PhC) (three o).
(** a transposed line: equal entries on the diagonal, equal entries off it *)
Definition transposed (m : @mat C) : Prop := exists s c, forall p q, m p q = (if phase_eqb p q then s else c).
Definition transposed_line (b : @branch_kind C) : Prop := match b with KAsymLine ys ysh => transposed ys /\ transposed ysh | _ => True end.
(** positive sequence data of a branch: series and shunt admittance at the to side, and ratio *)
Definition positive_sequence (b : @branch_kind C) : C * C * C :=
  match b with
  | KLine y1 ysh1 _ _ => (y1, ysh1, one)
  | KLink y => (y, zero, one)
  | KGeneric y ysh n => (y, ysh, n)
  | KAsymLine ys ysh => (seq1 ys, seq1 ysh, one)
  | KTransformer t => (tp_y_series t, tp_y_shunt t, tp_k t * c_rot o (tp_clock t))
  end.
(** The zero sequence circuit of one winding that is earthed, or not, when no zero sequence current passes to the other side: the earthing impedance [z], behind it an
    admittance [y] to earth. An earthed star winding has the magnetising admittance there, and the series admittance too if the other winding is a delta;
    an earthed zigzag winding has ten times the series admittance; other windings have nothing. *)
Definition earth_path (y z u i : C) : Prop := exists v, u = z * i + v /\ i = y * v.
Definition earth_admittance (this other : winding) (y_series y0_shunt : C) : C :=
  match this, other with
  | WyeN, Delta => y0_shunt + y_series
  | WyeN, _ => y0_shunt
  | ZigZagN, _ => ten o * y_series
  | _, _ => zero
  end.
(** Where neither a delta nor a zigzag gives a path to earth, a small susceptance is added. *)
Definition added_susceptance (this other : winding) (b : C) : C :=
  match this, other with WyeN, Delta => zero | WyeN, WyeN => zero | ZigZagN, _ => zero | _, _ => b end.

(** the cases in which the circuit determines the currents, and in which the code does not take a shunt admittance below its tolerance for zero *)
Definition regular (y_series y_shunt n : C) : Prop :=
  y_series <> zero /\ y_shunt + two o * y_series <> zero /\ (y_shunt = zero \/ c_small o y_shunt = false) /\ ratio_ok n.
End Spec.
