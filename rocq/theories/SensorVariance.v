(** Model of the weights of current measurements and of the start of a state estimation with measured angles:
    common/statistics.hpp 128-131, 140-166, 184-249, component/current_sensor.hpp 145-151, math_solver/measured_values.hpp 266-278, 290-313,
    math_solver/iterative_linear_se_solver.hpp 122-128. Simplifications as in Units.v: doubles are real numbers. No proofs here. *)
From Coq Require Import Reals List.
From Verif Require Import Units.
Import ListNotations.
Local Open Scope R_scope.

(** statistics.hpp 140-166: the variances of the real and the imaginary part *)
Definition decomposed_variance (magnitude cos_angle sin_angle magnitude_variance angle_variance : R) : R * R :=
  let cos2 := cos_angle * cos_angle in let sin2 := sin_angle * sin_angle in let m2 := magnitude * magnitude in
  (magnitude_variance * cos2 + m2 * angle_variance * sin2 + 1 / 2 * m2 * angle_variance * angle_variance * cos2 + magnitude_variance * angle_variance * sin2,
   magnitude_variance * sin2 + m2 * angle_variance * cos2 + 1 / 2 * m2 * angle_variance * angle_variance * sin2 + magnitude_variance * angle_variance * cos2).
Definition of_unit (magnitude : R) (u : C) (mv av : R) : R * R := decomposed_variance magnitude (re u) (im u) mv av.
(** PolarComplexRandVar to DecomposedComplexRandVar: 198-210, 214-231, 237-249 *)
Definition current_variances (ss cs : symmetry) (magnitude angle : val ss R) (mv av : R) : val cs R * val cs R :=
  match ss, cs return val ss R -> val ss R -> val cs R * val cs R with
  | symmetric, symmetric => fun m a => of_unit m (cexp a) mv av
  | asymmetric, asymmetric => fun m a =>
      let v := vmap2 (fun m a => of_unit m (cexp a) mv av) asymmetric m a in (vmap fst asymmetric v, vmap snd asymmetric v)
  | symmetric, asymmetric => fun m a =>
      let v := vmap (fun u => of_unit m u mv av) asymmetric (three_phases (cexp a)) in (vmap fst asymmetric v, vmap snd asymmetric v)
  | asymmetric, symmetric => fun m a =>
      let u := vmap cexp asymmetric a in
      let v := vmap2 (fun m u => of_unit m u mv av) asymmetric m (fst (fst u), cmul a1 (snd (fst u)), cmul a2 (snd u)) in
      (sum_val asymmetric (vmap fst asymmetric v) / 9, sum_val asymmetric (vmap snd asymmetric v) / 9)
  end magnitude angle.
(** 128-131 (DecomposedComplexRandVar to IndependentComplexRandVar), current_sensor.hpp 91-99, 145-151 *)
Definition current_variance (ss cs : symmetry) (u_rated : R) (i angle : val ss R) (i_sigma i_angle_sigma : R) : val cs R :=
  let base := 1 / base_current u_rated in
  let v := current_variances ss cs (vmap (fun x => x * base) ss i) angle (i_sigma * base * (i_sigma * base)) (i_angle_sigma * i_angle_sigma) in
  vmap2 Rplus cs (fst v) (snd v).

(** measured_values.hpp 271-278, 310: the mean over the buses with a measured angle; each with the measured phasor and the phase shift of the bus *)
Definition angle_of (cs : symmetry) (m : val cs C * R) : val cs R := vmap (fun u => arg (cmul u (cexp (- snd m)))) cs (fst m).
Definition mean_angle_shift (cs : symmetry) (ms : list (val cs C * R)) : val cs R :=
  let zero := match cs return val cs R with symmetric => 0 | asymmetric => (0, 0, 0) end in
  vmap (fun x => x / INR (length ms)) cs (fold_left (fun acc m => vmap2 Rplus cs acc (angle_of cs m)) ms zero).
(** iterative_linear_se_solver.hpp 125-128 *)
Definition start_voltage (cs : symmetry) (ms : list (val cs C * R)) (phase_shift : R) : val cs C := vmap (fun a => cexp (a + phase_shift)) cs (mean_angle_shift cs ms).
