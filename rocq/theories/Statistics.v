(** Model of common/statistics.hpp 316-396 (combining measurements of one quantity) and math_solver/measured_values.hpp.
    Simplifications: doubles are [Ext.ext] (exact, with infinities); a real or complex value of one or three phases is a function of the component number, and
    [owner] tells which variance belongs to a component, so that one definition covers the eight instances of the template; views are lists. *)
From Coq Require Import QArith Qcanon.
From Verif Require Import Common Ext.
Local Open Scope nat_scope.

(** UniformRealRandVar (42-57), IndependentRealRandVar (59-83), UniformComplexRandVar (86-92), IndependentComplexRandVar (103-113) *)
Record rand_var : Type := mkVar { value : nat -> ext; variance : nat -> ext }.
Record shape : Type := mkShape { n_values : nat; n_variances : nat; owner : nat -> nat }.
Definition uniform_real (n : nat) : shape := mkShape n 1 (fun _ => 0).
Definition independent_real (n : nat) : shape := mkShape n n (fun i => i).
(** components 2p and 2p+1 are the real and the imaginary part of phase p *)
Definition uniform_complex (n : nat) : shape := mkShape (2 * n) 1 (fun _ => 0).
Definition independent_complex (n : nat) : shape := mkShape (2 * n) n (fun i => i / 2).

(** 331-343 *)
Definition zeros : nat -> ext := fun _ => Fin 0%Qc.
Definition accumulate (sh : shape) (acc : (nat -> ext) * (nat -> ext)) (m : rand_var) : (nat -> ext) * (nat -> ext) :=
  (fun j => eadd (fst acc j) (ediv (Fin 1%Qc) (variance m j)), fun i => eadd (snd acc i) (ediv (value m i) (variance m (owner sh i)))).
(** 331-351 *)
Definition combine (sh : shape) (ms : list rand_var) : rand_var :=
  let acc := fold_left (accumulate sh) ms (zeros, zeros) in
  if forallb (fun j => normal (fst acc j)) (seq 0 (n_variances sh))
  then mkVar (fun i => ediv (snd acc i) (fst acc (owner sh i))) (fun j => ediv (Fin 1%Qc) (fst acc j))
  else mkVar (snd acc) (fun _ => PInf).
(** DecomposedComplexRandVar 118-135; 356-373 *)
Record decomposed : Type := mkDec { re : rand_var; im : rand_var }.
Definition all_normal (n : nat) (f : nat -> ext) : bool := forallb (fun p => normal (f p)) (seq 0 n).
Definition combine_decomposed (n : nat) (ds : list decomposed) : decomposed :=
  let r := combine (independent_real n) (map re ds) in
  let i := combine (independent_real n) (map im ds) in
  if negb (all_normal n (variance r) && all_normal n (variance i))
  then mkDec (mkVar (value r) (fun _ => PInf)) (mkVar (value i) (fun _ => PInf)) else mkDec r i.
(** 375-396: [cabs] is the absolute value of one phase *)
Section Magnitude.
Variable cabs : ext -> ext -> ext.
Definition cabs_or_real (n : nat) (v : nat -> ext) : nat -> ext :=
  if forallb (fun p => isnan (v (2 * p + 1))) (seq 0 n) then fun p => v (2 * p) else fun p => cabs (v (2 * p)) (v (2 * p + 1)).
Definition combine_magnitude (n : nat) (ms : list rand_var) : rand_var :=
  let r := combine (uniform_real n) (map (fun m => mkVar (cabs_or_real n (value m)) (variance m)) ms) in
  mkVar (fun i => if Nat.even i then eadd (Fin 0%Qc) (value r (i / 2)) else NaN) (variance r).
End Magnitude.
