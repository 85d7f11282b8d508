(** What combining measurements of one quantity means. *)
From Coq Require Import QArith Qcanon.
From Verif Require Import Common Ext Statistics.
Local Open Scope nat_scope.

(** The precision of a measurement: one over its variance, zero if the variance is infinite. *)
Definition precision (v : ext) : Qc := match v with Fin q => (/ q)%Qc | _ => 0%Qc end.
Definition number (x : ext) : Qc := match x with Fin q => q | _ => 0%Qc end.
Definition total_precision (ms : list rand_var) (j : nat) : Qc := qsum (map (fun m => precision (variance m j)) ms).
Definition weighted_sum (ms : list rand_var) (i j : nat) : Qc := qsum (map (fun m => number (value m i) * precision (variance m j))%Qc ms).
(** Measurements with finite values and positive, possibly infinite, variances. *)
Definition positive (v : ext) : Prop := v = PInf \/ exists q, v = Fin q /\ (0 < q)%Qc.
Definition finite (x : ext) : Prop := exists q, x = Fin q.
Definition valid (sh : shape) (m : rand_var) : Prop := (forall i, i < n_values sh -> finite (value m i)) /\ (forall j, j < n_variances sh -> positive (variance m j)).
Definition well_shaped (sh : shape) : Prop := forall i, i < n_values sh -> owner sh i < n_variances sh.
(** Some measurement of the [j]-th quantity is usable. *)
Definition usable (ms : list rand_var) (j : nat) : Prop := exists m, In m ms /\ finite (variance m j).
Definition same (sh : shape) (a b : rand_var) : Prop := (forall i, i < n_values sh -> value a i = value b i) /\ (forall j, j < n_variances sh -> variance a j = variance b j).
Definition valid_dec (n : nat) (d : decomposed) : Prop := valid (independent_real n) (re d) /\ valid (independent_real n) (im d).
Definition same_dec (n : nat) (a b : decomposed) : Prop := same (independent_real n) (re a) (re b) /\ same (independent_real n) (im a) (im b).
(** Every component of every phase has a usable measurement. *)
Definition usable_dec (n : nat) (ds : list decomposed) : Prop := forall p, p < n -> usable (map re ds) p /\ usable (map im ds) p.
Definition all_infinite (n : nat) (d : decomposed) : Prop := forall p, p < n -> variance (re d) p = PInf /\ variance (im d) p = PInf.
