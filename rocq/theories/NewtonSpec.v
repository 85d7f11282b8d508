(** What a power flow with voltage regulators has to find, beyond PowerFlowSpec.v: the voltages, and the power of every load and generator. *)
From Verif Require Import Common Numbers NumbersPair ShortCircuit PowerFlow PowerFlowSpec NewtonRaphson.

(** The numbers: a field in which a sum of two squares is 0 only if both are and 3 is not 0, with the polar form of a complex number and a primitive third root of
    unity; what the tests of the order are used for. *)
Record newton_laws {R : Type} (o : num_ops R) (cabs arg : R * R -> R) (rcos rsin : R -> R) (gtb : R -> R -> bool) (rabs : R -> R) (tol : R) (a : R * R) : Prop := {
  nw_num : num_laws o;
  nw_real : forall x y, n_add o (n_mul o x x) (n_mul o y y) = n_zero o -> x = n_zero o /\ y = n_zero o;
  nw_three : n_add o (n_add o (n_one o) (n_one o)) (n_one o) <> n_zero o;
  nw_root : cadd o (cadd o (n_one o, n_zero o) a) (cmul o a a) = (n_zero o, n_zero o);
  nw_circle : forall t, n_add o (n_mul o (rcos t) (rcos t)) (n_mul o (rsin t) (rsin t)) = n_one o;
  nw_polar : forall z, (n_mul o (cabs z) (rcos (arg z)), n_mul o (cabs z) (rsin (arg z))) = z;
  nw_above_zero : forall t, gtb t (n_zero o) = true -> t <> n_zero o;
  nw_above_tol : forall t, gtb (rabs t) tol = true -> t <> n_zero o }.

Section Spec.
Context {R : Type} (o : num_ops R) (cabs : R * R -> R) (a : R * R).
Local Notation cxo := (pair_num o). Local Notation conj := (cconj o).
Variables (np n : nat) (ybus : nat -> nat -> nat -> nat -> R * R) (sources loads : nat -> list nat) (y1 y0 u_source : nat -> R * R).
Variables (type : nat -> load_type) (s : nat -> nat -> R * R) (status : nat -> bool) (regulators_of : nat -> list nat) (regs : nat -> regulator (R := R)).

(** [g] is a regulator that is on, of the generator [l] that is on, at the bus [b] without a source. *)
Definition regulating (b l g : nat) : Prop :=
  sources b = [] /\ In l (loads b) /\ status l = true /\ In g (regulators_of l) /\ g_status (regs g) = true.
Inductive side : Type := at_min | at_max.
Definition limit (sd : side) (g : nat) : option R := match sd with at_min => g_q_min (regs g) | at_max => g_q_max (regs g) end.
(** the sum of the reactive power of the phases *)
Definition total_q (pw : nat -> R * R) : R := nsum o (map (fun p => snd (pw p)) (seq 0 np)).
(** the generators of a bus that have a regulator, their regulators, and the sum of the limits of these, if all are given *)
Definition generators (b : nat) : list nat := filter (fun l => status l && existsb (fun g => g_status (regs g)) (regulators_of l)) (loads b).
Definition regulators (b : nat) : list nat := flat_map (fun l => if status l then filter (fun g => g_status (regs g)) (regulators_of l) else []) (loads b).
Definition limit_sum (sd : side) (b : nat) : option R :=
  fold_right (fun g t => match limit sd g, t with Some m, Some k => Some (n_add o m k) | _, _ => None end) (Some (n_zero o)) (regulators b).
(** the reactive power that the generators with a regulator give together is not outside of the limits, up to the tolerance *)
Variables (gtb : R -> R -> bool) (tol : R).
Definition within_limits (power : nat -> nat -> R * R) (b : nat) : Prop :=
  let q := nsum o (map (fun l => total_q (power l)) (generators b)) in
  (forall m, limit_sum at_max b = Some m -> gtb q (n_add o m tol) = false) /\ (forall m, limit_sum at_min b = Some m -> gtb (n_sub o m tol) q = false).
(** The voltages [u] solve the power flow: at every bus, for some currents of its sources and some currents and powers of its loads and generators,
    - the currents balance,
    - every source obeys its law,
    - the power of every load and generator without regulator is the specified power, at the voltage of its bus,
    - a generator with a regulator gives the specified active power, and either the bus has the voltage of the regulators, and if [checked] the reactive power for it
      is within the limits, or every such generator gives the reactive power of its limit, all at the lower or all at the upper one. *)
Definition power_flow (checked : Prop) (u : nat -> nat -> R * R) : Prop :=
  forall b, b < n -> exists drawn current power : nat -> nat -> R * R,
    kirchhoff cxo np n ybus u (map drawn (sources b) ++ map current (loads b)) b /\
    (forall i, In i (sources b) -> source_law cxo a np (y1 i) (y0 i) (u_source i) (u b) (drawn i)) /\
    (forall l, In l (loads b) -> power_of cxo conj np (u b) (current l) (power l)) /\
    (forall l, In l (loads b) -> (forall g, ~ regulating b l g) -> load_power cxo (fun z => (cabs z, n_zero o)) np (type l) (s l) (u b) (power l)) /\
    (forall l g, regulating b l g -> forall p, p < np -> fst (power l p) = fst (s l p)) /\
    ((forall l g, regulating b l g -> forall p, p < np -> norm2 o (u b p) = norm2 o (g_u_ref (regs g))) /\
       (checked -> (exists l g, regulating b l g) -> within_limits power b) \/
     (exists sd, forall l g, regulating b l g -> exists g', regulating b l g' /\ limit sd g' = Some (total_q (power l)))).
(** The power that is missing at a bus [b] and a phase [p], at voltages with angles [th] and magnitudes [V]: what the loads and generators give, and the sources,
    less what the grid takes. [held l] is the reactive power of a generator [l] that is held at its limit. *)
Variables (rcos rsin : R -> R) (source_y : nat -> nat -> nat -> R * R) (source_u : nat -> nat -> R * R) (held : nat -> option (nat -> R)).
Definition voltage (th V : nat -> nat -> R) (b p : nat) : R * R := (n_mul o (V b p) (rcos (th b p)), n_mul o (V b p) (rsin (th b p))).
Definition given_power (V : nat -> nat -> R) (b l p : nat) : R * R :=
  match held l, type l with
  | Some q, _ => (fst (s l p), q p)
  | None, const_pq => s l p
  | None, const_i => (n_mul o (fst (s l p)) (V b p), n_mul o (snd (s l p)) (V b p))
  | None, const_y => (n_mul o (fst (s l p)) (n_mul o (V b p) (V b p)), n_mul o (snd (s l p)) (n_mul o (V b p) (V b p)))
  end.
Definition missing_power (th V : nat -> nat -> R) (b p : nat) : R * R :=
  let u := voltage th V in
  let source i := nsum cxo (map (fun q => cmul o (source_y i p q) (csub o (source_u i q) (u b q))) (seq 0 np)) in
  let grid := nsum cxo (map (fun j => nsum cxo (map (fun q => cmul o (ybus b j p q) (u j q)) (seq 0 np))) (seq 0 n)) in
  csub o (cadd o (nsum cxo (map (fun l => given_power V b l p) (loads b))) (nsum cxo (map (fun i => cmul o (u b p) (conj (source i))) (sources b)))) (cmul o (u b p) (conj grid)).
End Spec.
