(** C39: the voltages of the linear power flow satisfy the equations of the network with constant impedance loads, and the reported results describe them.
    C49: in every power flow the reported currents at a bus with a source balance. C51: what an iteration of the iterative current method achieves. *)
From Coq Require Import Field.
From Verif Require Import Common Numbers ShortCircuit PowerFlow PowerFlowSpec PowerFlowFacts.

Section Props.
Context {C : Type} (o : num_ops C) (cj cabs : C -> C) (a : C).
Hypothesis P : pf_laws o cj cabs a.
Add Field NumFieldPp : (nl_field o (pf_num o cj cabs a P)).
Local Notation "a + b" := (n_add o a b) : num_scope. Local Notation "a * b" := (n_mul o a b) : num_scope. Local Notation "a - b" := (n_sub o a b) : num_scope.
Local Notation "a / b" := (n_div o a b) : num_scope. Local Notation "- a" := (n_opp o a) : num_scope.
Local Notation zero := (n_zero o). Local Notation one := (n_one o).
Local Open Scope num_scope.
Variables (np n : nat) (ybus : nat -> nat -> tensor (C := C)) (sources loads : nat -> list nat) (y1 y0 u_ref : nat -> C) (s_spec : nat -> vec (C := C)).
Hypothesis phases : np = 1 \/ np = 3.
Local Notation load_s := (load_gen_s o cj cabs s_spec). Local Notation load_i := (load_gen_i o cj cabs s_spec).
Local Notation src_i := (source_i o cj cabs a np n ybus sources loads y1 y0 u_ref s_spec). Local Notation src_s := (source_s o cj cabs a np n ybus sources loads y1 y0 u_ref s_spec).
(** the admittances of several sources at a bus do not cancel *)
Local Notation regular := (regular o np sources y1 y0).
Local Notation currents ty u b := (map (src_i ty u b) (sources b) ++ map (load_i ty u b) (loads b)).

(** ** C49 *)
Theorem C49_balance_at_sources : forall ty u b, b < n -> sources b <> [] -> regular b -> (forall p, p < np -> u b p <> zero) ->
  kirchhoff o np n ybus u (currents ty u b) b.
Proof.
  intros ty u b Hb Hs R Hu p Hp. rewrite map_app, !map_map, (nsum_app o (pf_num _ _ _ _ P)).
  rewrite (sources_total o cj cabs a P np n ybus sources loads y1 y0 u_ref s_spec ty ty u b phases R p Hp).
  rewrite (inj_t_network o cj cabs a P np n ybus loads s_spec ty u b p (Hu p Hp)). unfold network_current, dot. ring.
Qed.
Theorem C49_power : forall ty u b, (forall p, p < np -> u b p <> zero) ->
  (forall s, power_of o cj np (u b) (src_i ty u b s) (src_s ty u b s)) /\
  (forall l, power_of o cj np (u b) (load_i ty u b l) (load_s ty u b l) /\ load_power o cabs np (ty l) (s_spec l) (u b) (load_s ty u b l)).
Proof.
  intros ty u b Hu. split.
  - intros s p Hp. reflexivity.
  - intros l. split.
    + intros p Hp. unfold PowerFlow.load_gen_i. rewrite (pf_conj_conj _ _ _ _ P). field. exact (Hu p Hp).
    + intros p Hp. unfold PowerFlow.load_gen_s. destruct (ty l); [ring| |ring]. rewrite (pf_abs _ _ _ _ P). ring.
Qed.

(** ** C39 *)
Theorem C39_linear : forall u, solves o np n (prepare_linear o cj a np n ybus sources loads y1 y0 u_ref s_spec) u ->
  forall b, b < n -> (sources b <> [] -> regular b) -> (forall p, p < np -> u b p <> zero) ->
  let ty := fun _ => const_y in
  kirchhoff o np n ybus u (currents ty u b) b /\
  (forall s, In s (sources b) -> source_law o a np (y1 s) (y0 s) (u_ref s) (u b) (src_i ty u b s) /\ power_of o cj np (u b) (src_i ty u b s) (src_s ty u b s)) /\
  (forall l, load_power o cabs np const_y (s_spec l) (u b) (load_s ty u b l) /\ power_of o cj np (u b) (load_i ty u b l) (load_s ty u b l)).
Proof.
  intros u Hsol b Hb R Hu ty.
  assert (Bal : forall p, p < np -> network_current o np n ybus u b p = nsum o (map (fun l => load_i ty u b l p) (loads b)) +
    nsum o (map (fun s => dot o np (source_y o np y1 y0 s) (source_u o a u_ref s) p - dot o np (source_y o np y1 y0 s) (u b) p) (sources b))).
  { intros p Hp. pose proof (prepare_residual o cj cabs a P np n ybus sources loads y1 y0 u_ref s_spec u b p Hb Hp) as Q.
    unfold residual in Q. rewrite (Hsol b p Hb Hp) in Q. apply (eq_sub o cj cabs a P).
    rewrite (nsum_ext o (fun l => load_i ty u b l p) (fun l => cj (s_spec l p) * u b p)).
    - match goal with |- ?x - (?y + ?z) = _ => transitivity (x - y - z); [ring|] end. rewrite <- Q. ring.
    - intros l _. rewrite (load_i_current o cj cabs a P s_spec ty u b l p (Hu p Hp)). reflexivity. }
  refine (conj _ (conj _ _)).
  - assert (D : sources b = [] \/ sources b <> []) by (destruct (sources b); [left; reflexivity|right; discriminate]). destruct D as [E|Ne].
    + rewrite E in Bal |- *. intros p Hp. cbn [map app]. rewrite map_map. specialize (Bal p Hp). unfold network_current, dot in Bal. rewrite Bal. unfold nsum at 2. cbn [map fold_right]. ring.
    + apply C49_balance_at_sources; auto.
  - intros s Hs. assert (Ne : sources b <> []) by (intros E; rewrite E in Hs; destruct Hs). split; [|destruct (C49_power ty u b Hu) as [Q _]; apply Q].
    apply (sources_ohm o cj cabs a P np n ybus sources loads y1 y0 u_ref s_spec ty ty u b phases (R Ne)); [|exact Hs].
    intros p Hp. rewrite (inj_t_network o cj cabs a P np n ybus loads s_spec ty u b p (Hu p Hp)), (Bal p Hp). ring.
  - intros l. destruct (C49_power ty u b Hu) as [_ Q]. destruct (Q l) as [Q1 Q2]. split; assumption.
Qed.

(** ** C51 *)
(** After an iteration from [u] to [u'], the grid takes what the sources give at [u'] and the loads would take at [u]. *)
Theorem C51_iteration : forall ty u u', iteration o cj cabs a np n ybus sources loads y1 y0 u_ref s_spec ty u u' ->
  forall b, b < n -> exists drawn : nat -> nat -> C,
    (forall s, In s (sources b) -> source_law o a np (y1 s) (y0 s) (u_ref s) (u' b) (drawn s)) /\
    kirchhoff o np n ybus u' (map drawn (sources b) ++ map (fun l => load_current o cj cabs s_spec (ty l) l (u b)) (loads b)) b.
Proof.
  intros ty u u' It b Hb. exists (fun s p => dot o np (source_y o np y1 y0 s) (source_u o a u_ref s) p - dot o np (source_y o np y1 y0 s) (u' b) p). split.
  - intros s Hs. apply (ohm_law o cj cabs a P np ybus sources loads y1 y0 u_ref s_spec ty ty); [exact phases|]. reflexivity.
  - intros p Hp. rewrite map_app, !map_map, (nsum_app o (pf_num _ _ _ _ P)). rewrite <- (iteration_balance o cj cabs a P np n ybus sources loads y1 y0 u_ref s_spec ty u u' b p It Hb Hp). reflexivity.
Qed.
(** At a fixed point the results describe a state of the network in which every load takes its specified power, every source follows its law and all currents balance. *)
Theorem C51_fixed_point : forall ty u, iteration o cj cabs a np n ybus sources loads y1 y0 u_ref s_spec ty u u ->
  forall b, b < n -> (sources b <> [] -> regular b) -> (forall p, p < np -> u b p <> zero) ->
  kirchhoff o np n ybus u (currents ty u b) b /\
  (forall s, In s (sources b) -> source_law o a np (y1 s) (y0 s) (u_ref s) (u b) (src_i ty u b s)) /\
  (forall l, load_power o cabs np (ty l) (s_spec l) (u b) (load_s ty u b l) /\ power_of o cj np (u b) (load_i ty u b l) (load_s ty u b l)).
Proof.
  intros ty u It b Hb R Hu.
  assert (Bal : forall p, p < np -> network_current o np n ybus u b p = nsum o (map (fun l => load_i ty u b l p) (loads b)) +
    nsum o (map (fun s => dot o np (source_y o np y1 y0 s) (source_u o a u_ref s) p - dot o np (source_y o np y1 y0 s) (u b) p) (sources b))).
  { intros p Hp. rewrite (iteration_balance o cj cabs a P np n ybus sources loads y1 y0 u_ref s_spec ty u u b p It Hb Hp).
    rewrite (nsum_ext o (fun l => load_i ty u b l p) (fun l => load_current o cj cabs s_spec (ty l) l (u b) p)); [ring|]. intros l _. apply (load_i_current o cj cabs a P). exact (Hu p Hp). }
  refine (conj _ (conj _ _)).
  - assert (D : sources b = [] \/ sources b <> []) by (destruct (sources b); [left; reflexivity|right; discriminate]). destruct D as [E|Ne].
    + rewrite E in Bal |- *. intros p Hp. cbn [map app]. rewrite map_map. specialize (Bal p Hp). unfold network_current, dot in Bal. rewrite Bal. unfold nsum at 2. cbn [map fold_right]. ring.
    + apply C49_balance_at_sources; auto.
  - intros s Hs. assert (Ne : sources b <> []) by (intros E; rewrite E in Hs; destruct Hs).
    apply (sources_ohm o cj cabs a P np n ybus sources loads y1 y0 u_ref s_spec ty ty u b phases (R Ne)); [|exact Hs].
    intros p Hp. rewrite (inj_t_network o cj cabs a P np n ybus loads s_spec ty u b p (Hu p Hp)), (Bal p Hp). ring.
  - intros l. destruct (C49_power ty u b Hu) as [_ Q]. destruct (Q l) as [Q1 Q2]. split; assumption.
Qed.
(** With loads of constant impedance only, the result of the linear power flow is a fixed point: both methods agree. *)
Theorem C51_linear_agrees : forall ty u, (forall l, ty l = const_y) ->
  solves o np n (prepare_linear o cj a np n ybus sources loads y1 y0 u_ref s_spec) u <-> iteration o cj cabs a np n ybus sources loads y1 y0 u_ref s_spec ty u u.
Proof.
  intros ty u Hty. split; intros H.
  - apply (balance_iteration o cj cabs a P). intros b p Hb Hp. pose proof (prepare_residual o cj cabs a P np n ybus sources loads y1 y0 u_ref s_spec u b p Hb Hp) as Q.
    unfold residual in Q. rewrite (H b p Hb Hp) in Q. apply (eq_sub o cj cabs a P).
    rewrite (nsum_ext o (fun l => load_current o cj cabs s_spec (ty l) l (u b) p) (fun l => cj (s_spec l p) * u b p)) by (intros l _; rewrite Hty; reflexivity).
    match goal with |- ?x - (?y + ?z) = _ => transitivity (x - z - y); [ring|] end. rewrite <- Q. ring.
  - intros b p Hb Hp. pose proof (prepare_residual o cj cabs a P np n ybus sources loads y1 y0 u_ref s_spec u b p Hb Hp) as Q.
    rewrite (iteration_balance o cj cabs a P np n ybus sources loads y1 y0 u_ref s_spec ty u u b p H Hb Hp) in Q.
    rewrite (nsum_ext o (fun l => load_current o cj cabs s_spec (ty l) l (u b) p) (fun l => cj (s_spec l p) * u b p)) in Q by (intros l _; rewrite Hty; reflexivity).
    apply (eq_sub o cj cabs a P). unfold residual in Q. rewrite Q. ring.
Qed.
(** Without conditions on the voltages: the currents of the sources and of the constant impedances balance with the grid. *)
Theorem C39_equations : forall u, solves o np n (prepare_linear o cj a np n ybus sources loads y1 y0 u_ref s_spec) u ->
  forall b, b < n -> exists drawn : nat -> nat -> C,
    (forall s, In s (sources b) -> source_law o a np (y1 s) (y0 s) (u_ref s) (u b) (drawn s)) /\
    kirchhoff o np n ybus u (map drawn (sources b) ++ map (fun l p => cj (s_spec l p) * u b p) (loads b)) b.
Proof.
  intros u Hsol b Hb. apply (C51_linear_agrees (fun _ => const_y)) in Hsol; [|reflexivity]. exact (C51_iteration _ u u Hsol b Hb).
Qed.
End Props.

(** ** A concrete case, over any numbers in which 5 is not 0 *)
(** An asymmetric calculation: a line with admittance 1 between the buses 0 and 1, two sources of 1 p.u. with admittances 1 at bus 0, a load with admittance 1 at bus 1. *)
Section Case.
Context {C : Type} (o : num_ops C) (cj cabs : C -> C) (a : C).
Hypothesis P : pf_laws o cj cabs a.
Add Field NumFieldPe : (nl_field o (pf_num o cj cabs a P)).
Local Notation "a + b" := (n_add o a b) : num_scope. Local Notation "a * b" := (n_mul o a b) : num_scope. Local Notation "a - b" := (n_sub o a b) : num_scope.
Local Notation "a / b" := (n_div o a b) : num_scope. Local Notation "- a" := (n_opp o a) : num_scope.
Local Notation zero := (n_zero o). Local Notation one := (n_one o).
Local Open Scope num_scope.
Definition ex_ybus : nat -> nat -> tensor (C := C) := fun i j p q => if p =? q then if i =? j then one else - one else zero.
Definition ex_sources (b : nat) : list nat := match b with 0 => [0; 1] | _ => [] end.
Definition ex_loads (b : nat) : list nat := match b with 1 => [0] | _ => [] end.
Definition ex_y (s : nat) : C := one.
Definition ex_s (l : nat) : vec (C := C) := fun _ => - one.
Definition ex_volt (b : nat) : vec (C := C) := phasor o a (match b with 0 => (one + one + one + one) / (one + one + one + one + one) | _ => (one + one) / (one + one + one + one + one) end).
Lemma ex_solution : one + one + one + one + one <> zero -> cj (- one) = - one ->
  solves o 3 2 (prepare_linear o cj a 3 2 ex_ybus ex_sources ex_loads ex_y ex_y ex_y ex_s) ex_volt.
Proof.
  intros F5 Hc b p Hb Hp.
  assert (F3 : one + (one + one) <> zero) by (intros Q; apply (pf_three _ _ _ _ P); rewrite <- Q; ring).
  assert (F5' : one + (one + one) * (one + one) <> zero) by (intros Q; apply F5; rewrite <- Q; ring).
  assert (R : residual o 3 2 (prepare_linear o cj a 3 2 ex_ybus ex_sources ex_loads ex_y ex_y ex_y ex_s) ex_volt b p = zero).
  { rewrite (prepare_residual o cj cabs a P) by assumption.
    unfold network_current, dot, source_y, source_u, y_ref, nsum, ex_s. rewrite Hc.
    destruct b as [|[|b]]; [| |lia]; (destruct p as [|[|[|p]]]; [| | |lia]);
    unfold ex_ybus, ex_sources, ex_loads, ex_y, ex_volt, phasor; cbn [seq map fold_right Nat.eqb flat_map app]; field; repeat split; first [exact F3|exact F5'|exact (pf_three _ _ _ _ P)]. }
  unfold residual in R. apply (eq_sub o cj cabs a P). rewrite <- R. ring.
Qed.
End Case.
