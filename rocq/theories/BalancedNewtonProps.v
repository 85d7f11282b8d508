(** C61 for the Newton-Raphson power flow of a grid of symmetric components. *)
From Coq Require Import Reals Lra Field.
From Verif Require Import Common NatMap GroupedIdx Numbers NumbersPair ShortCircuit PowerFlow PowerFlowSpec YBus BalancedSpec BalancedFacts BalancedGrid BalancedProps NewtonRaphson NewtonSpec NewtonReals NewtonExamples BalancedNewton.
From Verif Require TwoPort Units UnitsFacts Ratings RatingsFacts RatingsProps LossesFacts LossesProps LossesMore SolvableFacts.
Local Open Scope R_scope.
Local Notation ro := real_num. Local Notation cxo := (pair_num real_num). Local Notation C := (NumbersPair.cx (R := R)).
Local Notation complex_ops := Ratings.complex_ops.

Lemma root_angle : TwoPort.c_rot complex_ops 4 = real_root.
Proof.
  unfold complex_ops. cbn [TwoPort.c_rot]. unfold Units.cexp, real_root. replace (IZR 4 * (PI / 6)) with (2 * (PI / 3)) by field.
  rewrite cos_2PI3, sin_2PI3. f_equal; field.
Qed.
Lemma acts_pair m y : acts_balanced (num_of complex_ops) (a120 complex_ops) m y -> acts_balanced cxo real_root m y.
Proof.
  unfold a120. rewrite root_angle. intros H x p Hp. exact (H x p Hp).
Qed.

(** A grid of symmetric components, the loads with the same power [s] in every phase, the voltage regulators without limits of reactive power. [iterations] (BalancedNewton.v) relates the number of
    iterations to the state and the voltages that the model of NewtonRaphson.v reaches ([iterations_reached]). *)
Section Newton.
Variables (tol : R) (t : math_topo) (branches : list (@branch C)) (shunts : list (C * C)).
Context {S' S'' : Type} (p1 : @model_param C S') (p3 : @model_param (nat -> nat -> C) S'').
Hypothesis params : grid_params complex_ops branches shunts p1 p3.
Variables (sources loads : nat -> list nat) (y1 y0 u_ref : nat -> C) (ty : nat -> load_type) (s : nat -> C).
Variables (status : nat -> bool) (regulators_of : nat -> list nat) (regs : nat -> regulator (R := R)).
Hypothesis no_limits : forall g, g_q_min (regs g) = None /\ g_q_max (regs g) = None.
Local Notation n := (mt_n_bus t).
Local Notation after np ybus := (iterations tol n sources loads y1 y0 u_ref ty s status regulators_of regs np ybus).
Local Notation after1 := (after 1%nat (matrix1 complex_ops t p1)). Local Notation after3 := (after 3%nat (matrix3 complex_ops t p3)).
Local Notation start1 := (linear_row ro 1 (matrix1 complex_ops t p1) sources loads (source_y cxo 1 y1 y0) (source_u cxo real_root u_ref) (fun l _ => s l) status regulators_of regs).
Local Notation start3 := (linear_row ro 3 (matrix3 complex_ops t p3) sources loads (source_y cxo 3 y1 y0) (source_u cxo real_root u_ref) (fun l _ => s l) status regulators_of regs).
Local Notation prepare3 := (prepare ro real_gtb Rabs tol 3 n (matrix3 complex_ops t p3) sources loads (source_y cxo 3 y1 y0) (source_u cxo real_root u_ref) ty (fun l _ => s l) status regulators_of regs).
(** the start gives the buses held by regulators a phase angle *)
Hypothesis start_angles : forall d, solution ro 1 n start1 d -> regulated_voltages n sources loads status regulators_of regs d.
Lemma grid_acts : forall i j, (i < n)%nat -> (j < n)%nat -> acts_balanced cxo real_root (matrix3 complex_ops t p3 i j) (matrix1 complex_ops t p1 i j 0%nat 0%nat).
Proof.
  intros i j _ _. apply acts_pair.
  exact (C61_admittance complex_ops RatingsFacts.complex_laws RatingsFacts.complex_rots SolvableFacts.abs_square_c SolvableFacts.abs_rot_c t branches shunts p1 p3 params sources loads y1 y0 u_ref s ty i j).
Qed.
Theorem C61_newton : forall k st u, after1 k st u ->
  (exists st3 v, after3 k st3 v /\ balanced_for cxo real_root n u v) /\
  (one_solution n start3 -> (forall j st' v' st'', (j < k)%nat -> after3 j st' v' -> prepare3 v' st' = Some st'' -> one_solution n (rows st'')) -> forall st3 v, after3 k st3 v -> balanced_for cxo real_root n u v).
Proof.
  intros k st u H. split.
  - destruct (newton_lift tol n _ _ sources loads y1 y0 u_ref ty s status regulators_of regs grid_acts no_limits k st u start_angles H) as (st3 & v & H3 & M). exists st3, v. split; [exact H3|]. exact (sim_u _ _ _ _ _ _ _ _ _ _ M).
  - intros ONE REG st3 v H3. pose proof (newton_all tol n _ _ sources loads y1 y0 u_ref ty s status regulators_of regs grid_acts no_limits start_angles ONE k st u st3 v REG H H3) as M. exact (sim_u _ _ _ _ _ _ _ _ _ _ M).
Qed.
End Newton.
(** the changes of the voltages, which decide about another iteration, are the same in every phase *)
Theorem C61_newton_deviation : forall n u v u' v', balanced_for cxo real_root n u v -> balanced_for cxo real_root n u' v' ->
  forall b p, (b < n)%nat -> (p < 3)%nat -> real_abs (n_sub cxo (v' b p) (v b p)) = real_abs (n_sub cxo (u' b 0%nat) (u b 0%nat)).
Proof.
  intros n u v u' v' H H' b p Hb Hp. rewrite (H b p Hb Hp), (H' b p Hb Hp). rewrite <- (rot_sub cxo _ _ real_root cx_balanced). apply abs_turned.
Qed.
(** ** A source, a line, a load of constant admittance and a generator that holds its voltage *)
Section Example.
  Definition two_ybus3 (i j p q : nat) : R * R := if (p =? q)%nat then two_ybus i j p q else (0, 0).
  Lemma two_acts i j : acts_balanced cxo real_root (two_ybus3 i j) (two_ybus i j 0%nat 0%nat).
  Proof.
    intros z p Hp. unfold two_ybus3. change (two_ybus i j p) with (two_ybus i j 0%nat). rewrite (rot_mul cxo _ _ real_root cx_balanced).
    destruct p as [|[|[|p]]]; [| | |lia]; cbn [seq map nsum fold_right Nat.eqb]; change (two_ybus i j 0%nat 1%nat) with (two_ybus i j 0%nat 0%nat); change (two_ybus i j 0%nat 2%nat) with (two_ybus i j 0%nat 0%nat); generalize (two_ybus i j 0%nat 0%nat), (rotated cxo real_root 0 z), (rotated cxo real_root 1 z), (rotated cxo real_root 2 z);
      intros [? ?] [? ?] [? ?] [? ?]; cc; f_equal; ring.
  Qed.
  Local Notation after np ybus := (iterations 0 2 two_sources two_loads two_y1 two_y1 two_u_source two_type (fun l => two_s l 0%nat) (fun _ => true) two_regulators_of two_regs np ybus).
  Lemma two_angles : forall d, solution ro 1 2 (linear_row ro 1 two_ybus two_sources two_loads (source_y cxo 1 two_y1 two_y1) (source_u cxo real_root two_u_source) (fun l _ => two_s l 0%nat) (fun _ => true) two_regulators_of two_regs) d ->
    regulated_voltages 2 two_sources two_loads (fun _ => true) two_regulators_of two_regs d.
  Proof.
    intros d H b Hb T E. destruct b as [|[|b]]; [discriminate| |lia]. injection E as Ea Eb. destruct (H 0%nat 0%nat ltac:(lia) ltac:(lia)) as [H0 _]. destruct (H 1%nat 0%nat ltac:(lia) ltac:(lia)) as [H1 _].
    cbn in H0, H1. rewrite Ea, Eb in *. lra.
  Qed.
  Example C61_newton_example : exists st v, after 3%nat two_ybus3 1%nat st v /\ forall p, (p < 3)%nat -> v 1%nat p = rotated cxo real_root p (1 / 3, 0).
  Proof.
    set (st := start_state ro real_abs real_arg real_gtb 1 2 two_ybus two_sources two_loads (source_y cxo 1 two_y1 two_y1) (source_u cxo real_root two_u_source) two_s (fun _ => true) two_regulators_of two_regs two_d0).
    set (u := start_u ro real_abs real_gtb two_sources two_loads (fun _ => true) two_regulators_of two_regs two_d0).
    assert (H : after 1%nat two_ybus 1%nat (move ro two_st1 two_d1 (-1)%Z) (phasors ro cos sin (moved ro (x two_st1) two_d1))).
    { apply (iterations_step 0 2 two_sources two_loads two_y1 two_y1 two_u_source two_type (fun l => two_s l 0%nat) (fun _ => true) two_regulators_of two_regs 1 two_ybus 0 st u); [apply iterations_start; exact two_start|reflexivity|exact two_solution|left; reflexivity]. }
    destruct (newton_lift 0 2 two_ybus two_ybus3 two_sources two_loads two_y1 two_y1 two_u_source two_type (fun l => two_s l 0%nat) (fun _ => true) two_regulators_of two_regs (fun i j _ _ => two_acts i j) (fun _ => conj eq_refl eq_refl) 1%nat _ _ two_angles H) as (st3 & v & H3 & M).
    exists st3, v. split; [exact H3|]. intros p Hp. rewrite (sim_u _ _ _ _ _ _ _ _ _ _ M 1%nat p ltac:(lia) Hp). f_equal.
    rewrite moved_phasor. cbn [two_d1 pa pb]. rewrite cos_0, sin_0. pose proof (two_u 1 0 ltac:(lia)) as U. fold u in U. 
    assert (P : phasors ro cos sin (x two_st1) 1%nat 0%nat = u 1%nat 0%nat) by (unfold phasors; apply real_polar). rewrite P, U. cc. f_equal; ring.
  Qed.
End Example.
Print Assumptions C61_newton.
Print Assumptions C61_newton_deviation.
Print Assumptions C61_newton_example.
