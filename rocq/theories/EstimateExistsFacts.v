(** Facts for the existence of state estimates: the equations without measured values. *)
From Coq Require Import Field.
From Verif Require Import Common Numbers ShortCircuit ShortCircuitFacts SquareSystem SolvableKernel LinearSE LinearSESpec LinearSEFacts EstimateOrderSpec.

Section Exists.
Context {C : Type} (o : num_ops C) (cj cabs : C -> C) (positive : C -> bool) (nonneg : C -> Prop).
Hypothesis P : se_laws o cj cabs positive nonneg.
Local Notation L := (se_num _ _ _ _ _ P).
Add Field NumFieldEx : (nl_field o (se_num _ _ _ _ _ P)).
Local Notation "a + b" := (n_add o a b) : num_scope. Local Notation "a * b" := (n_mul o a b) : num_scope. Local Notation "a - b" := (n_sub o a b) : num_scope.
Local Notation "a / b" := (n_div o a b) : num_scope. Local Notation "- a" := (n_opp o a) : num_scope.
Local Notation zero := (n_zero o). Local Notation one := (n_one o).
Local Open Scope num_scope.
Variables (real : C -> C) (np n : nat).
Local Notation direction := (phase_shift o cabs positive).
Local Notation volts := (nat -> nat -> C).
Local Notation residuals e := (LinearSESpec.residuals o cj real direction np n (pr_branches e) (pr_bus e) (pr_shunts e) (pr_branch e) (pr_shunt e) (pr_y e) (pr_voltage e) (pr_power e) (pr_current e) (pr_shunt_power e) (pr_injection e)).
Local Notation solution e := (LinearSE.solution o cj cabs positive real np n (pr_branches e) (pr_bus e) (pr_shunts e) (pr_branch e) (pr_shunt e) (pr_y e) (pr_voltage e) (pr_power e) (pr_current e) (pr_shunt_power e) (pr_injection e)).
Local Notation gain_block e := (LinearSE.gain_block o cj np (pr_branches e) (pr_bus e) (pr_shunts e) (pr_branch e) (pr_shunt e) (pr_y e) (pr_voltage e) (pr_power e) (pr_current e) (pr_shunt_power e) (pr_injection e)).
Local Notation rhs_block e := (LinearSE.rhs_block o cj cabs positive real np (pr_branches e) (pr_bus e) (pr_shunts e) (pr_branch e) (pr_shunt e) (pr_voltage e) (pr_power e) (pr_current e) (pr_shunt_power e) (pr_injection e)).
Local Notation problem_ok e := (branches_ok n (pr_bus e)).
Local Notation usable_measurements e := (measurements_ok o nonneg (pr_voltage e) (pr_power e) (pr_current e) (pr_shunt_power e) (pr_injection e)).
Local Notation injected e := (LinearSESpec.injected o np n (pr_y e)).

(** ** The same problem with every measured value zero *)
Definition blank (m : rand (C := C)) : rand (C := C) := mkRand (fun _ => zero) (variance m).
Definition blank_voltage (m : voltage_measurement (C := C)) : voltage_measurement (C := C) := mkVolt true (fun _ => zero) (volt_var m).
Definition blank_problem (e : problem C) : problem C :=
  mkProblem _ (pr_branches e) (pr_bus e) (pr_shunts e) (pr_branch e) (pr_shunt e) (pr_y e)
    (fun b => option_map blank_voltage (pr_voltage e b)) (fun k s => option_map blank (pr_power e k s)) (fun k s => option_map (fun m => (global_angle, blank (snd m))) (pr_current e k s))
    (fun k => option_map blank (pr_shunt_power e k)) (fun b => option_map blank (pr_injection e b)).
Lemma blank_usable e : usable_measurements e -> usable_measurements (blank_problem e).
Proof.
  intros M. constructor; cbn [blank_problem pr_voltage pr_power pr_current pr_shunt_power pr_injection].
  - intros b m. destruct (pr_voltage e b) as [m0|] eqn:E; intros H; [|discriminate]. injection H as <-. exact (ok_voltage _ _ _ _ _ _ _ M b m0 E).
  - intros k s m p. destruct (pr_power e k s) as [m0|] eqn:E; intros H; [|discriminate]. injection H as <-. exact (ok_power _ _ _ _ _ _ _ M k s m0 p E).
  - intros k s t m p. destruct (pr_current e k s) as [[t0 m0]|] eqn:E; intros H; [|discriminate]. injection H as <- <-. exact (ok_current _ _ _ _ _ _ _ M k s t0 m0 p E).
  - intros k m p. destruct (pr_shunt_power e k) as [m0|] eqn:E; intros H; [|discriminate]. injection H as <-. exact (ok_shunt _ _ _ _ _ _ _ M k m0 p E).
  - intros b m p. destruct (pr_injection e b) as [m0|] eqn:E; intros H; [|discriminate]. injection H as <-. exact (ok_injection _ _ _ _ _ _ _ M b m0 p E).
Qed.
Lemma blank_gain e row col : gain_block (blank_problem e) row col = gain_block e row col.
Proof.
  unfold LinearSE.gain_block. cbn [blank_problem pr_branches pr_bus pr_shunts pr_branch pr_shunt pr_y pr_voltage pr_power pr_current pr_shunt_power pr_injection].
  assert (V : gain_voltage o (fun b => option_map blank_voltage (pr_voltage e b)) row col = gain_voltage o (pr_voltage e) row col) by (unfold gain_voltage; destruct (pr_voltage e row); reflexivity).
  assert (Qb : forall i j, q_block o (pr_y e) (fun b => option_map blank (pr_injection e b)) i j = q_block o (pr_y e) (pr_injection e) i j) by (intros i j; unfold q_block; destruct (pr_injection e i); reflexivity).
  assert (Rb : r_block o (fun b => option_map blank (pr_injection e b)) row col = r_block o (pr_injection e) row col) by (unfold r_block; destruct (row =? col), (pr_injection e row); reflexivity).
  rewrite V, !Qb, Rb. f_equal. generalize (gain_voltage o (pr_voltage e) row col). generalize (elements (pr_branches e) (pr_bus e) (pr_shunts e) row col).
  induction l as [|x l IH]; intros t; cbn [fold_left]; [reflexivity|]. rewrite <- IH. f_equal. destruct x as [k|k b0 b1]; cbn [gain_element].
  - destruct (pr_shunt_power e k); reflexivity.
  - assert (B : forall s, branch_variances (fun k s => option_map blank (pr_power e k s)) (fun k s => option_map (fun m => (global_angle, blank (snd m))) (pr_current e k s)) k s = branch_variances (pr_power e) (pr_current e) k s)
      by (intros s; unfold branch_variances; destruct (pr_power e k s), (pr_current e k s) as [[? ?]|]; reflexivity).
    cbn [fold_left]. rewrite !B. reflexivity.
Qed.
Lemma zero_current w : cj (zero / w) = zero.
Proof. rewrite (div_inv o cj cabs positive nonneg P). replace (zero * n_inv o w) with zero by ring. apply (cj_zero o cj cabs positive nonneg P). Qed.
Lemma through_zero y (z : nat -> C) p : (forall q, q < np -> z q = zero) -> LinearSESpec.through o np y z p = zero.
Proof. intros H. apply (nsum_zero o L). intros q Hq. apply in_seq in Hq. rewrite H by lia. ring. Qed.
Lemma flow_zero e k s p : LinearSESpec.flow o np (pr_bus e) (pr_branch e) (fun _ _ => zero) k s p = zero.
Proof. unfold LinearSESpec.flow. destruct (pr_bus e k false), (pr_bus e k true); rewrite ?through_zero by reflexivity; ring. Qed.
Lemma injected_zero e z b p : (forall b p, b < n -> p < np -> z b p = zero) -> injected e z b p = zero.
Proof. intros H. apply (nsum_zero o L). intros j Hj. apply in_seq in Hj. apply through_zero. intros q Hq. apply H; lia. Qed.
(** Every residual has one without measured value, and those are zero without voltages. *)
Lemma blank_residual e u u' f v : In (f, v) (residuals e u) -> exists f0, In (f0, v) (residuals (blank_problem e) u') /\ forall x y, f x - f y = f0 x - f0 y.
Proof.
  unfold LinearSESpec.residuals. cbn [blank_problem pr_branches pr_bus pr_shunts pr_branch pr_shunt pr_y pr_voltage pr_power pr_current pr_shunt_power pr_injection].
  rewrite !in_app_iff. intros [H|[H|[H|H]]]; apply in_flat_map in H as (b & Hb & H).
  - destruct (pr_voltage e b) as [m|] eqn:E; [|contradiction]. apply in_map_iff in H as (p & H & Hp). injection H as <- <-. eexists. split.
    + apply in_app_iff. left. apply in_flat_map. exists b. split; [exact Hb|]. rewrite E. cbn [option_map]. apply in_map_iff. exists p. split; [reflexivity|exact Hp].
    + intros x y. cbn beta. ring.
  - apply in_flat_map in H as (s & Hs & H). apply in_flat_map in H as (m & Hm & H). apply in_map_iff in H as (p & H & Hp). injection H as <- <-.
    exists (fun z : volts => LinearSESpec.flow o np (pr_bus e) (pr_branch e) z b s p - zero). split; [|intros x y; ring].
    apply in_app_iff. right. apply in_app_iff. left. apply in_flat_map. exists b. split; [exact Hb|]. apply in_flat_map. exists s. split; [exact Hs|].
    unfold LinearSESpec.flows in Hm |- *. apply in_app_iff in Hm as [Hm|Hm].
    + destruct (pr_power e b s) as [m0|]; [|contradiction]. destruct Hm as [<-|[]]. cbn [option_map]. apply in_flat_map. eexists. split; [apply in_app_iff; left; left; reflexivity|]. apply in_map_iff. exists p. cbn [fst snd blank value variance].
      split; [|exact Hp]. unfold LinearSESpec.current_of. rewrite zero_current. reflexivity.
    + destruct (pr_current e b s) as [[t m0]|]; [|contradiction]. cbn [option_map snd]. apply in_flat_map. eexists. split; [apply in_app_iff; right; left; reflexivity|]. apply in_map_iff. exists p. split; [|exact Hp].
      destruct t; destruct Hm as [<-|[]]; reflexivity.
  - apply in_flat_map in H as (k & Hk & H). destruct (pr_shunt_power e k) as [m|] eqn:E; [|contradiction]. apply in_map_iff in H as (p & H & Hp). injection H as <- <-. eexists. split.
    + apply in_app_iff. right. apply in_app_iff. right. apply in_app_iff. left. apply in_flat_map. exists b. split; [exact Hb|]. apply in_flat_map. exists k. split; [exact Hk|]. rewrite E. cbn [option_map]. apply in_map_iff. exists p. split; [reflexivity|exact Hp].
    + intros x y. cbn beta. ring.
  - destruct (pr_injection e b) as [m|] eqn:E; [|contradiction]. apply in_map_iff in H as (p & H & Hp). injection H as <- <-. eexists. split.
    + apply in_app_iff. right. apply in_app_iff. right. apply in_app_iff. right. apply in_flat_map. exists b. split; [exact Hb|]. rewrite E. cbn [option_map]. apply in_map_iff. exists p. split; [reflexivity|exact Hp].
    + intros x y. cbn beta. ring.
Qed.
Lemma blank_residual_zero e u f v : In (f, v) (residuals (blank_problem e) u) -> f (fun _ _ => zero) = zero.
Proof.
  unfold LinearSESpec.residuals. cbn [blank_problem pr_branches pr_bus pr_shunts pr_branch pr_shunt pr_y pr_voltage pr_power pr_current pr_shunt_power pr_injection].
  rewrite !in_app_iff. intros [H|[H|[H|H]]]; apply in_flat_map in H as (b & Hb & H).
  - destruct (pr_voltage e b) as [m|] eqn:E; [|contradiction]. cbn [option_map] in H. apply in_map_iff in H as (p & H & Hp). injection H as <- _. unfold LinearSESpec.seen. rewrite E. cbn. ring.
  - apply in_flat_map in H as (s & Hs & H). apply in_flat_map in H as (m & Hm & H). apply in_map_iff in H as (p & H & Hp). injection H as <- _. rewrite flow_zero.
    assert (Z : fst (m p) = zero). { unfold LinearSESpec.flows in Hm. apply in_app_iff in Hm as [Hm|Hm]; [destruct (pr_power e b s)|destruct (pr_current e b s)]; cbn [option_map] in Hm; try contradiction; destruct Hm as [<-|[]]; cbn; [apply zero_current|reflexivity]. }
    rewrite Z. ring.
  - apply in_flat_map in H as (k & Hk & H). destruct (pr_shunt_power e k) as [m|] eqn:E; [|contradiction]. cbn [option_map] in H. apply in_map_iff in H as (p & H & Hp). injection H as <- _.
    rewrite through_zero by reflexivity. unfold LinearSESpec.current_of. cbn [blank value]. rewrite zero_current. ring.
  - destruct (pr_injection e b) as [m|] eqn:E; [|contradiction]. cbn [option_map] in H. apply in_map_iff in H as (p & H & Hp). injection H as <- _.
    rewrite injected_zero by reflexivity. unfold LinearSESpec.current_of. cbn [blank value]. rewrite zero_current. ring.
Qed.
Lemma through_minus y (z x : nat -> C) p : LinearSESpec.through o np y (fun q => z q - x q) p = LinearSESpec.through o np y z p - LinearSESpec.through o np y x p.
Proof. unfold LinearSESpec.through. rewrite <- (nsum_sub o L). apply nsum_ext. intros q0 _. ring. Qed.
Lemma blank_residual_linear e u f v y z : In (f, v) (residuals (blank_problem e) u) -> f (LinearSEFacts.minus o y z) = f y - f z.
Proof.
  unfold LinearSESpec.residuals. cbn [blank_problem pr_branches pr_bus pr_shunts pr_branch pr_shunt pr_y pr_voltage pr_power pr_current pr_shunt_power pr_injection].
  rewrite !in_app_iff. intros [H|[H|[H|H]]]; apply in_flat_map in H as (b & Hb & H).
  - destruct (pr_voltage e b) as [m|] eqn:E; [|contradiction]. cbn [option_map] in H. apply in_map_iff in H as (p & H & Hp). injection H as <- _. unfold LinearSESpec.seen, LinearSEFacts.minus. rewrite E. cbn. ring.
  - apply in_flat_map in H as (s & Hs & H). apply in_flat_map in H as (m & Hm & H). apply in_map_iff in H as (p & H & Hp). injection H as <- _.
    assert (Z : fst (m p) = zero). { unfold LinearSESpec.flows in Hm. apply in_app_iff in Hm as [Hm|Hm]; [destruct (pr_power e b s)|destruct (pr_current e b s)]; cbn [option_map] in Hm; try contradiction; destruct Hm as [<-|[]]; cbn; [apply zero_current|reflexivity]. }
    rewrite Z. unfold LinearSESpec.flow, LinearSEFacts.minus. destruct (pr_bus e b false), (pr_bus e b true); rewrite ?through_minus; ring.
  - apply in_flat_map in H as (k & Hk & H). destruct (pr_shunt_power e k) as [m|] eqn:E; [|contradiction]. cbn [option_map] in H. apply in_map_iff in H as (p & H & Hp). injection H as <- _.
    unfold LinearSEFacts.minus. rewrite through_minus. unfold LinearSESpec.current_of. cbn [blank value]. rewrite zero_current. ring.
  - destruct (pr_injection e b) as [m|] eqn:E; [|contradiction]. cbn [option_map] in H. apply in_map_iff in H as (p & H & Hp). injection H as <- _.
    rewrite (injected_minus o cj cabs positive nonneg P). unfold LinearSESpec.current_of. cbn [blank value]. rewrite zero_current. ring.
Qed.
(** Also every residual without measured value comes from one with. *)
Lemma unblank_residual e u u' f0 v : In (f0, v) (residuals (blank_problem e) u') -> exists f, In (f, v) (residuals e u) /\ forall x y, f x - f y = f0 x - f0 y.
Proof.
  unfold LinearSESpec.residuals. cbn [blank_problem pr_branches pr_bus pr_shunts pr_branch pr_shunt pr_y pr_voltage pr_power pr_current pr_shunt_power pr_injection].
  rewrite !in_app_iff. intros [H|[H|[H|H]]]; apply in_flat_map in H as (b & Hb & H).
  - destruct (pr_voltage e b) as [m|] eqn:E; [|contradiction]. cbn [option_map] in H. apply in_map_iff in H as (p & H & Hp). injection H as <- <-. eexists. split.
    + apply in_app_iff. left. apply in_flat_map. exists b. split; [exact Hb|]. rewrite E. apply in_map_iff. exists p. split; [reflexivity|exact Hp].
    + intros x y. cbn beta. ring.
  - apply in_flat_map in H as (s & Hs & H). apply in_flat_map in H as (m & Hm & H). apply in_map_iff in H as (p & H & Hp). injection H as <- <-.
    unfold LinearSESpec.flows in Hm. apply in_app_iff in Hm as [Hm|Hm].
    + destruct (pr_power e b s) as [m0|] eqn:E; [|contradiction]. cbn [option_map] in Hm. destruct Hm as [<-|[]]. eexists. split.
      * apply in_app_iff. right. apply in_app_iff. left. apply in_flat_map. exists b. split; [exact Hb|]. apply in_flat_map. exists s. split; [exact Hs|].
        unfold LinearSESpec.flows. rewrite E. apply in_flat_map. eexists. split; [apply in_app_iff; left; left; reflexivity|]. apply in_map_iff. exists p. split; [reflexivity|exact Hp].
      * intros x y. cbn beta. ring.
    + destruct (pr_current e b s) as [[t m0]|] eqn:E; [|contradiction]. cbn [option_map snd] in Hm. destruct Hm as [<-|[]].
      destruct t; (eexists; split;
        [apply in_app_iff; right; apply in_app_iff; left; apply in_flat_map; exists b; split; [exact Hb|]; apply in_flat_map; exists s; split; [exact Hs|];
         unfold LinearSESpec.flows; rewrite E; apply in_flat_map; eexists; split; [apply in_app_iff; right; left; reflexivity|]; apply in_map_iff; exists p; split; [reflexivity|exact Hp]
        |intros x y; cbn beta; ring]).
  - apply in_flat_map in H as (k & Hk & H). destruct (pr_shunt_power e k) as [m|] eqn:E; [|contradiction]. cbn [option_map] in H. apply in_map_iff in H as (p & H & Hp). injection H as <- <-. eexists. split.
    + apply in_app_iff. right. apply in_app_iff. right. apply in_app_iff. left. apply in_flat_map. exists b. split; [exact Hb|]. apply in_flat_map. exists k. split; [exact Hk|]. rewrite E. apply in_map_iff. exists p. split; [reflexivity|exact Hp].
    + intros x y. cbn beta. ring.
  - destruct (pr_injection e b) as [m|] eqn:E; [|contradiction]. cbn [option_map] in H. apply in_map_iff in H as (p & H & Hp). injection H as <- <-. eexists. split.
    + apply in_app_iff. right. apply in_app_iff. right. apply in_app_iff. right. apply in_flat_map. exists b. split; [exact Hb|]. rewrite E. apply in_map_iff. exists p. split; [reflexivity|exact Hp].
    + intros x y. cbn beta. ring.
Qed.
(** The right-hand sides without measured values are zero. *)
Lemma dot3v_zero a w v p : (forall p, v p = zero) -> LinearSE.dot3v o np a w v p = zero.
Proof. intros H. apply (nsum_zero o L). intros k _. rewrite H. ring. Qed.
Lemma blank_rhs e u b p : eta (rhs_block (blank_problem e) u b) p = zero /\ tau (rhs_block (blank_problem e) u b) p = zero.
Proof.
  split; cbn [LinearSE.rhs_block eta tau blank_problem pr_branches pr_bus pr_shunts pr_branch pr_shunt pr_y pr_voltage pr_power pr_current pr_shunt_power pr_injection].
  - match goal with |- fold_left ?F ?l ?v p = zero => assert (H : forall p, v p = zero); [|revert p H; generalize v; generalize l] end.
    { intros q. destruct (pr_voltage e b) as [m|] eqn:E; cbn [option_map]; [|reflexivity]. unfold linearize. rewrite E. cbn [option_map full volt blank_voltage]. rewrite (div_inv o cj cabs positive nonneg P). ring. }
    induction l as [|x l IH]; intros v q Hv; cbn [fold_left]; [apply Hv|]. apply IH. clear IH q. intros q.
    destruct x as [k|k b0 b1]; cbn [rhs_element].
    + destruct (pr_shunt_power e k) as [m|]; cbn [option_map]; [|apply Hv]. unfold vminus. rewrite Hv, dot3v_zero; [ring|]. intros r0. cbn [power_to_current value blank]. apply zero_current.
    + assert (B : forall s v, (forall q, v q = zero) -> forall q, fold_left (fun v c => vadd o v (LinearSE.dot3v o np (hermitian cj (pr_branch e k s b0)) (diagonal_inverse o (variance c)) (value c)))
          (branch_currents o cj cabs positive real (pr_bus e) (fun b => option_map blank_voltage (pr_voltage e b)) (fun k s => option_map blank (pr_power e k s)) (fun k s => option_map (fun m => (global_angle, blank (snd m))) (pr_current e k s)) u k s) v q = zero).
      { clear q v Hv. intros s v Hv. unfold branch_currents.
        match goal with |- forall q, fold_left _ ?cs _ _ = _ => assert (Hc : forall c, In c cs -> forall r0, value c r0 = zero) end.
        { intros c Hc. apply in_app_iff in Hc as [Hc|Hc]; [destruct (pr_power e k s)|destruct (pr_current e k s)]; cbn [option_map] in Hc; try contradiction; destruct Hc as [<-|[]]; intros r0; [apply zero_current|reflexivity]. }
        revert v Hv Hc. match goal with |- forall v, _ -> (forall c, In c ?cs -> _) -> _ => generalize cs end. induction l0 as [|c l0 IH]; intros v Hv Hc q; cbn [fold_left]; [apply Hv|].
        apply IH; [|intros; apply Hc; [right; assumption]]. intros r0. unfold vadd. rewrite Hv, dot3v_zero; [ring|]. apply Hc. now left. }
      cbn [fold_left]. apply B. intros r0. apply B. exact Hv.
  - destruct (pr_injection e b) as [m|]; cbn [option_map]; [|reflexivity]. cbn [power_to_current value blank]. apply zero_current.
Qed.
(** ** The equations without measured values *)
Definition unforced (e : problem C) (x phi : volts) : Prop := forall b p, b < n -> p < np ->
  nsum o (map (fun j => dot o np (g (gain_block e b j)) (x j) p + dot o np (qh (gain_block e b j)) (phi j) p) (seq 0 n)) = zero /\
  nsum o (map (fun j => dot o np (q (gain_block e b j)) (x j) p + dot o np (r (gain_block e b j)) (phi j) p) (seq 0 n)) = zero.
Lemma unforced_blank e u x phi : unforced e x phi <-> solution (blank_problem e) u x phi.
Proof.
  unfold unforced, LinearSE.solution. split; intros H b p Hb Hp; destruct (H b p Hb Hp) as [H1 H2]; destruct (blank_rhs e u b p) as [R1 R2].
  - rewrite R1, R2. split; [rewrite <- H1|rewrite <- H2]; apply nsum_ext; intros j _; rewrite (blank_gain e b j); reflexivity.
  - rewrite R1 in H1. rewrite R2 in H2. split; [rewrite <- H1|rewrite <- H2]; apply nsum_ext; intros j _; rewrite (blank_gain e b j); reflexivity.
Qed.
Lemma dot_add t (x y : nat -> C) p : dot o np t (fun q => x q + y q) p = dot o np t x p + dot o np t y p.
Proof. unfold dot. rewrite <- (nsum_add o L). apply nsum_ext. intros q0 _. ring. Qed.
Lemma add_unforced e u x phi d psi : solution e u x phi -> unforced e d psi -> solution e u (fun b p => x b p + d b p) (fun b p => phi b p + psi b p).
Proof.
  intros H K b p Hb Hp. destruct (H b p Hb Hp) as [H1 H2]. destruct (K b p Hb Hp) as [K1 K2]. rewrite <- H1, <- H2. split.
  - match goal with |- ?a = ?c => transitivity (c + zero); [|ring] end. rewrite <- K1, <- (nsum_add o L). apply nsum_ext. intros j _. rewrite !dot_add. ring.
  - match goal with |- ?a = ?c => transitivity (c + zero); [|ring] end. rewrite <- K2, <- (nsum_add o L). apply nsum_ext. intros j _. rewrite !dot_add. ring.
Qed.
Lemma sub_unforced e u x phi y psi : solution e u x phi -> solution e u y psi -> unforced e (fun b p => x b p - y b p) (fun b p => phi b p - psi b p).
Proof.
  intros H K b p Hb Hp. destruct (H b p Hb Hp) as [H1 H2]. destruct (K b p Hb Hp) as [K1 K2]. split.
  - transitivity (eta (rhs_block e u b) p - eta (rhs_block e u b) p); [|ring]. rewrite <- H1 at 1. rewrite <- K1, <- (nsum_sub o L). apply nsum_ext. intros j _.
    rewrite !(LinearSEFacts.dot_sub o cj cabs positive nonneg P). ring.
  - transitivity (tau (rhs_block e u b) p - tau (rhs_block e u b) p); [|ring]. rewrite <- H2 at 1. rewrite <- K2, <- (nsum_sub o L). apply nsum_ext. intros j _.
    rewrite !(LinearSEFacts.dot_sub o cj cabs positive nonneg P). ring.
Qed.
(** ** As many equations as unknowns *)
Hypothesis eqdec : forall a b : C, {a = b} + {a <> b}.
Definition block (e : problem C) (i j : nat) : tensor :=
  if i <? n then if j <? n then g (gain_block e i j) else qh (gain_block e i (j - n))
  else if j <? n then q (gain_block e (i - n) j) else r (gain_block e (i - n) (j - n)).
Definition upper (z : volts) : volts := z.
Definition lower (z : volts) : volts := fun b => z (n + b)%nat.
Lemma seq_moved m : forall a, seq (n + a) m = map (fun j => n + j)%nat (seq a m).
Proof. induction m as [|m IH]; intros a; cbn [seq map]; [reflexivity|]. f_equal. rewrite <- IH. f_equal. lia. Qed.
Lemma both_rows e z b p : b < n ->
  nsum o (map (fun j => dot o np (block e b j) (z j) p) (seq 0 (n + n))) =
    nsum o (map (fun j => dot o np (g (gain_block e b j)) (upper z j) p + dot o np (qh (gain_block e b j)) (lower z j) p) (seq 0 n)) /\
  nsum o (map (fun j => dot o np (block e (n + b) j) (z j) p) (seq 0 (n + n))) =
    nsum o (map (fun j => dot o np (q (gain_block e b j)) (upper z j) p + dot o np (r (gain_block e b j)) (lower z j) p) (seq 0 n)).
Proof.
  intros Hb. rewrite seq_app, !map_app, !(nsum_app o L). rewrite <- (Nat.add_0_r (0 + n)). rewrite (Nat.add_0_l n). rewrite seq_moved, !map_map, !(nsum_add o L).
  assert (E1 : b <? n = true) by lia. assert (E2 : n + b <? n = false) by lia. assert (E3 : (n + b - n)%nat = b) by lia.
  split; f_equal; apply nsum_ext; intros j Hj; apply in_seq in Hj; unfold block, upper, lower; rewrite ?E1, ?E2, ?E3; assert (E4 : j <? n = true) by lia; assert (E5 : n + j <? n = false) by lia; assert (E6 : (n + j - n)%nat = j) by lia;
    rewrite ?E4, ?E5, ?E6; reflexivity.
Qed.
Lemma in_unknown N b p : In (b, p) (unknowns np N) <-> b < N /\ p < np.
Proof. unfold unknowns. rewrite in_prod_iff, !in_seq. lia. Qed.
Lemma unknowns_sum (m : nat -> nat -> tensor) x b p N : nsum o (map (fun j => dot o np (m b j) (x j) p) (seq 0 N)) = nsum o (map (fun jq : nat * nat => m b (fst jq) p (snd jq) * x (fst jq) (snd jq)) (unknowns np N)).
Proof.
  unfold unknowns. generalize (seq 0 N). induction l as [|j l IH]; cbn [list_prod]; [reflexivity|]. rewrite nsum_cons, IH, map_app, (nsum_app o L). f_equal.
  unfold dot. rewrite map_map. reflexivity.
Qed.
Lemma solvable_of_kernel e u : (forall x phi, unforced e x phi -> forall b p, b < n -> p < np -> x b p = zero /\ phi b p = zero) -> exists x phi, solution e u x phi.
Proof.
  intros K.
  assert (D : forall a c : nat * nat, {a = c} + {a <> c}) by (decide equality; apply Nat.eq_dec).
  destruct (solvable o L eqdec D (unknowns np (n + n)) (fun bp jq => block e (fst bp) (fst jq) (snd bp) (snd jq))
    (fun bp => if fst bp <? n then eta (rhs_block e u (fst bp)) (snd bp) else tau (rhs_block e u (fst bp - n)) (snd bp)) (unknowns_NoDup _ _)) as (x & Hx).
  { intros x H [b p] Hin. apply in_unknown in Hin as [Hb Hp]. set (z := fun b p => x (b, p)).
    assert (U : unforced e (upper z) (lower z)).
    { intros b' p' Hb' Hp'. destruct (both_rows e z b' p' Hb') as [E1 E2]. rewrite <- E1, <- E2. rewrite !unknowns_sum. split.
      - rewrite <- (H (b', p')) by (apply in_unknown; lia). cbn [fst snd]. apply nsum_ext. intros [j q0] _. reflexivity.
      - rewrite <- (H ((n + b')%nat, p')) by (apply in_unknown; lia). cbn [fst snd]. apply nsum_ext. intros [j q0] _. reflexivity. }
    destruct (b <? n) eqn:E.
    - destruct (K _ _ U b p) as [Z _]; [lia|exact Hp|]. exact Z.
    - destruct (K _ _ U (b - n)%nat p) as [_ Z]; [lia|exact Hp|]. unfold lower, z in Z. replace (n + (b - n))%nat with b in Z by lia. exact Z. }
  set (z := fun b p => x (b, p)). exists (upper z), (lower z). intros b p Hb Hp. destruct (both_rows e z b p Hb) as [E1 E2]. rewrite <- E1, <- E2. rewrite !unknowns_sum. split.
  - specialize (Hx (b, p)). cbn [fst snd] in Hx. assert (E : b <? n = true) by lia. rewrite E in Hx. rewrite <- Hx by (apply in_unknown; lia). apply nsum_ext. intros [j q0] _. reflexivity.
  - specialize (Hx ((n + b)%nat, p)). cbn [fst snd] in Hx. assert (E : n + b <? n = false) by lia. rewrite E in Hx. replace (n + b - n)%nat with b in Hx by lia. rewrite <- Hx by (apply in_unknown; lia). apply nsum_ext. intros [j q0] _. reflexivity.
Qed.
End Exists.
