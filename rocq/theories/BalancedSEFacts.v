(** Lifting a symmetric iterative linear state estimation to three phases. *)
From Coq Require Import Field.
From Verif Require Import Common Numbers ShortCircuit ShortCircuitFacts PowerFlow PowerFlowSpec PowerFlowFacts BalancedSpec BalancedFacts LinearSE BalancedSE.

Section Facts.
Context {C : Type} (o : num_ops C) (cj cabs : C -> C) (a : C) (positive : C -> bool) (real : C -> C).
Hypothesis B : balanced_laws o cj cabs a.
Hypothesis positive_nz : forall x, positive x = true -> x <> n_zero o.
Let P : pf_laws o cj cabs a := ba_pf o cj cabs a B.
Let L : num_laws o := pf_num o cj cabs a P.
Add Field NumFieldBS : (nl_field o L).
Local Notation "a + b" := (n_add o a b) : num_scope. Local Notation "a * b" := (n_mul o a b) : num_scope. Local Notation "a - b" := (n_sub o a b) : num_scope.
Local Notation "a / b" := (n_div o a b) : num_scope. Local Notation "- a" := (n_opp o a) : num_scope.
Local Notation zero := (n_zero o). Local Notation one := (n_one o).
Local Open Scope num_scope.
Local Notation rot := (rotated o a). Local Notation acts := (acts_balanced o a).
Local Notation unit := (BalancedFacts.unit o a).
Local Notation phase_shift := (LinearSE.phase_shift o cabs positive).
Local Notation hermitian := (LinearSE.hermitian cj).

(** a three-phase admittance that acts as [y] on balanced voltages, and its hermitian transpose as the conjugate *)
Definition like (m : tensor (C := C)) (y : C) : Prop := acts m y /\ acts (hermitian m) (cj y).
Lemma rot_inj p x y : rot p x = rot p y -> x = y.
Proof.
  rewrite !(rot_unit o cj cabs a B). intros E. transitivity (unit p * x / unit p); [field; apply (unit_nz o cj cabs a B)|]. rewrite E. field. apply (unit_nz o cj cabs a B).
Qed.
Lemma rot_mul' p x y : rot p (x * y) = rot p x * y.
Proof. rewrite !(rot_unit o cj cabs a B). ring. Qed.
Lemma rot_div p x y : y <> zero -> rot p (x / y) = rot p x / y.
Proof. intros H. rewrite !(rot_unit o cj cabs a B). field. exact H. Qed.
Lemma acts_diag c : acts (fun p q => if p =? q then c else zero) c.
Proof. intros x p Hp. unfold nsum. destruct p as [|[|[|p]]]; [| | |lia]; cbn [seq map fold_right Nat.eqb]; rewrite !(rot_unit o cj cabs a B); ring. Qed.
Lemma acts_ext3 m m' y : (forall p q, p < 3 -> q < 3 -> m p q = m' p q) -> acts m y -> acts m' y.
Proof. clear B positive_nz P L. intros E H x p Hp. rewrite <- (H x p Hp). apply nsum_ext. intros q Hq. apply in_seq in Hq. rewrite E by lia. reflexivity. Qed.
(** with the same weight in every phase *)
Lemma acts_dot3 m y w w1 m' y' : acts m y -> acts m' y' -> (forall p, p < 3 -> w p = w1) -> acts (dot3 o 3 m w m') (y * w1 * y').
Proof.
  intros H H' W x p Hp. unfold dot3.
  transitivity (nsum o (map (fun k => m p k * rot k (w1 * y' * x)) (seq 0 3))).
  - transitivity (nsum o (map (fun k => m p k * (w1 * nsum o (map (fun q => m' k q * rot q x) (seq 0 3)))) (seq 0 3))).
    + unfold nsum. cbn [seq map fold_right]. rewrite !W by lia. ring.
    + apply nsum_ext. intros k Hk. apply in_seq in Hk. rewrite (H' x k) by lia. rewrite !(rot_unit o cj cabs a B). ring.
  - rewrite H by exact Hp. f_equal. ring.
Qed.
Lemma dot3v_balanced m y w w1 v v1 p : acts m y -> (forall q, q < 3 -> w q = w1) -> (forall q, q < 3 -> v q = rot q v1) -> p < 3 ->
  dot3v o 3 m w v p = rot p (y * w1 * v1).
Proof.
  intros H W V Hp. unfold dot3v. transitivity (nsum o (map (fun k => m p k * rot k (w1 * v1)) (seq 0 3))).
  - apply nsum_ext. intros k Hk. apply in_seq in Hk. rewrite W, V by lia. rewrite !(rot_unit o cj cabs a B). ring.
  - rewrite H by exact Hp. f_equal. ring.
Qed.
Lemma dot3_one m w m' : dot3 o 1 m w m' 0 0 = m 0 0 * w 0 * m' 0 0.
Proof. unfold dot3, nsum. cbn. ring. Qed.
Lemma dot3v_one m w v : dot3v o 1 m w v 0 = m 0 0 * w 0 * v 0.
Proof. unfold dot3v, nsum. cbn. ring. Qed.
Lemma positive_abs_nz x : positive (cabs x) = true -> x <> zero /\ cabs x <> zero.
Proof.
  intros H. pose proof (positive_nz _ H) as N. split; [|exact N]. intros ->. pose proof (pf_abs o cj cabs a P zero) as E.
  assert (E' : cabs zero * cabs zero = zero) by (rewrite E; ring). apply N. transitivity (cabs zero * cabs zero / cabs zero); [field; exact N|]. rewrite E'. field. exact N.
Qed.
Lemma phase_shift_balanced p x : positive (cabs x) = true -> phase_shift (rot p x) = rot p (phase_shift x).
Proof.
  intros H. unfold LinearSE.phase_shift. rewrite (abs_rot o cj cabs a B), H. symmetry. apply rot_div. apply positive_abs_nz; exact H.
Qed.
Lemma phase_shift_nz x : positive (cabs x) = true -> phase_shift x <> zero.
Proof.
  intros H. destruct (positive_abs_nz x H) as [N N']. unfold LinearSE.phase_shift. rewrite H. intros E. apply N. transitivity (x / cabs x * cabs x); [field; exact N'|]. rewrite E. ring.
Qed.

Variables (n n_branch : nat) (branch_bus : nat -> bool -> option nat) (shunts : nat -> list nat).
Variables (branch1 branch3 : nat -> bool -> bool -> tensor (C := C)) (shunt1 shunt3 : nat -> tensor (C := C)) (ybus1 ybus3 : nat -> nat -> tensor (C := C)).
Hypothesis branch_like : forall k s b, like (branch3 k s b) (branch1 k s b 0 0).
Hypothesis shunt_like : forall k, like (shunt3 k) (shunt1 k 0 0).
Hypothesis ybus_like : forall i j, like (ybus3 i j) (ybus1 i j 0 0).
Variables (voltage1 voltage3 : nat -> option (voltage_measurement (C := C))) (power1 power3 : nat -> bool -> option (rand (C := C))).
Variables (current1 current3 : nat -> bool -> option (angle_type * rand (C := C))) (shunt_power1 shunt_power3 injection1 injection3 : nat -> option (rand (C := C))).
Hypothesis voltages : forall b, same_voltage o real a (voltage1 b) (voltage3 b).
Hypothesis powers : forall k s, same_power (power1 k s) (power3 k s).
Hypothesis currents : forall k s, same_current o a (current1 k s) (current3 k s).
Hypothesis shunt_powers : forall k, same_power (shunt_power1 k) (shunt_power3 k).
Hypothesis injections : forall b, same_power (injection1 b) (injection3 b).
(** sides with sensors are connected *)
Hypothesis connected : forall k s, power1 k s <> None \/ current1 k s <> None -> exists j, branch_bus k s = Some j /\ j < n.
(** no voltage is measured as zero *)
Hypothesis volt_nz : forall b m, voltage1 b = Some m -> volt_var m <> zero /\ if full m then positive (cabs (volt m 0)) = true else positive (cabs (real (volt m 0))) = true.
Local Notation elements := (LinearSE.elements n_branch branch_bus shunts).
Local Notation same := (balanced_for o a n).

(** ** the matrix *)
Lemma variances_same k s : Forall2 (fun v1 v3 : vec (C := C) => forall p, p < 3 -> v3 p = v1 0) (branch_variances power1 current1 k s) (branch_variances power3 current3 k s).
Proof.
  unfold branch_variances. apply Forall2_app.
  - specialize (powers k s). destruct (power1 k s), (power3 k s); try easy; constructor; [|constructor]. intros p Hp. now apply powers.
  - specialize (currents k s). destruct (current1 k s) as [[t1 m1]|], (current3 k s) as [[t3 m3]|]; try easy; constructor; [|constructor]. intros p Hp. destruct currents as [_ H]. now apply H.
Qed.
Lemma inverse_same v1 (v3 : vec (C := C)) : (forall p, p < 3 -> v3 p = v1 0) -> forall p, p < 3 -> diagonal_inverse o v3 p = diagonal_inverse o v1 0.
Proof. intros H p Hp. unfold diagonal_inverse. now rewrite H. Qed.
Lemma gain_element_acts t1 t3 e : acts t3 (t1 0 0) -> acts (gain_element o cj 3 branch3 shunt3 power3 current3 shunt_power3 t3 e) (gain_element o cj 1 branch1 shunt1 power1 current1 shunt_power1 t1 e 0 0).
Proof.
  intros H. destruct e as [k|k b0 b1]; cbn [gain_element].
  - specialize (shunt_powers k). destruct (shunt_power1 k) as [m1|], (shunt_power3 k) as [m3|]; try easy.
    unfold tadd. rewrite dot3_one. apply (acts_add o cj cabs a B); [exact H|]. unfold LinearSE.hermitian at 2.
    apply acts_dot3; [apply shunt_like|apply shunt_like|]. apply inverse_same. intros p Hp. now apply shunt_powers.
  - assert (F : forall s l1 l3, Forall2 (fun v1 v3 : vec (C := C) => forall p, p < 3 -> v3 p = v1 0) l1 l3 -> forall t1 t3, acts t3 (t1 0 0) ->
      acts (fold_left (fun t v => tadd o t (dot3 o 3 (hermitian (branch3 k s b0)) (diagonal_inverse o v) (branch3 k s b1))) l3 t3)
        (fold_left (fun t v => tadd o t (dot3 o 1 (hermitian (branch1 k s b0)) (diagonal_inverse o v) (branch1 k s b1))) l1 t1 0 0)).
    { intros s l1 l3. induction 1 as [|v1 v3 l1 l3 Hv F IH]; intros t1' t3' Ht; cbn [fold_left]; [exact Ht|]. apply IH. unfold tadd at 1. unfold tadd. rewrite dot3_one.
      apply (acts_add o cj cabs a B); [exact Ht|]. unfold LinearSE.hermitian at 2. apply acts_dot3; [apply branch_like|apply branch_like|]. now apply inverse_same. }
    cbn [fold_left]. apply F; [apply variances_same|]. apply F; [apply variances_same|exact H].
Qed.
Lemma gain_elements_acts l : forall t1 t3, acts t3 (t1 0 0) ->
  acts (fold_left (gain_element o cj 3 branch3 shunt3 power3 current3 shunt_power3) l t3) (fold_left (gain_element o cj 1 branch1 shunt1 power1 current1 shunt_power1) l t1 0 0).
Proof. induction l as [|e l IH]; intros t1 t3 H; cbn [fold_left]; [exact H|]. apply IH. now apply gain_element_acts. Qed.
Local Notation block1 := (gain_block o cj 1 n_branch branch_bus shunts branch1 shunt1 ybus1 voltage1 power1 current1 shunt_power1 injection1).
Local Notation block3 := (gain_block o cj 3 n_branch branch_bus shunts branch3 shunt3 ybus3 voltage3 power3 current3 shunt_power3 injection3).
Lemma g_acts i j : acts (g (block3 i j)) (g (block1 i j) 0 0).
Proof.
  cbn [g gain_block]. apply gain_elements_acts. unfold gain_voltage. specialize (voltages i). destruct (voltage1 i) as [m1|], (voltage3 i) as [m3|]; try easy.
  - destruct voltages as (_ & -> & _). destruct (i =? j); [apply acts_diag|apply (acts_zero o cj cabs a B)].
  - apply (acts_zero o cj cabs a B).
Qed.
Lemma q_like i j : like (q (block3 i j)) (q (block1 i j) 0 0).
Proof.
  cbn [q gain_block]. unfold q_block. specialize (injections i). destruct (injection1 i), (injection3 i); try easy. split; unfold tzero.
  - apply (acts_zero o cj cabs a B).
  - unfold LinearSE.hermitian. rewrite (conj_zero o cj cabs a P). apply (acts_zero o cj cabs a B).
Qed.
Lemma qh_acts i j : acts (qh (block3 i j)) (qh (block1 i j) 0 0).
Proof. cbn [qh gain_block]. apply (q_like j i). Qed.
Lemma r_acts i j : acts (r (block3 i j)) (r (block1 i j) 0 0).
Proof.
  cbn [r gain_block]. unfold r_block. destruct (i =? j); [|apply (acts_zero o cj cabs a B)]. specialize (injections i). destruct (injection1 i) as [m1|], (injection3 i) as [m3|]; try easy.
  - cbn [Nat.eqb]. apply (acts_ext3 (fun p q => if p =? q then - variance m1 0%nat else zero)); [|apply acts_diag]. intros p q0 Hp Hq. destruct (p =? q0); [|reflexivity].
    now rewrite (proj2 (injections p Hp)).
  - apply acts_diag.
Qed.

(** ** the right-hand side *)
Section Rhs.
Variables (u v : nat -> vec (C := C)).
Hypothesis Hv : same u v.
Hypothesis u_nz : forall b, b < n -> positive (cabs (u b 0)) = true.
Local Notation seen1 := (linearize o cabs positive real voltage1 u). Local Notation seen3 := (linearize o cabs positive real voltage3 v).
Lemma linearize_balanced b p : b < n -> p < 3 -> seen3 b p = rot p (seen1 b 0).
Proof.
  intros Hb Hp. unfold linearize. specialize (voltages b). destruct (voltage1 b) as [m1|], (voltage3 b) as [m3|]; try easy; [|now apply Hv].
  destruct voltages as (E & _ & H). rewrite E. destruct (full m1); [now apply H|]. rewrite H, Hv, phase_shift_balanced, (rot_mul o cj cabs a B) by auto. reflexivity.
Qed.
Lemma linearize_nz b : b < n -> seen1 b 0 <> zero.
Proof.
  intros Hb. unfold linearize. destruct (voltage1 b) as [m|] eqn:E; [|apply positive_abs_nz; now apply u_nz]. destruct (volt_nz b m E) as [_ H]. destruct (full m); [now apply positive_abs_nz|].
  pose proof (phase_shift_nz _ (u_nz b Hb)) as N. destruct (positive_abs_nz _ H) as [N' _]. intros Z. apply N.
  transitivity (real (volt m 0) * phase_shift (u b 0) / real (volt m 0)); [field; exact N'|]. rewrite Z. field. exact N'.
Qed.
Lemma linearize_positive b : (forall x y, positive (cabs x) = true -> positive (cabs y) = true -> positive (cabs (x * phase_shift y)) = true) -> b < n -> positive (cabs (seen1 b 0)) = true.
Proof.
  intros M Hb. unfold linearize. destruct (voltage1 b) as [m|] eqn:E; [|now apply u_nz]. destruct (volt_nz b m E) as [_ H]. destruct (full m); [exact H|]. apply M; [exact H|now apply u_nz].
Qed.
Hypothesis positive_mul : forall x y, positive (cabs x) = true -> positive (cabs y) = true -> positive (cabs (x * phase_shift y)) = true.
Definition same_rand (m1 m3 : rand (C := C)) : Prop := forall p, p < 3 -> value m3 p = rot p (value m1 0) /\ variance m3 p = variance m1 0.
Lemma power_current_same (m1 m3 : rand (C := C)) (x y : vec (C := C)) : (forall p, p < 3 -> value m3 p = value m1 0 /\ variance m3 p = variance m1 0) -> (forall p, p < 3 -> y p = rot p (x 0)) -> x 0 <> zero ->
  same_rand (power_to_current o cj m1 x) (power_to_current o cj m3 y).
Proof. intros H E N p Hp. cbn [power_to_current value variance]. destruct (H p Hp) as [-> ->]. rewrite E by exact Hp. split; [|reflexivity]. now apply (rot_conj_div o cj cabs a B). Qed.
Lemma shift_square x : positive (cabs x) = true -> phase_shift x * cj (phase_shift x) = one -> forall p, phase_shift (rot p x) * cj (phase_shift (rot p x)) = one.
Proof. intros H E p. rewrite phase_shift_balanced by exact H. now rewrite (rot_power o cj cabs a B). Qed.
Lemma currents_same k s : Forall2 same_rand (branch_currents o cj cabs positive real branch_bus voltage1 power1 current1 u k s) (branch_currents o cj cabs positive real branch_bus voltage3 power3 current3 v k s).
Proof.
  pose proof (connected k s) as Hc. unfold branch_currents. apply Forall2_app.
  - pose proof (powers k s) as H. destruct (power1 k s) as [m1|] eqn:E1, (power3 k s) as [m3|]; try easy; constructor; [|constructor].
    destruct Hc as (j & -> & Hj); [left; discriminate|]. cbn [measured_voltage]. apply power_current_same; [exact H| |now apply linearize_nz]. intros p Hp. now apply linearize_balanced.
  - pose proof (currents k s) as H. destruct (current1 k s) as [[t1 m1]|] eqn:E1, (current3 k s) as [[t3 m3]|]; try easy; constructor; [|constructor].
    destruct Hc as (j & -> & Hj); [right; discriminate|]. cbn [measured_voltage]. destruct H as [-> H]. unfold global_current. cbn [fst snd]. destruct t1.
    + intros p Hp. cbn [value variance]. destruct (H p Hp) as [-> ->]. rewrite linearize_balanced by auto. pose proof (linearize_positive j positive_mul Hj) as Hp'.
      rewrite phase_shift_balanced by exact Hp'. split; [now rewrite (rot_mul o cj cabs a B)|]. now rewrite (rot_power o cj cabs a B).
    + intros p Hp. now apply H.
Qed.
Lemma rhs_element_balanced b e (w1 w3 : vec (C := C)) : b < n -> (forall p, p < 3 -> w3 p = rot p (w1 0)) -> forall p, p < 3 ->
  rhs_element o cj cabs positive real 3 branch_bus branch3 shunt3 voltage3 power3 current3 shunt_power3 v b w3 e p =
  rot p (rhs_element o cj cabs positive real 1 branch_bus branch1 shunt1 voltage1 power1 current1 shunt_power1 u b w1 e 0).
Proof.
  intros Hb H. destruct e as [k|k b0 b1]; cbn [rhs_element].
  - pose proof (shunt_powers k) as Hm. destruct (shunt_power1 k) as [m1|], (shunt_power3 k) as [m3|]; try easy.
    assert (Hs : same_rand (power_to_current o cj m1 (seen1 b)) (power_to_current o cj m3 (seen3 b))).
    { apply power_current_same; [exact Hm| |now apply linearize_nz]. intros p Hp. now apply linearize_balanced. }
    intros p Hp. unfold vminus. rewrite dot3v_one, (rot_sub o cj cabs a B), H by exact Hp. f_equal. unfold LinearSE.hermitian at 2.
    apply dot3v_balanced; [apply shunt_like| |intros q0 Hq; now apply Hs|exact Hp]. apply inverse_same. intros q0 Hq. now apply Hs.
  - assert (F : forall s l1 l3, Forall2 same_rand l1 l3 -> forall w1 w3 : vec (C := C), (forall p, p < 3 -> w3 p = rot p (w1 0)) -> forall p, p < 3 ->
      fold_left (fun w c => vadd o w (dot3v o 3 (hermitian (branch3 k s b0)) (diagonal_inverse o (variance c)) (value c))) l3 w3 p =
      rot p (fold_left (fun w c => vadd o w (dot3v o 1 (hermitian (branch1 k s b0)) (diagonal_inverse o (variance c)) (value c))) l1 w1 0)).
    { intros s l1 l3. induction 1 as [|c1 c3 l1 l3 Hs F IH]; intros w1' w3' Hw; cbn [fold_left]; [exact Hw|]. apply IH. intros p Hp. unfold vadd. rewrite dot3v_one, (rot_add o cj cabs a B), Hw by exact Hp. f_equal.
      unfold LinearSE.hermitian at 2. apply dot3v_balanced; [apply branch_like| |intros q0 Hq; now apply Hs|exact Hp]. apply inverse_same. intros q0 Hq. now apply Hs. }
    cbn [fold_left]. apply F; [apply currents_same|]. apply F; [apply currents_same|exact H].
Qed.
Local Notation rhs1 := (rhs_block o cj cabs positive real 1 n_branch branch_bus shunts branch1 shunt1 voltage1 power1 current1 shunt_power1 injection1 u).
Local Notation rhs3 := (rhs_block o cj cabs positive real 3 n_branch branch_bus shunts branch3 shunt3 voltage3 power3 current3 shunt_power3 injection3 v).
Lemma eta_balanced b p : b < n -> p < 3 -> eta (rhs3 b) p = rot p (eta (rhs1 b) 0).
Proof.
  intros Hb Hp. cbn [eta rhs_block].
  assert (F : forall l (w1 w3 : vec (C := C)), (forall p, p < 3 -> w3 p = rot p (w1 0)) -> forall p, p < 3 ->
    fold_left (rhs_element o cj cabs positive real 3 branch_bus branch3 shunt3 voltage3 power3 current3 shunt_power3 v b) l w3 p =
    rot p (fold_left (rhs_element o cj cabs positive real 1 branch_bus branch1 shunt1 voltage1 power1 current1 shunt_power1 u b) l w1 0)).
  { induction l as [|e l IH]; intros w1 w3 H; cbn [fold_left]; [exact H|]. apply IH. intros p' Hp'. now apply rhs_element_balanced. }
  apply F; [|exact Hp]. clear p Hp. intros p Hp. pose proof (voltages b) as H. pose proof (volt_nz b) as Hn. pose proof (linearize_balanced b p Hb Hp) as El.
  destruct (voltage1 b) as [m1|], (voltage3 b) as [m3|]; try easy.
  - destruct H as (_ & -> & _). rewrite El. symmetry. apply rot_div. exact (proj1 (Hn m1 eq_refl)).
  - unfold vzero. symmetry. apply (rot_zero o cj cabs a B).
Qed.
Lemma tau_balanced b p : b < n -> p < 3 -> tau (rhs3 b) p = rot p (tau (rhs1 b) 0).
Proof.
  intros Hb Hp. cbn [tau rhs_block]. pose proof (injections b) as H. destruct (injection1 b) as [m1|], (injection3 b) as [m3|]; try easy.
  - apply power_current_same; [exact H| |now apply linearize_nz|exact Hp]. intros p' Hp'. now apply linearize_balanced.
  - unfold vzero. symmetry. apply (rot_zero o cj cabs a B).
Qed.

(** ** the equations *)
Local Notation solution1 := (solution o cj cabs positive real 1 n n_branch branch_bus shunts branch1 shunt1 ybus1 voltage1 power1 current1 shunt_power1 injection1).
Local Notation solution3 := (solution o cj cabs positive real 3 n n_branch branch_bus shunts branch3 shunt3 ybus3 voltage3 power3 current3 shunt_power3 injection3).
Lemma row_balanced (m1 m3 m1' m3' : nat -> tensor (C := C)) x y phi psi p : (forall j, acts (m3 j) (m1 j 0 0)) -> (forall j, acts (m3' j) (m1' j 0 0)) -> same x y -> same phi psi -> p < 3 ->
  nsum o (map (fun j => dot o 3 (m3 j) (y j) p + dot o 3 (m3' j) (psi j) p) (seq 0 n)) = rot p (nsum o (map (fun j => dot o 1 (m1 j) (x j) 0 + dot o 1 (m1' j) (phi j) 0) (seq 0 n))).
Proof.
  intros H H' Hx Hphi Hp. rewrite <- (rot_sum o cj cabs a B). apply nsum_ext. intros j Hj. apply in_seq in Hj.
  rewrite (dot_ext o 3 (m3 j) (y j) (fun q0 => rot q0 (x j 0))) by (intros; apply Hx; lia). rewrite (dot_ext o 3 (m3' j) (psi j) (fun q0 => rot q0 (phi j 0))) by (intros; apply Hphi; lia).
  rewrite !(dot1 o cj cabs a B), (rot_add o cj cabs a B), (dot3_balanced o a (m3 j) (m1 j 0%nat 0%nat)), (dot3_balanced o a (m3' j) (m1' j 0%nat 0%nat)) by auto. reflexivity.
Qed.
Lemma solution_balanced x y phi psi : same x y -> same phi psi -> (solution1 u x phi <-> solution3 v y psi).
Proof.
  intros Hx Hphi. split; intros H b p Hb Hp.
  - destruct (H b 0 Hb) as [H1 H2]; [lia|]. split.
    + rewrite (row_balanced (fun j => g (block1 b j)) (fun j => g (block3 b j)) (fun j => qh (block1 b j)) (fun j => qh (block3 b j)) x y phi psi p); auto using g_acts, qh_acts.
      rewrite H1. symmetry. now apply eta_balanced.
    + rewrite (row_balanced (fun j => q (block1 b j)) (fun j => q (block3 b j)) (fun j => r (block1 b j)) (fun j => r (block3 b j)) x y phi psi p); auto using r_acts; [|intros j; apply q_like].
      rewrite H2. symmetry. now apply tau_balanced.
  - assert (p = 0%nat) by lia. subst p. assert (L3 : (0 < 3)%nat) by lia. destruct (H b 0 Hb L3) as [H1 H2]. split; apply (rot_inj 0).
    + rewrite <- (row_balanced (fun j => g (block1 b j)) (fun j => g (block3 b j)) (fun j => qh (block1 b j)) (fun j => qh (block3 b j)) x y phi psi 0); auto using g_acts, qh_acts.
      rewrite H1. now apply eta_balanced.
    + rewrite <- (row_balanced (fun j => q (block1 b j)) (fun j => q (block3 b j)) (fun j => r (block1 b j)) (fun j => r (block3 b j)) x y phi psi 0); auto using r_acts; [|intros j; apply q_like].
      rewrite H2. now apply tau_balanced.
Qed.
End Rhs.
End Facts.
