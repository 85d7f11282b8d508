(** C67: the estimates do not depend on the numbering of buses, branches and shunts, on the direction of branches nor on the scale of the variances. *)
From Coq Require Import Field Permutation.
From Verif Require Import Common Numbers ShortCircuit ShortCircuitFacts LinearSE LinearSESpec LinearSEFacts LinearSEProps BalancedSE EstimateOrderSpec EstimateOrderFacts.

Section Props.
Context {C : Type} (o : num_ops C) (cj cabs : C -> C) (positive : C -> bool) (nonneg : C -> Prop).
Hypothesis P : se_laws o cj cabs positive nonneg.
Add Field NumFieldOrdSEP : (nl_field o (se_num _ _ _ _ _ P)).
Variables (real : C -> C) (np n : nat) (has_angle : bool).
Local Notation zero := (n_zero o).
Local Notation direction := (phase_shift o cabs positive).
Local Notation volts := (nat -> nat -> C).
Local Notation iteration e slack := (LinearSE.iteration o cj cabs positive real np n (pr_branches e) (pr_bus e) (pr_shunts e) (pr_branch e) (pr_shunt e) (pr_y e) (pr_voltage e) (pr_power e) (pr_current e) (pr_shunt_power e) (pr_injection e) has_angle slack).
Local Notation residuals e := (LinearSESpec.residuals o cj real direction np n (pr_branches e) (pr_bus e) (pr_shunts e) (pr_branch e) (pr_shunt e) (pr_y e) (pr_voltage e) (pr_power e) (pr_current e) (pr_shunt_power e) (pr_injection e)).
Local Notation problem_ok e := (branches_ok n (pr_bus e)).
Local Notation usable_measurements e := (measurements_ok o nonneg (pr_voltage e) (pr_power e) (pr_current e) (pr_shunt_power e) (pr_injection e)).
(** the measured quantities determine the voltages *)
Definition determined (e : problem C) : Prop := forall u x y, (forall f v, In (f, v) (residuals e u) -> f x = f y) -> forall b p, b < n -> p < np -> x b p = y b p.

Lemma inverse (r : nat -> nat) m m' : Permutation (map r (seq 0 m)) (seq 0 m') -> exists g, forall b, b < m -> g (r b) = b.
Proof.
  intros H. assert (N : NoDup (map r (seq 0 m))) by (eapply Permutation_NoDup; [symmetry; exact H|apply seq_NoDup]).
  exists (fun i => match find (fun b => r b =? i) (seq 0 m) with Some b => b | None => 0 end). intros b Hb.
  assert (I : forall l, NoDup (map r l) -> In b l -> find (fun a => r a =? r b) l = Some b).
  { induction l as [|a l IH]; intros Nl Hi; [contradiction|]. cbn [find map] in *. inversion Nl as [|? ? Na Nl']; subst. destruct Hi as [->|Hi]; [now rewrite Nat.eqb_refl|].
    destruct (r a =? r b) eqn:E; [|now apply IH]. apply Nat.eqb_eq in E. elim Na. rewrite E. now apply in_map. }
  rewrite I; [reflexivity|exact N|]. apply in_seq. lia.
Qed.

Section Two.
Variables (c : C) (r rk rs : nat -> nat) (turned : nat -> bool) (e e' : problem C) (slack : nat).
Hypothesis c_positive : nonneg c /\ c <> zero.
Hypothesis R : renumbered o c n r rk rs turned e e'.
Hypotheses (ends : problem_ok e) (ends' : problem_ok e') (measurements : usable_measurements e) (measurements' : usable_measurements e').
Hypothesis enough : determined e.
Hypothesis slack_there : slack < n.
(** voltages of [e] and voltages of [e'], the same at every bus *)
Definition same_voltages (z z' : volts) : Prop := forall b p, b < n -> p < np -> z' (r b) p = z b p.
Hypothesis phases : 0 < np.

Theorem C67_iteration : forall u u' v v', same_voltages u u' -> iteration e slack u v -> iteration e' (r slack) u' v' -> same_voltages v v'.
Proof.
  intros u u' v v' Hu (x & phi & Hx & ->) (x' & phi' & Hx' & ->).
  set (y := fun b p => x' (r b) p). assert (Hy : forall b p, b < n -> p < np -> x' (r b) p = y b p) by reflexivity.
  destruct (inverse r n n (re_buses _ _ _ _ _ _ _ _ _ R)) as [g Hg]. set (z' := fun b p => x (g b) p). assert (Hz : forall b p, b < n -> p < np -> z' (r b) p = x b p) by (intros b p Hb _; unfold z'; now rewrite Hg).
  pose proof (solution_exact o cj cabs positive nonneg P np real n _ _ _ _ _ _ _ _ _ _ _ (ok_bus _ _ ends) (ok_ends _ _ ends) measurements u x phi Hx) as Ex.
  pose proof (solution_exact o cj cabs positive nonneg P np real n _ _ _ _ _ _ _ _ _ _ _ (ok_bus _ _ ends') (ok_ends _ _ ends') measurements' u' x' phi' Hx') as Ex'.
  pose proof (proj1 (exact_same o cj cabs positive nonneg P real np n c r rk rs turned e e' c_positive R ends u u' y x' Hu Hy) Ex') as Ey.
  pose proof (proj2 (exact_same o cj cabs positive nonneg P real np n c r rk rs turned e e' c_positive R ends u u' x z' Hu Hz) Ex) as Ez.
  pose proof (solution_change o cj cabs positive nonneg P np real n _ _ _ _ _ _ _ _ _ _ _ (ok_bus _ _ ends) (ok_ends _ _ ends) measurements u x phi y Hx Ey) as Z1.
  pose proof (solution_change o cj cabs positive nonneg P np real n _ _ _ _ _ _ _ _ _ _ _ (ok_bus _ _ ends') (ok_ends _ _ ends') measurements' u' x' phi' z' Hx' Ez) as Z2.
  rewrite (change_same o cj cabs positive nonneg P real np n c r rk rs turned e e' c_positive R ends u u' y x' x z' Hu Hy Hz Ey Ex) in Z2.
  assert (Z3 : LinearSEFacts.change_sum o cj cabs positive np real n (pr_branches e) (pr_bus e) (pr_shunts e) (pr_branch e) (pr_shunt e) (pr_y e) (pr_voltage e) (pr_power e) (pr_current e) (pr_shunt_power e) (pr_injection e) u y x = zero).
  { revert Z2. generalize (LinearSEFacts.change_sum o cj cabs positive np real n (pr_branches e) (pr_bus e) (pr_shunts e) (pr_branch e) (pr_shunt e) (pr_y e) (pr_voltage e) (pr_power e) (pr_current e) (pr_shunt_power e) (pr_injection e) u y x).
    intros w Z2. transitivity (n_mul o c (n_mul o (n_inv o c) w)); [field; exact (proj2 c_positive)|]. rewrite Z2. ring. }
  pose proof (enough u x y (agree_of_change o cj cabs positive nonneg P real np n e u x y ends measurements Ex Ey Z1 Z3)) as A.
  intros b p Hb Hp. unfold iterate, angle_offset. change (x' (r b) p) with (y b p). change (x' (r slack) 0) with (y slack 0). rewrite <- !A by assumption. reflexivity.
Qed.
(** from the start *)
Theorem C67_estimation : forall start start' k v v', same_voltages start start' ->
  estimates (iteration e slack) start k v -> estimates (iteration e' (r slack)) start' k v' -> same_voltages v v'.
Proof.
  intros start start' k v v' Hs H. revert v'. induction H as [|k v w Hv IH Hw]; intros v' H'.
  - inversion H'; subst. exact Hs.
  - inversion H' as [|k0 w0 w1 H0 H1]; subst. exact (C67_iteration v w0 w v' (IH w0 H0) Hw H1).
Qed.
(** the currents at every side of every branch and into every bus *)
Theorem C67_results : forall v v', same_voltages v v' ->
  (forall k s p, k < pr_branches e -> LinearSESpec.flow o np (pr_bus e') (pr_branch e') v' (rk k) (xorb (turned k) s) p = LinearSESpec.flow o np (pr_bus e) (pr_branch e) v k s p) /\
  (forall b p, b < n -> LinearSESpec.injected o np n (pr_y e') v' (r b) p = LinearSESpec.injected o np n (pr_y e) v b p).
Proof.
  intros v v' H. split; [intros k s p Hk|intros b p Hb].
  - eapply flow_same; eassumption.
  - eapply injected_same; eassumption.
Qed.
End Two.

(** ** All variances times [c]: the estimates are the same; so the division by the least variance (measured_values.hpp 552-596) does not change them *)
Definition times (c : C) (m : rand (C := C)) : rand (C := C) := mkRand (value m) (fun p => n_mul o c (variance m p)).
Definition times_variances (c : C) (e : problem C) : problem C :=
  mkProblem _ (pr_branches e) (pr_bus e) (pr_shunts e) (pr_branch e) (pr_shunt e) (pr_y e)
    (fun b => option_map (fun m => mkVolt (full m) (volt m) (n_mul o c (volt_var m))) (pr_voltage e b)) (fun k s => option_map (times c) (pr_power e k s))
    (fun k s => option_map (fun m => (fst m, times c (snd m))) (pr_current e k s)) (fun k => option_map (times c) (pr_shunt_power e k)) (fun b => option_map (times c) (pr_injection e b)).
Lemma times_renumbered c e : renumbered o c n (fun b => b) (fun k => k) (fun k => k) (fun _ => false) e (times_variances c e).
Proof.
  constructor; cbn [times_variances pr_branches pr_bus pr_shunts pr_branch pr_shunt pr_y pr_voltage pr_power pr_current pr_shunt_power pr_injection xorb]; intros; try reflexivity; rewrite ?map_id; try reflexivity.
  - destruct s; cbn; destruct (pr_bus e k _); reflexivity.
  - destruct s, b; reflexivity.
  - destruct (pr_voltage e b) as [m|]; [|exact I]. cbn. auto.
  - destruct s; cbn; destruct (pr_power e k _); cbn; try exact I; unfold rescaled; cbn; auto.
  - destruct s; cbn; destruct (pr_current e k _); cbn; try exact I; unfold rescaled; cbn; auto.
  - destruct (pr_shunt_power e k); cbn; try exact I; unfold rescaled; cbn; auto.
  - destruct (pr_injection e b); cbn; try exact I; unfold rescaled; cbn; auto.
Qed.
Lemma times_usable c e : nonneg c /\ c <> zero -> usable_measurements e -> usable_measurements (times_variances c e).
Proof.
  intros [Hc Nc] M.
  assert (U : forall v, usable o nonneg v -> usable o nonneg (n_mul o c v)).
  { intros v [Hv Nv]. split; [now apply (se_nonneg_mul _ _ _ _ _ P)|]. intros E. apply Nv. transitivity (n_mul o (n_inv o c) (n_mul o c v)); [field; exact Nc|]. rewrite E. ring. }
  constructor; cbn [times_variances pr_voltage pr_power pr_current pr_shunt_power pr_injection].
  - intros b m. destruct (pr_voltage e b) as [m0|] eqn:E; intros H; [|discriminate]. injection H as <-. cbn. apply U. exact (ok_voltage _ _ _ _ _ _ _ M b m0 E).
  - intros k s m p. destruct (pr_power e k s) as [m0|] eqn:E; intros H; [|discriminate]. injection H as <-. cbn. apply U. exact (ok_power _ _ _ _ _ _ _ M k s m0 p E).
  - intros k s t m p. destruct (pr_current e k s) as [[t0 m0]|] eqn:E; intros H; [|discriminate]. injection H as <- <-. cbn. apply U. exact (ok_current _ _ _ _ _ _ _ M k s t0 m0 p E).
  - intros k m p. destruct (pr_shunt_power e k) as [m0|] eqn:E; intros H; [|discriminate]. injection H as <-. cbn. apply U. exact (ok_shunt _ _ _ _ _ _ _ M k m0 p E).
  - intros b m p. destruct (pr_injection e b) as [m0|] eqn:E; intros H; [|discriminate]. injection H as <-. cbn. apply (se_nonneg_mul _ _ _ _ _ P); [exact Hc|]. exact (ok_injection _ _ _ _ _ _ _ M b m0 p E).
Qed.
Theorem C67_variances : forall c e slack start k v v', nonneg c /\ c <> zero -> problem_ok e -> usable_measurements e -> determined e -> slack < n -> 0 < np ->
  estimates (iteration e slack) start k v -> estimates (iteration (times_variances c e) slack) start k v' -> forall b p, b < n -> p < np -> v' b p = v b p.
Proof.
  intros c e slack start k v v' Hc He Hm Hd Hs Hn H H'.
  exact (C67_estimation c (fun b => b) (fun k => k) (fun k => k) (fun _ => false) e (times_variances c e) slack Hc (times_renumbered c e) He He Hm (times_usable c e Hc Hm) Hd Hs Hn start start k v v' (fun _ _ _ _ => eq_refl) H H').
Qed.

(** ** Every problem has renumbered ones *)
Definition renumber (r g gk rs gs : nat -> nat) (turned : nat -> bool) (e : problem C) : problem C :=
  mkProblem _ (pr_branches e) (fun k s => option_map r (pr_bus e (gk k) (xorb (turned (gk k)) s))) (fun b => map rs (pr_shunts e (g b)))
    (fun k s b => pr_branch e (gk k) (xorb (turned (gk k)) s) (xorb (turned (gk k)) b)) (fun k => pr_shunt e (gs k)) (fun i j => pr_y e (g i) (g j))
    (fun b => pr_voltage e (g b)) (fun k s => pr_power e (gk k) (xorb (turned (gk k)) s)) (fun k s => pr_current e (gk k) (xorb (turned (gk k)) s)) (fun k => pr_shunt_power e (gs k)) (fun b => pr_injection e (g b)).
Theorem C67_renumber : forall r g rk gk rs gs turned e, Permutation (map r (seq 0 n)) (seq 0 n) -> Permutation (map rk (seq 0 (pr_branches e))) (seq 0 (pr_branches e)) ->
  (forall b, b < n -> g (r b) = b) -> (forall k, k < pr_branches e -> gk (rk k) = k) -> (forall k, gs (rs k) = k) ->
  renumbered o (n_one o) n r rk rs turned e (renumber r g gk rs gs turned e).
Proof.
  intros r g rk gk rs gs turned e H1 H2 G GK GS.
  assert (X : forall t s, xorb t (xorb t s) = s) by (intros [] []; reflexivity). assert (One : forall v, v = n_mul o (n_one o) v) by (intros; ring).
  constructor; cbn [renumber pr_branches pr_bus pr_shunts pr_branch pr_shunt pr_y pr_voltage pr_power pr_current pr_shunt_power pr_injection]; intros; rewrite ?GK, ?G, ?GS, ?X by assumption; try assumption; try reflexivity.
  - destruct (pr_voltage e b) as [m|]; [|exact I]. cbn. auto.
  - destruct (pr_power e k s) as [m|]; cbn; try exact I; unfold rescaled; auto.
  - destruct (pr_current e k s) as [m|]; cbn; try exact I; unfold rescaled; auto.
  - destruct (pr_shunt_power e k) as [m|]; cbn; try exact I; unfold rescaled; auto.
  - destruct (pr_injection e b) as [m|]; cbn; try exact I; unfold rescaled; auto.
Qed.
End Props.

(** ** Example: the problem of C56's example, with its two buses exchanged and its branch turned around; both have an iteration *)
Section Example.
Context {C : Type} (o : num_ops C) (cj cabs : C -> C) (positive : C -> bool) (nonneg : C -> Prop).
Hypothesis P : se_laws o cj cabs positive nonneg.
Variable real : C -> C.
Add Field NumFieldOrdSEX : (nl_field o (se_num _ _ _ _ _ P)).
Local Notation zero := (n_zero o). Local Notation one := (n_one o).
Definition ls_problem : problem C := mkProblem _ 1 ls_branch_bus (fun _ => []) (ls_param o) (fun _ _ _ => zero) (ls_ybus o) (ls_voltage o) (fun _ _ => None) (ls_current o) (fun _ => None) (ls_injection o).
Definition exchange (b : nat) : nat := 1 - b.
Definition ls_exchanged : problem C := renumber exchange exchange (fun k => k) (fun k => k) (fun k => k) (fun _ => true) ls_problem.
Local Notation iteration e slack := (LinearSE.iteration o cj cabs positive real 1 2 (pr_branches e) (pr_bus e) (pr_shunts e) (pr_branch e) (pr_shunt e) (pr_y e) (pr_voltage e) (pr_power e) (pr_current e) (pr_shunt_power e) (pr_injection e) true slack).
Theorem C67_example :
  renumbered o one 2 exchange (fun k => k) (fun k => k) (fun _ => true) ls_problem ls_exchanged /\ branches_ok 2 (pr_bus ls_problem) /\ branches_ok 2 (pr_bus ls_exchanged) /\
  measurements_ok o nonneg (pr_voltage ls_problem) (pr_power ls_problem) (pr_current ls_problem) (pr_shunt_power ls_problem) (pr_injection ls_problem) /\
  measurements_ok o nonneg (pr_voltage ls_exchanged) (pr_power ls_exchanged) (pr_current ls_exchanged) (pr_shunt_power ls_exchanged) (pr_injection ls_exchanged) /\
  determined o cj cabs positive real 1 2 ls_problem /\
  (exists v, iteration ls_problem 0 (ls_u o) v) /\ exists v', iteration ls_exchanged 1 (ls_u o) v'.
Proof.
  assert (J0 : cj zero = zero) by apply (cj_zero o cj cabs positive nonneg P). assert (J1 : cj one = one) by apply (cj_one o cj cabs positive nonneg P).
  assert (JM : cj (n_opp o one) = n_opp o one) by (rewrite (cj_opp o cj cabs positive nonneg P), J1; reflexivity).
  assert (N1 : one <> zero) by exact (F_1_neq_0 (nl_field o (se_num _ _ _ _ _ P))).
  assert (Z : cj (n_div o zero zero) = zero). { rewrite (div_inv o cj cabs positive nonneg P). replace (n_mul o zero (n_inv o zero)) with zero by ring. exact J0. }
  pose proof (ls_nonneg_one o cj cabs positive nonneg P) as Pos.
  split.
  { apply (C67_renumber o cj cabs positive nonneg P); try reflexivity; [cbn; apply perm_swap|]. intros b Hb. unfold exchange. lia. }
  split; [apply ls_branches|]. split.
  { constructor; cbn; unfold ls_branch_bus, exchange; intros k; destruct (k =? 0); try discriminate; [intros [] b E; cbn in E; injection E as <-; lia|]. intros b E1 E2. cbn in E1, E2. congruence. }
  split; [exact (ls_measurements o cj cabs positive nonneg P)|]. split.
  { constructor; try discriminate; cbn.
    - intros b m E. injection E as <-. split; [exact Pos|exact N1].
    - intros k [] t m p E; cbn in E; [|discriminate]. injection E as <- <-. split; [exact Pos|exact N1].
    - intros b m p E. change (ls_injection o (exchange b) = Some m) in E. revert E. unfold ls_injection. intros E. destruct (exchange b =? 1); [|discriminate]. injection E as <-. apply (nonneg_zero o cj cabs positive nonneg P). }
  split.
  { intros u x y H b p Hb Hp. assert (p = 0) by lia. subst p. set (s := LinearSESpec.seen o real (phase_shift o cabs positive) (ls_voltage o) u b 0).
    assert (E : n_sub o (x b 0) s = n_sub o (y b 0) s).
    { apply (H (fun z => n_sub o (z b 0) s) one). unfold LinearSESpec.residuals. apply in_app_iff. left. apply in_flat_map. exists b. split; [apply in_seq; lia|]. cbn. left. reflexivity. }
    revert E. generalize s. intros w E. transitivity (n_add o (n_sub o (x b 0) w) w); [ring|]. rewrite E. ring. }
  split.
  - exists (iterate o cabs true 0 (ls_u o)), (ls_u o), (ls_phi o). split; [|reflexivity]. exact (ls_solution o cj cabs positive nonneg P real).
  - exists (iterate o cabs true 1 (ls_u o)), (ls_u o), (fun b => ls_phi o (exchange b)). split; [|reflexivity].
    intros b p Hb Hp. assert (p = 0) by lia. subst p.
    destruct b as [|[|b]]; [| |lia]; split; cbn; unfold nsum, vadd, tadd, vzero, tdiag, tzero, dot3, dot3v, hermitian, diagonal_inverse, ls_param, ls_ybus, ls_u; cbn; unfold nsum; cbn;
      rewrite ?Z, ?J0, ?J1, ?JM; field; exact N1.
Qed.
End Example.
Print Assumptions C67_example. Print Assumptions C67_iteration. Print Assumptions C67_estimation. Print Assumptions C67_results. Print Assumptions C67_variances. Print Assumptions C67_renumber.
