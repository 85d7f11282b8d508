(** C68: with enough sensors every iteration of the state estimation has exactly one outcome, and otherwise none has. *)
From Coq Require Import Field Permutation.
From Verif Require Import Common Numbers ShortCircuit ShortCircuitFacts LinearSE LinearSESpec LinearSEFacts LinearSEProps BalancedSE EstimateOrderSpec EstimateOrderFacts EstimateOrderProps EstimateExistsSpec EstimateExistsFacts.

Section Props.
Context {C : Type} (o : num_ops C) (cj cabs : C -> C) (positive : C -> bool) (nonneg : C -> Prop).
Hypothesis P : se_laws o cj cabs positive nonneg.
Local Notation L := (se_num _ _ _ _ _ P).
Add Field NumFieldExP : (nl_field o (se_num _ _ _ _ _ P)).
Local Notation "a + b" := (n_add o a b) : num_scope. Local Notation "a * b" := (n_mul o a b) : num_scope. Local Notation "a - b" := (n_sub o a b) : num_scope.
Local Notation "- a" := (n_opp o a) : num_scope.
Local Notation zero := (n_zero o). Local Notation one := (n_one o).
Local Open Scope num_scope.
Variables (real : C -> C) (np n : nat).
Local Notation direction := (phase_shift o cabs positive).
Local Notation volts := (nat -> nat -> C).
Local Notation residuals e := (LinearSESpec.residuals o cj real direction np n (pr_branches e) (pr_bus e) (pr_shunts e) (pr_branch e) (pr_shunt e) (pr_y e) (pr_voltage e) (pr_power e) (pr_current e) (pr_shunt_power e) (pr_injection e)).
Local Notation solution e := (LinearSE.solution o cj cabs positive real np n (pr_branches e) (pr_bus e) (pr_shunts e) (pr_branch e) (pr_shunt e) (pr_y e) (pr_voltage e) (pr_power e) (pr_current e) (pr_shunt_power e) (pr_injection e)).
Local Notation iteration e has_angle slack := (LinearSE.iteration o cj cabs positive real np n (pr_branches e) (pr_bus e) (pr_shunts e) (pr_branch e) (pr_shunt e) (pr_y e) (pr_voltage e) (pr_power e) (pr_current e) (pr_shunt_power e) (pr_injection e) has_angle slack).
Local Notation problem_ok e := (branches_ok n (pr_bus e)).
Local Notation usable_measurements e := (measurements_ok o nonneg (pr_voltage e) (pr_power e) (pr_current e) (pr_shunt_power e) (pr_injection e)).
Local Notation injected e := (LinearSESpec.injected o np n (pr_y e)).
Local Notation determined := (determined o cj cabs positive real np n).
Local Notation independent := (independent o cj np n).
Local Notation unforced := (unforced o cj np n).
Local Notation blank_problem := (blank_problem o).
Local Notation injected_at e := (LinearSEFacts.injected_at o np n (pr_y e) (pr_injection e)).

(** ** Without measured values only voltages zero remain *)
Lemma dot_zero_at t (v : nat -> C) p : (forall q, q < np -> v q = zero) -> dot o np t v p = zero.
Proof. intros H. apply (nsum_zero o L). intros q0 Hq. apply in_seq in Hq. rewrite H by lia. ring. Qed.
Lemma unforced_zero e x phi : problem_ok e -> usable_measurements e -> determined e -> independent e -> unforced e x phi -> forall b p, b < n -> p < np -> x b p = zero /\ phi b p = zero.
Proof.
  intros Ho Hm Hd Hi U.
  assert (X : forall b p, b < n -> p < np -> x b p = zero).
  { apply (Hd (fun _ _ => zero) x (fun _ _ => zero)). intros f v Hf.
    destruct (blank_residual o cj cabs positive nonneg P real np n e (fun _ _ => zero) (fun _ _ => zero) f v Hf) as (f0 & H0 & D).
    assert (A : f0 x = f0 (fun _ _ => zero)).
    { apply (solutions_agree o cj cabs positive nonneg P np real n (pr_branches (blank_problem e)) (pr_bus (blank_problem e)) (pr_shunts (blank_problem e)) (pr_branch (blank_problem e)) (pr_shunt (blank_problem e)) (pr_y (blank_problem e)) (pr_voltage (blank_problem e)) (pr_power (blank_problem e)) (pr_current (blank_problem e)) (pr_shunt_power (blank_problem e)) (pr_injection (blank_problem e)) (ok_bus _ _ Ho) (ok_ends _ _ Ho) (blank_usable o nonneg e Hm) (fun _ _ => zero) x phi (fun _ _ => zero) (fun _ _ => zero)) with (v := v); [| |exact H0].
      - apply (unforced_blank o cj cabs positive nonneg P real np n e). exact U.
      - apply (exact_solution o cj cabs positive nonneg P np real n (pr_branches (blank_problem e)) (pr_bus (blank_problem e)) (pr_shunts (blank_problem e)) (pr_branch (blank_problem e)) (pr_shunt (blank_problem e)) (pr_y (blank_problem e)) (pr_voltage (blank_problem e)) (pr_power (blank_problem e)) (pr_current (blank_problem e)) (pr_shunt_power (blank_problem e)) (pr_injection (blank_problem e)) (ok_bus _ _ Ho) (ok_ends _ _ Ho)).
        intros f1 v1 H1. exact (blank_residual_zero o cj cabs positive nonneg P real np n e _ f1 v1 H1). }
    specialize (D x (fun _ _ => zero)). rewrite A in D. transitivity (f x - f (fun _ _ => zero) + f (fun _ _ => zero)); [ring|]. rewrite D. ring. }
  assert (R2 : forall b p, b < n -> p < np -> match pr_injection e b with Some m => variance m p * phi b p | None => phi b p end = zero).
  { intros b p Hb Hp. destruct (U b p Hb Hp) as [_ U2]. rewrite (row2 o cj cabs positive nonneg P np n (pr_branches e)) in U2 by assumption.
    assert (I0 : injected_at e x b p = zero). { unfold LinearSEFacts.injected_at. destruct (pr_injection e b); [|reflexivity]. apply (injected_zero o cj cabs positive nonneg P real np n e x b p X). }
    rewrite I0 in U2. revert U2. generalize (match pr_injection e b with Some m => variance m p * phi b p | None => phi b p end). intros w U2. transitivity (- (zero - w)); [ring|]. rewrite U2. ring. }
  assert (None_zero : forall b p, b < n -> p < np -> pr_injection e b = None -> phi b p = zero) by (intros b p Hb Hp E; specialize (R2 b p Hb Hp); now rewrite E in R2).
  intros b0 p0 Hb0 Hp0. split; [now apply X|]. revert b0 p0 Hb0 Hp0. apply Hi.
  - intros b p Hb Hp. destruct (pr_injection e b) as [m|] eqn:E; [|right; now apply None_zero]. destruct (se_zero _ _ _ _ _ P (variance m p)) as [V|V]; [left; exists m; auto|right].
    specialize (R2 b p Hb Hp). rewrite E in R2. transitivity (n_inv o (variance m p) * (variance m p * phi b p)); [field; exact V|]. rewrite R2. ring.
  - intros z. transitivity (nsum o (map (fun c => LinearSEFacts.inner o cj np (injected_at e z c) (phi c)) (seq 0 n))).
    + apply nsum_ext. intros c Hc. apply in_seq in Hc. apply nsum_ext. intros p Hp. apply in_seq in Hp. unfold LinearSEFacts.injected_at. destruct (pr_injection e c) eqn:E; [reflexivity|]. rewrite None_zero by (assumption || lia). ring.
    + rewrite <- (qh_total o cj cabs positive nonneg P np n (pr_branches e) (pr_bus e) (pr_shunts e) (pr_branch e) (pr_shunt e) (pr_y e) (pr_voltage e) (pr_power e) (pr_current e) (pr_shunt_power e) (pr_injection e) (ok_bus _ _ Ho) (ok_ends _ _ Ho)).
      apply (nsum_zero o L). intros b Hb. apply in_seq in Hb. rewrite <- (inner_sum o cj cabs positive nonneg P). apply (inner_zero o cj cabs positive nonneg P). intros p Hp.
      destruct (U b p) as [U1 _]; [lia|exact Hp|]. rewrite <- U1. apply nsum_ext. intros j Hj. apply in_seq in Hj. rewrite (dot_zero_at _ (x j)); [ring|]. intros q0 Hq. apply X; [lia|exact Hq].
Qed.

(** ** Sensors that are enough *)
Section Known.
Variable e : problem C.
Local Notation known := (known o np n e).
Local Notation through := (LinearSESpec.through o np).
Lemma injective_same y (v w : nat -> C) : injective o np y -> (forall p, p < np -> through y v p = through y w p) -> forall p, p < np -> v p = w p.
Proof.
  intros Hy H p Hp. assert (Z : v p - w p = zero). { apply (Hy (fun q => v q - w q)); [|exact Hp]. intros q0 Hq. rewrite (through_minus o cj cabs positive nonneg P np), H by exact Hq. ring. }
  transitivity (v p - w p + w p); [ring|]. rewrite Z. ring.
Qed.
Lemma same_sub a b c : a - c = b - c -> a = b.
Proof. intros H. transitivity (a - c + c); [ring|]. rewrite H. ring. Qed.
Lemma through_ext y (v w : nat -> C) p : (forall q, q < np -> v q = w q) -> through y v p = through y w p.
Proof. intros H. apply nsum_ext. intros q0 Hq. apply in_seq in Hq. rewrite H by lia. reflexivity. Qed.
Lemma known_agree u x y : (forall k s b, pr_bus e k s = Some b -> b < n) -> (forall f v, In (f, v) (residuals e u) -> f x = f y) -> forall b, known b -> forall p, p < np -> x b p = y b p.
Proof.
  intros Hr A. fix IH 2. intros b0 K. destruct K as [b Hb Hv|b c k side t Kb Hc Hk E1 E2 Hm Inj|b k Hb Hk Hm Inj|b c Hb Hc Hi Kj Inj]; intros p Hp.
  - destruct (pr_voltage e b) as [m|] eqn:E; [|congruence]. eapply same_sub. apply (A (fun z : volts => z b p - LinearSESpec.seen o real direction (pr_voltage e) u b p) (volt_var m)).
    unfold LinearSESpec.residuals. apply in_app_iff. left. apply in_flat_map. exists b. split; [apply in_seq; lia|]. rewrite E. apply in_map_iff. exists p. split; [reflexivity|apply in_seq; lia].
  - specialize (IH b Kb). revert p Hp. apply (injective_same _ _ _ Inj). intros p Hp.
    assert (F : LinearSESpec.flow o np (pr_bus e) (pr_branch e) x k t p = LinearSESpec.flow o np (pr_bus e) (pr_branch e) y k t p).
    { assert (M : exists m, In m (LinearSESpec.flows o cj real direction (pr_bus e) (pr_voltage e) (pr_power e) (pr_current e) u k t)).
      { unfold LinearSESpec.flows. destruct Hm as [Hm|Hm].
        - destruct (pr_power e k t) as [m|]; [|congruence]. eexists. apply in_app_iff. left. left. reflexivity.
        - destruct (pr_current e k t) as [[[] m]|]; [| |congruence]; eexists; apply in_app_iff; right; left; reflexivity. }
      destruct M as [m M]. eapply same_sub. apply (A (fun z : volts => LinearSESpec.flow o np (pr_bus e) (pr_branch e) z k t p - fst (m p)) (snd (m p))).
      unfold LinearSESpec.residuals. apply in_app_iff. right. apply in_app_iff. left. apply in_flat_map. exists k. split; [apply in_seq; lia|]. apply in_flat_map. exists t. split; [destruct t; cbn; auto|].
      apply in_flat_map. exists m. split; [exact M|]. apply in_map_iff. exists p. split; [reflexivity|apply in_seq; lia]. }
    unfold LinearSESpec.flow in F. destruct side; cbn [negb] in *; rewrite E1, E2 in F; rewrite (through_ext _ (x b) (y b) p IH) in F; revert F;
      generalize (through (pr_branch e k t true) (y b) p) (through (pr_branch e k t false) (y b) p); intros h h' F.
    + eapply same_sub with (c := - h). transitivity (through (pr_branch e k t false) (x c) p + h); [ring|]. rewrite F. ring.
    + eapply same_sub with (c := - h'). transitivity (h' + through (pr_branch e k t true) (x c) p); [ring|]. rewrite F. ring.
  - revert p Hp. apply (injective_same _ _ _ Inj). intros p Hp. destruct (pr_shunt_power e k) as [m|] eqn:E; [|congruence].
    assert (F : - through (pr_shunt e k) (x b) p = - through (pr_shunt e k) (y b) p).
    { eapply same_sub. apply (A (fun z : volts => - through (pr_shunt e k) (z b) p - LinearSESpec.current_of o cj (value m p) (LinearSESpec.seen o real direction (pr_voltage e) u b p)) (variance m p)).
      unfold LinearSESpec.residuals. apply in_app_iff. right. apply in_app_iff. right. apply in_app_iff. left. apply in_flat_map. exists b. split; [apply in_seq; lia|]. apply in_flat_map. exists k. split; [exact Hk|]. rewrite E.
      apply in_map_iff. exists p. split; [reflexivity|apply in_seq; lia]. }
    transitivity (- - through (pr_shunt e k) (x b) p); [ring|]. rewrite F. ring.
  - assert (IHj : forall j, j < n -> j <> c -> forall p, through (pr_y e b j) (x j) p = through (pr_y e b j) (y j) p).
    { intros j Hj Hjc q0. destruct (Kj j Hj Hjc) as [Kn|Z]; [apply through_ext; exact (IH j Kn)|]. unfold LinearSESpec.through. apply nsum_ext. intros r0 _. rewrite !Z. ring. }
    clear IH. revert p Hp. apply (injective_same _ _ _ Inj). intros p Hp. destruct (pr_injection e b) as [m|] eqn:E; [|congruence].
    assert (F : injected e x b p = injected e y b p).
    { eapply same_sub. apply (A (fun z : volts => injected e z b p - LinearSESpec.current_of o cj (value m p) (LinearSESpec.seen o real direction (pr_voltage e) u b p)) (variance m p)).
      unfold LinearSESpec.residuals. apply in_app_iff. right. apply in_app_iff. right. apply in_app_iff. right. apply in_flat_map. exists b. split; [apply in_seq; lia|]. rewrite E.
      apply in_map_iff. exists p. split; [reflexivity|apply in_seq; lia]. }
    unfold LinearSESpec.injected in F.
    set (h z j := through (pr_y e b j) (z j : nat -> C) p) in *.
    assert (D : nsum o (map (fun j => h x j - h y j) (seq 0 n)) = zero). { rewrite (nsum_sub o L). unfold h. rewrite F. ring. }
    rewrite (nsum_ext o _ (fun j => if c =? j then h x j - h y j else zero)) in D.
    + rewrite (sum_pick o cj cabs positive nonneg P (fun j => h x j - h y j) n c Hc) in D. unfold h in D. transitivity (through (pr_y e b c) (x c) p - through (pr_y e b c) (y c) p + through (pr_y e b c) (y c) p); [ring|]. rewrite D. ring.
    + intros j Hj. apply in_seq in Hj. destruct (c =? j) eqn:Ej; [reflexivity|]. unfold h. rewrite IHj by lia. ring.
Qed.
(** Voltages that follow from the measurements one after the other are determined. *)
Theorem C68_known : problem_ok e -> (forall b, b < n -> known b) -> determined e.
Proof. intros Ho K u x y A b p Hb Hp. exact (known_agree u x y (ok_bus _ _ Ho) A b (K b Hb) p Hp). Qed.
(** Without exactly known injections there is nothing that they could contradict. *)
Theorem C68_no_exact : (forall b p, b < n -> p < np -> ~ exact o e b p) -> independent e.
Proof. intros H w Hw _ b p Hb Hp. destruct (Hw b p Hb Hp) as [E|E]; [elim (H b p Hb Hp E)|exact E]. Qed.
End Known.

(** ** Exactly one outcome *)
Definition one_solution e (u : volts) : Prop := exists x phi, solution e u x phi /\ forall x' phi', solution e u x' phi' -> forall b p, b < n -> p < np -> x' b p = x b p /\ phi' b p = phi b p.
Hypothesis eqdec : forall a b : C, {a = b} + {a <> b}.
Lemma unique_of e u x phi x' phi' : problem_ok e -> usable_measurements e -> determined e -> independent e -> solution e u x phi -> solution e u x' phi' -> forall b p, b < n -> p < np -> x' b p = x b p /\ phi' b p = phi b p.
Proof.
  intros Ho Hm Hd Hi H H' b p Hb Hp.
  destruct (unforced_zero e _ _ Ho Hm Hd Hi (sub_unforced o cj cabs positive nonneg P real np n e u x' phi' x phi H' H) b p Hb Hp) as [Z1 Z2].
  split; [transitivity (x' b p - x b p + x b p); [ring|rewrite Z1; ring]|transitivity (phi' b p - phi b p + phi b p); [ring|rewrite Z2; ring]].
Qed.
Theorem C68_one_solution : forall e, problem_ok e -> usable_measurements e -> determined e -> independent e -> forall u, one_solution e u.
Proof.
  intros e Ho Hm Hd Hi u. destruct (solvable_of_kernel o cj cabs positive nonneg P real np n eqdec e u) as (x & phi & H).
  { intros x phi U. exact (unforced_zero e x phi Ho Hm Hd Hi U). }
  exists x, phi. split; [exact H|]. intros x' phi' H'. exact (unique_of e u x phi x' phi' Ho Hm Hd Hi H H').
Qed.
(** Not otherwise, whatever the measured values and the voltages of the last iteration are. *)
Theorem C68_only_then : forall e, problem_ok e -> forall u, one_solution e u -> determined e /\ independent e.
Proof.
  intros e Ho u (x & phi & H & One).
  assert (K : forall d psi, unforced e d psi -> forall b p, b < n -> p < np -> d b p = zero /\ psi b p = zero).
  { intros d psi U b p Hb Hp. destruct (One _ _ (add_unforced o cj cabs positive nonneg P real np n e u x phi d psi H U) b p Hb Hp) as [E1 E2].
    split; [transitivity (x b p + d b p - x b p); [ring|rewrite E1; ring]|transitivity (phi b p + psi b p - phi b p); [ring|rewrite E2; ring]]. }
  split.
  - intros u' y z Hr b p Hb Hp. set (d := LinearSEFacts.minus o y z).
    assert (U : unforced e d (fun _ _ => zero)).
    { apply (unforced_blank o cj cabs positive nonneg P real np n e d).
      apply (exact_solution o cj cabs positive nonneg P np real n (pr_branches (blank_problem e)) (pr_bus (blank_problem e)) (pr_shunts (blank_problem e)) (pr_branch (blank_problem e)) (pr_shunt (blank_problem e)) (pr_y (blank_problem e)) (pr_voltage (blank_problem e)) (pr_power (blank_problem e)) (pr_current (blank_problem e)) (pr_shunt_power (blank_problem e)) (pr_injection (blank_problem e)) (ok_bus _ _ Ho) (ok_ends _ _ Ho)). intros f0 v H0.
      destruct (unblank_residual o cj cabs positive nonneg P real np n e u' d f0 v H0) as (f & Hf & D). pose proof (blank_residual_linear o cj cabs positive nonneg P real np n e d f0 v y z H0) as Lin.
      unfold d. rewrite Lin. rewrite <- D. rewrite (Hr f v Hf). ring. }
    destruct (K _ _ U b p Hb Hp) as [E _]. unfold d, LinearSEFacts.minus in E. transitivity (y b p - z b p + z b p); [ring|]. rewrite E. ring.
  - intros w Hw Hz b p Hb Hp. refine (proj2 (K (fun _ _ => zero) w _ b p Hb Hp)). clear b p Hb Hp.
    assert (None_zero : forall b p, b < n -> p < np -> pr_injection e b = None -> w b p = zero) by (intros b p Hb Hp E; destruct (Hw b p Hb Hp) as [(m & Em & _)|Z]; [congruence|exact Z]).
    intros b p Hb Hp. split.
    + rewrite (nsum_add o L), (nsum_zero o L); [|intros j _; apply dot_zero_at; reflexivity].
      transitivity (nsum o (map (fun i => LinearSEFacts.inner o cj np (LinearSEFacts.unit_at o b p i) (fun q0 => nsum o (map (fun j => dot o np (qh (LinearSE.gain_block o cj np (pr_branches e) (pr_bus e) (pr_shunts e) (pr_branch e) (pr_shunt e) (pr_y e) (pr_voltage e) (pr_power e) (pr_current e) (pr_shunt_power e) (pr_injection e) i j)) (w j) q0) (seq 0 n)))) (seq 0 n))).
      { rewrite (inner_unit o cj cabs positive nonneg P np n b p (fun i q0 => nsum o (map (fun j => dot o np (qh (LinearSE.gain_block o cj np (pr_branches e) (pr_bus e) (pr_shunts e) (pr_branch e) (pr_shunt e) (pr_y e) (pr_voltage e) (pr_power e) (pr_current e) (pr_shunt_power e) (pr_injection e) i j)) (w j) q0) (seq 0 n))) Hb Hp). ring. }
      rewrite <- (Hz (LinearSEFacts.unit_at o b p)).
      transitivity (nsum o (map (fun c => LinearSEFacts.inner o cj np (injected_at e (LinearSEFacts.unit_at o b p) c) (w c)) (seq 0 n))).
      * rewrite <- (qh_total o cj cabs positive nonneg P np n (pr_branches e) (pr_bus e) (pr_shunts e) (pr_branch e) (pr_shunt e) (pr_y e) (pr_voltage e) (pr_power e) (pr_current e) (pr_shunt_power e) (pr_injection e) (ok_bus _ _ Ho) (ok_ends _ _ Ho)).
        apply nsum_ext. intros i _. apply (inner_sum o cj cabs positive nonneg P).
      * apply nsum_ext. intros c Hc. apply in_seq in Hc. apply nsum_ext. intros p' Hp'. apply in_seq in Hp'. unfold LinearSEFacts.injected_at. destruct (pr_injection e c) eqn:E; [reflexivity|]. rewrite None_zero by (assumption || lia). ring.
    + rewrite (row2 o cj cabs positive nonneg P np n (pr_branches e)) by assumption.
      assert (I0 : injected_at e (fun _ _ => zero) b p = zero). { unfold LinearSEFacts.injected_at. destruct (pr_injection e b); [|reflexivity]. apply (injected_zero o cj cabs positive nonneg P real np n e). reflexivity. }
      rewrite I0. destruct (pr_injection e b) as [m|] eqn:E; [|rewrite None_zero by assumption; ring]. destruct (Hw b p Hb Hp) as [(m' & Em & V)|Z]; [|rewrite Z; ring].
      assert (m' = m) by congruence. subst m'. rewrite V. ring.
Qed.

(** ** The loop never stops for want of an outcome *)
Lemma itself e : renumbered o one n (fun b => b) (fun k => k) (fun k => k) (fun _ => false) e e.
Proof.
  assert (One : forall v, v = one * v) by (intros; ring).
  constructor; intros; cbn [xorb]; rewrite ?map_id; try reflexivity.
  - destruct s; cbn; destruct (pr_bus e k _); reflexivity.
  - destruct s, b; reflexivity.
  - destruct (pr_voltage e b) as [m|]; [|exact I]. cbn. auto.
  - destruct s; cbn; destruct (pr_power e k _); cbn; try exact I; unfold rescaled; auto.
  - destruct s; cbn; destruct (pr_current e k _); cbn; try exact I; unfold rescaled; auto.
  - destruct (pr_shunt_power e k) as [m|]; cbn; try exact I; unfold rescaled; auto.
  - destruct (pr_injection e b) as [m|]; cbn; try exact I; unfold rescaled; auto.
Qed.
Lemma one_positive : nonneg one /\ one <> zero.
Proof. split; [exact (ls_nonneg_one o cj cabs positive nonneg P)|exact (F_1_neq_0 (nl_field o L))]. Qed.
Theorem C68_estimation : forall e has_angle slack start k, problem_ok e -> usable_measurements e -> determined e -> independent e -> slack < n -> 0 < np ->
  exists v, estimates (iteration e has_angle slack) start k v /\ forall v', estimates (iteration e has_angle slack) start k v' -> forall b p, b < n -> p < np -> v' b p = v b p.
Proof.
  intros e has_angle slack start k Ho Hm Hd Hi Hs Hn.
  assert (X : exists v, estimates (iteration e has_angle slack) start k v).
  { induction k as [|k [v IH]]; [exists start; constructor|]. destruct (C68_one_solution e Ho Hm Hd Hi v) as (x & phi & H & _).
    exists (iterate o cabs has_angle slack x). econstructor; [exact IH|]. exists x, phi. split; [exact H|reflexivity]. }
  destruct X as [v Hv]. exists v. split; [exact Hv|]. intros v' Hv'.
  exact (C67_estimation o cj cabs positive nonneg P real np n has_angle one (fun b => b) (fun k => k) (fun k => k) (fun _ => false) e e slack one_positive (itself e) Ho Ho Hm Hm Hd Hs Hn start start k v v' (fun _ _ _ _ => eq_refl) Hv Hv').
Qed.

(** ** Whatever the order of the components: both estimations have estimates, and the same ones (C67) *)
Section Renumbered.
Variables (c : C) (r rk rs : nat -> nat) (turned : nat -> bool) (e e' : problem C).
Hypothesis c_positive : nonneg c /\ c <> zero.
Hypothesis R : renumbered o c n r rk rs turned e e'.
Hypothesis ends : problem_ok e.
Lemma number_of b : b < n -> exists a, a < n /\ r a = b.
Proof.
  intros Hb. assert (H : In b (map r (seq 0 n))) by (eapply Permutation_in; [symmetry; exact (re_buses _ _ _ _ _ _ _ _ _ R)|apply in_seq; lia]).
  apply in_map_iff in H as (a & E & Ha). apply in_seq in Ha. exists a. split; [lia|exact E].
Qed.
Lemma determined_renumbered : determined e -> determined e'.
Proof.
  intros Hd u' x' y' A b p Hb Hp. destruct (number_of b Hb) as (a & Ha & <-).
  apply (Hd (fun b => u' (r b)) (fun b => x' (r b)) (fun b => y' (r b))); [|exact Ha|exact Hp]. intros f v Hf.
  pose proof (residuals_same o cj cabs positive nonneg P real np n c r rk rs turned e e' R ends (fun b => u' (r b)) u' (fun b => x' (r b)) x' (fun b => y' (r b)) y' (fun _ _ _ _ => eq_refl) (fun _ _ _ _ => eq_refl) (fun _ _ _ _ => eq_refl)) as S'.
  assert (I : In (f (fun b => x' (r b)), f (fun b => y' (r b)), c * v) (map (fun f => (fst f x', fst f y', snd f)) (residuals e' u'))).
  { eapply Permutation_in; [symmetry; exact S'|]. apply in_map_iff. exists (f, v). split; [reflexivity|exact Hf]. }
  apply in_map_iff in I as ([f' v'] & E & Hf'). cbn [fst snd] in E. injection E as E1 E2 _. rewrite <- E1, <- E2. exact (A f' v' Hf').
Qed.
Lemma independent_renumbered : independent e -> independent e'.
Proof.
  intros Hi w Hw Hz b p Hb Hp. destruct (number_of b Hb) as (a & Ha & <-). apply (Hi (fun b => w (r b))); [| |exact Ha|exact Hp].
  - intros i q0 Hbi Hq. assert (Hri : r i < n). { assert (H : In (r i) (seq 0 n)) by (eapply Permutation_in; [exact (re_buses _ _ _ _ _ _ _ _ _ R)|apply in_map, in_seq; lia]). apply in_seq in H. lia. }
    destruct (Hw (r i) q0 Hri Hq) as [(m' & E' & V)|Z]; [left|right; exact Z]. pose proof (re_injection _ _ _ _ _ _ _ _ _ R i Hbi) as Ri. rewrite E' in Ri. unfold exact.
    destruct (pr_injection e i) as [m|]; cbn in Ri; [|contradiction]. exists m. split; [reflexivity|]. destruct (Ri q0) as [_ Rv]. rewrite V in Rv.
    transitivity (n_inv o c * (c * variance m q0)); [field; exact (proj2 c_positive)|]. rewrite <- Rv. ring.
  - intros z. destruct (inverse r n n (re_buses _ _ _ _ _ _ _ _ _ R)) as [g0 Hg]. rewrite <- (Hz (fun b => z (g0 b))).
    symmetry. etransitivity; [symmetry; apply (nsum_perm_se o cj cabs positive nonneg P _ _ _ (re_buses _ _ _ _ _ _ _ _ _ R))|]. rewrite map_map. apply nsum_ext. intros i Hbi. apply in_seq in Hbi. apply nsum_ext. intros q0 _.
    rewrite (injected_same o cj cabs positive nonneg P real np n c r rk rs turned e e' R z (fun b => z (g0 b)) i q0); [reflexivity| |lia]. intros j s Hj _. rewrite Hg by exact Hj. reflexivity.
Qed.
Theorem C68_renumbered : forall has_angle slack start start' k, problem_ok e' -> usable_measurements e -> usable_measurements e' -> determined e -> independent e -> slack < n -> 0 < np -> same_voltages np n r start start' ->
  exists v v', estimates (iteration e has_angle slack) start k v /\ estimates (iteration e' has_angle (r slack)) start' k v' /\ same_voltages np n r v v'.
Proof.
  intros has_angle slack start start' k Ho' Hm Hm' Hd Hi Hs Hn Hst.
  assert (Hs' : r slack < n). { assert (H : In (r slack) (seq 0 n)) by (eapply Permutation_in; [exact (re_buses _ _ _ _ _ _ _ _ _ R)|apply in_map, in_seq; lia]). apply in_seq in H. lia. }
  destruct (C68_estimation e has_angle slack start k ends Hm Hd Hi Hs Hn) as (v & Hv & _).
  destruct (C68_estimation e' has_angle (r slack) start' k Ho' Hm' (determined_renumbered Hd) (independent_renumbered Hi) Hs' Hn) as (v' & Hv' & _).
  exists v, v'. split; [exact Hv|]. split; [exact Hv'|].
  exact (C67_estimation o cj cabs positive nonneg P real np n has_angle c r rk rs turned e e' slack c_positive R ends Ho' Hm Hm' Hd Hs Hn start start' k v v' Hst Hv Hv').
Qed.
End Renumbered.

End Props.

(** ** Example: the problem of C56's example has an exactly known injection; a grid of two buses with a voltage sensor at one bus and a power sensor at the branch *)
Section Example.
Context {C : Type} (o : num_ops C) (cj cabs : C -> C) (positive : C -> bool) (nonneg : C -> Prop).
Hypothesis P : se_laws o cj cabs positive nonneg.
Variable real : C -> C.
Add Field NumFieldExX : (nl_field o (se_num _ _ _ _ _ P)).
Local Notation zero := (n_zero o). Local Notation one := (n_one o).
Local Notation ls := (ls_problem o).
Definition flow_problem : problem C := mkProblem _ 1 ls_branch_bus (fun _ => []) (ls_param o) (fun _ _ _ => zero) (ls_ybus o)
  (fun b => if b =? 0 then ls_voltage o b else None) (fun k s => if s then Some (mkRand (fun _ => one) (fun _ => one)) else None) (fun _ _ => None) (fun _ => None) (fun _ => None).
Theorem C68_example :
  (determined o cj cabs positive real 1 2 ls /\ independent o cj 1 2 ls /\ exact o ls 1 0) /\
  (branches_ok 2 (pr_bus flow_problem) /\ measurements_ok o nonneg (pr_voltage flow_problem) (pr_power flow_problem) (pr_current flow_problem) (pr_shunt_power flow_problem) (pr_injection flow_problem) /\
   (forall b, b < 2 -> known o 1 2 flow_problem b) /\ forall b p, b < 2 -> p < 1 -> ~ exact o flow_problem b p).
Proof.
  assert (N1 : one <> zero) by exact (F_1_neq_0 (nl_field o (se_num _ _ _ _ _ P))). assert (J1 : cj one = one) by apply (cj_one o cj cabs positive nonneg P).
  pose proof (ls_nonneg_one o cj cabs positive nonneg P) as Pos.
  assert (X : exact o ls 1 0) by (exists (mkRand (fun _ => zero) (fun _ => zero)); cbn; split; reflexivity).
  split; [|split; [apply ls_branches|]; split; [|split]].
  - split; [exact (proj1 (proj2 (proj2 (proj2 (proj2 (proj2 (C67_example o cj cabs positive nonneg P real)))))))|]. split; [|exact X].
    intros w Hw Hz. assert (W0 : w 0 0 = zero). { destruct (Hw 0 0) as [(m & E & _)|Z]; [lia|lia|discriminate|exact Z]. }
    specialize (Hz (fun b _ => if b =? 1 then one else zero)). cbn in Hz. unfold nsum, LinearSESpec.injected, LinearSESpec.through, nsum, ls_ybus in Hz. cbn in Hz. rewrite W0 in Hz.
    intros b p Hb Hp. assert (p = 0) by lia. subst p. destruct b as [|[|b]]; [exact W0| |lia]. rewrite <- Hz.
    repeat match goal with |- context [cj ?t] => first [replace (cj t) with one by (transitivity (cj one); [symmetry; exact J1|f_equal; ring]) | generalize (cj t); intro] end. ring.
  - constructor; try discriminate; cbn.
    + intros b m. destruct (b =? 0); [|discriminate]. intros E. injection E as <-. split; [exact Pos|exact N1].
    + intros k [] m p E; [|discriminate]. injection E as <-. split; [exact Pos|exact N1].
  - assert (K0 : known o 1 2 flow_problem 0) by (apply known_voltage; [lia|cbn; discriminate]).
    intros [|[|b]] Hb; [exact K0| |lia]. apply (known_flow o 1 2 flow_problem 0 1 0 false true K0); try (cbn; lia); try reflexivity.
    + left. cbn. discriminate.
    + intros v Hv p Hp. assert (p = 0) by lia. subst p. specialize (Hv 0 Hp). unfold LinearSESpec.through, nsum in Hv. cbn in Hv. unfold ls_param in Hv. cbn in Hv.
      match type of Hv with ?t = _ => first [transitivity t; [ring|exact Hv]|transitivity (n_opp o t); [ring|rewrite Hv; ring]] end.
  - intros b p _ _ (m & E & _). discriminate.
Qed.
End Example.
Print Assumptions C68_one_solution. Print Assumptions C68_only_then. Print Assumptions C68_estimation. Print Assumptions C68_renumbered. Print Assumptions C68_known. Print Assumptions C68_no_exact. Print Assumptions C68_example.
