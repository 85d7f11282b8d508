(** Facts about renumbered state estimations. *)
From Coq Require Import Field Permutation.
From Verif Require Import Common Numbers ShortCircuit ShortCircuitFacts LinearSE LinearSESpec LinearSEFacts EstimateOrderSpec.

Lemma map_flat {A B D} (f : B -> D) (g : A -> list B) l : map f (flat_map g l) = flat_map (fun x => map f (g x)) l.
Proof. induction l as [|x l IH]; cbn [flat_map map]; [reflexivity|]. rewrite map_app, IH. reflexivity. Qed.
Lemma flat_perm {A B} (F F' : A -> list B) l : (forall x, In x l -> Permutation (F' x) (F x)) -> Permutation (flat_map F' l) (flat_map F l).
Proof. induction l as [|x l IH]; intros H; cbn [flat_map]; [constructor|]. apply Permutation_app; [apply H; left; reflexivity|]. apply IH. intros y Hy. apply H. right. exact Hy. Qed.
Lemma flat_renamed {B} (r : nat -> nat) (F F' : nat -> list B) l l' : Permutation (map r l) l' -> (forall b, In b l -> Permutation (F' (r b)) (F b)) -> Permutation (flat_map F' l') (flat_map F l).
Proof.
  intros H E. transitivity (flat_map F' (map r l)); [apply Permutation_flat_map; now symmetry|].
  rewrite flat_map_concat_map, map_map, <- flat_map_concat_map. now apply flat_perm.
Qed.
Lemma flat_eq {A B} (F F' : A -> list B) l : (forall x, In x l -> F' x = F x) -> flat_map F' l = flat_map F l.
Proof. induction l as [|x l IH]; intros H; cbn [flat_map]; [reflexivity|]. rewrite H by (left; reflexivity). f_equal. apply IH. intros y Hy. apply H. right. exact Hy. Qed.

Section Order.
Context {C : Type} (o : num_ops C) (cj cabs : C -> C) (positive : C -> bool) (nonneg : C -> Prop).
Hypothesis P : se_laws o cj cabs positive nonneg.
Add Field NumFieldOrdSE : (nl_field o (se_num _ _ _ _ _ P)).
Local Notation "a + b" := (n_add o a b) : num_scope. Local Notation "a * b" := (n_mul o a b) : num_scope. Local Notation "a - b" := (n_sub o a b) : num_scope.
Local Notation "a / b" := (n_div o a b) : num_scope. Local Notation "- a" := (n_opp o a) : num_scope.
Local Notation zero := (n_zero o). Local Notation one := (n_one o).
Local Open Scope num_scope.
Variables (real : C -> C) (np n : nat).
Local Notation direction := (phase_shift o cabs positive).
Local Notation volts := (nat -> nat -> C).
Local Notation residuals e := (LinearSESpec.residuals o cj real direction np n (pr_branches e) (pr_bus e) (pr_shunts e) (pr_branch e) (pr_shunt e) (pr_y e) (pr_voltage e) (pr_power e) (pr_current e) (pr_shunt_power e) (pr_injection e)).
Local Notation exact_met e := (LinearSESpec.exact_met o cj real direction np n (pr_branches e) (pr_bus e) (pr_shunts e) (pr_branch e) (pr_shunt e) (pr_y e) (pr_voltage e) (pr_power e) (pr_current e) (pr_shunt_power e) (pr_injection e)).
Local Notation change_sum e := (LinearSEFacts.change_sum o cj cabs positive np real n (pr_branches e) (pr_bus e) (pr_shunts e) (pr_branch e) (pr_shunt e) (pr_y e) (pr_voltage e) (pr_power e) (pr_current e) (pr_shunt_power e) (pr_injection e)).
Local Notation seen e := (LinearSESpec.seen o real direction (pr_voltage e)).
Local Notation flow e := (LinearSESpec.flow o np (pr_bus e) (pr_branch e)).
Local Notation injected e := (LinearSESpec.injected o np n (pr_y e)).
Local Notation at_side e := (LinearSESpec.at_side o real direction (pr_bus e) (pr_voltage e)).
Local Notation current_of := (LinearSESpec.current_of o cj).
Local Notation through := (LinearSESpec.through o np).
Local Notation problem_ok e := (branches_ok n (pr_bus e)).
Local Notation usable_measurements e := (measurements_ok o nonneg (pr_voltage e) (pr_power e) (pr_current e) (pr_shunt_power e) (pr_injection e)).

Lemma nsum_perm_se {A} (f : A -> C) l l' : Permutation l l' -> nsum o (map f l) = nsum o (map f l').
Proof. induction 1 as [|x l l' _ IH|x y l|l l' l'' _ IH _ IH']; [reflexivity| | |congruence]; unfold nsum in *; cbn [map fold_right]; [now rewrite IH|ring]. Qed.

(** ** Two voltages that do not improve on each other give the same residuals *)
Lemma agree_of_change e u x y : problem_ok e -> usable_measurements e -> exact_met e u x -> exact_met e u y -> change_sum e u x y = zero -> change_sum e u y x = zero ->
  forall f v, In (f, v) (residuals e u) -> f x = f y.
Proof.
  intros OB OM E1 E2 Z1 Z2.
  assert (K : forall f v, In (f, v) (residuals e u) -> nonneg v) by (intros f v Hf; exact (proj1 (residual_kind o cj cabs positive nonneg np real n _ _ _ _ _ _ _ _ _ _ _ (ok_bus _ _ OB) (ok_ends _ _ OB) OM u f v Hf))).
  assert (Z : nsum o (map (fun r => LinearSESpec.abs2 o cj (fst r y - fst r x) / snd r) (residuals e u)) = zero).
  { transitivity (- (change_sum e u x y + change_sum e u y x)); [|rewrite Z1, Z2; ring]. unfold LinearSEFacts.change_sum. rewrite <- (nsum_add o (se_num _ _ _ _ _ P)).
    match goal with |- _ = - nsum o (map ?F ?l) => transitivity (nsum o (map (fun _ => zero) l) - nsum o (map F l)); [|rewrite (nsum_zero o (se_num _ _ _ _ _ P)) by reflexivity; ring] end.
    rewrite <- (nsum_sub o (se_num _ _ _ _ _ P)). apply nsum_ext. intros [f v] _. cbn [fst snd]. rewrite !(div_inv o cj cabs positive nonneg P).
    unfold LinearSESpec.abs2. rewrite !(cj_sub o cj cabs positive nonneg P).
    ring. }
  intros f v Hf. destruct (se_zero _ _ _ _ _ P v) as [V|V].
  - rewrite (E1 f v Hf V), (E2 f v Hf V). reflexivity.
  - assert (T : LinearSESpec.abs2 o cj (f y - f x) / v = zero).
    { apply (nonneg_sum_zero o cj cabs positive nonneg P (fun r => LinearSESpec.abs2 o cj (fst r y - fst r x) / snd r) (residuals e u)) with (i := (f, v)); [|exact Z|exact Hf]. intros [f' v'] Hr. cbn [fst snd]. rewrite (div_inv o cj cabs positive nonneg P).
      destruct (se_zero _ _ _ _ _ P v') as [V'|V'].
      - rewrite (E1 f' v' Hr V'), (E2 f' v' Hr V'). replace (LinearSESpec.abs2 o cj (zero - zero) * n_inv o v') with zero; [apply (nonneg_zero o cj cabs positive nonneg P)|]. unfold LinearSESpec.abs2. ring.
      - apply (se_nonneg_mul _ _ _ _ _ P); [apply (se_nonneg_square _ _ _ _ _ P)|]. apply (nonneg_inv o cj cabs positive nonneg P); [|exact V']. exact (K f' v' Hr). }
    assert (Z' : f y - f x = zero). { apply (abs2_zero o cj cabs positive nonneg P). transitivity (LinearSESpec.abs2 o cj (f y - f x) / v * v); [unfold LinearSESpec.abs2; field; exact V|]. rewrite T. ring. }
    transitivity (f y - (f y - f x)); [ring|]. rewrite Z'. ring.
Qed.

(** ** The residuals of the renumbered problem *)
Variables (c : C) (r rk rs : nat -> nat) (turned : nat -> bool) (e e' : problem C).
Hypothesis c_positive : nonneg c /\ c <> zero.
Hypothesis R : renumbered o c n r rk rs turned e e'.
Hypothesis ends : problem_ok e.
Local Notation same z z' := (forall b p, b < n -> p < np -> z' (r b) p = z b p).
Lemma through_same (y y' : nat -> nat -> C) (z z' : nat -> C) p : (forall q, y' p q = y p q) -> (forall q, q < np -> z' q = z q) -> through y' z' p = through y z p.
Proof. intros Hy Hz. apply nsum_ext. intros q Hq. apply in_seq in Hq. rewrite Hy, Hz by lia. reflexivity. Qed.
Lemma flow_same z z' k s p : same z z' -> k < pr_branches e -> flow e' z' (rk k) (xorb (turned k) s) p = flow e z k s p.
Proof.
  intros Hz Hk.
  assert (Part : forall b, match pr_bus e' (rk k) (xorb (turned k) b) with Some j => through (pr_branch e' (rk k) (xorb (turned k) s) (xorb (turned k) b)) (z' j) p | None => zero end =
    match pr_bus e k b with Some j => through (pr_branch e k s b) (z j) p | None => zero end).
  { intros b. rewrite (re_bus _ _ _ _ _ _ _ _ _ R k b Hk). destruct (pr_bus e k b) as [j|] eqn:E; cbn [option_map]; [|reflexivity]. apply through_same.
    - intros q. apply (re_branch _ _ _ _ _ _ _ _ _ R); exact Hk.
    - intros q Hq. apply Hz; [exact (ok_bus _ _ ends k b j E)|exact Hq]. }
  unfold LinearSESpec.flow. pose proof (Part false) as P0. pose proof (Part true) as P1. destruct (turned k); cbn [xorb negb] in P0, P1 |- *; rewrite P0, P1; ring.
Qed.
Lemma injected_same z z' b p : same z z' -> b < n -> injected e' z' (r b) p = injected e z b p.
Proof.
  intros Hz Hb. unfold LinearSESpec.injected. rewrite <- (nsum_perm_se _ _ _ (re_buses _ _ _ _ _ _ _ _ _ R)), map_map. apply nsum_ext. intros j Hj. apply in_seq in Hj. apply through_same.
  - intros q. apply (re_y _ _ _ _ _ _ _ _ _ R); lia.
  - intros q Hq. apply Hz; [lia|exact Hq].
Qed.
Lemma seen_same u u' b p : same u u' -> b < n -> p < np -> seen e' u' (r b) p = seen e u b p.
Proof.
  intros Hu Hb Hp. unfold LinearSESpec.seen. pose proof (re_voltage _ _ _ _ _ _ _ _ _ R b Hb) as H. destruct (pr_voltage e b) as [m|], (pr_voltage e' (r b)) as [m'|]; try contradiction; [|now apply Hu].
  destruct H as (F & V & _). rewrite F, V, Hu by assumption. reflexivity.
Qed.
Lemma side_same u u' k s p : same u u' -> k < pr_branches e -> p < np -> at_side e' u' (rk k) (xorb (turned k) s) p = at_side e u k s p.
Proof.
  intros Hu Hk Hp. unfold LinearSESpec.at_side. rewrite (re_bus _ _ _ _ _ _ _ _ _ R k s Hk). destruct (pr_bus e k s) as [j|] eqn:E; cbn [option_map]; [|reflexivity].
  apply seen_same; [exact Hu|exact (ok_bus _ _ ends k s j E)|exact Hp].
Qed.
Lemma residuals_same u u' z z' x x' : same u u' -> same z z' -> same x x' ->
  Permutation (map (fun f => (fst f z', fst f x', snd f)) (residuals e' u')) (map (fun f => (fst f z, fst f x, c * snd f)) (residuals e u)).
Proof.
  intros Hu Hz Hx. unfold LinearSESpec.residuals. rewrite !map_app, !map_flat. apply Permutation_app; [|apply Permutation_app; [|apply Permutation_app]].
  - apply (flat_renamed r); [exact (re_buses _ _ _ _ _ _ _ _ _ R)|]. intros b Hb. apply in_seq in Hb. assert (Hb' : b < n) by lia.
    pose proof (re_voltage _ _ _ _ _ _ _ _ _ R b Hb') as H. assert (Se : forall p, p < np -> seen e' u' (r b) p = seen e u b p) by (intros p Hp; now apply seen_same).
    destruct (pr_voltage e b) as [m|], (pr_voltage e' (r b)) as [m'|]; try contradiction; [|constructor]. destruct H as (_ & _ & V).
    rewrite !map_map. cbn [fst snd]. erewrite map_ext_in; [reflexivity|]. intros p Hp. apply in_seq in Hp. cbn beta. rewrite V, Se, Hz, Hx by lia. reflexivity.
  - apply (flat_renamed rk); [exact (re_branches _ _ _ _ _ _ _ _ _ R)|]. intros k Hk. apply in_seq in Hk. assert (Hk' : k < pr_branches e) by lia. rewrite !map_flat.
    set (F := fun s => map (fun f => (fst f z, fst f x, c * snd f)) (flat_map (fun m => map (fun p => (fun z : volts => flow e z k s p - fst (m p), snd (m p))) (seq 0 np)) (LinearSESpec.flows o cj real direction (pr_bus e) (pr_voltage e) (pr_power e) (pr_current e) u k s))).
    set (F' := fun s => map (fun f => (fst f z', fst f x', snd f)) (flat_map (fun m => map (fun p => (fun z : volts => flow e' z (rk k) s p - fst (m p), snd (m p))) (seq 0 np)) (LinearSESpec.flows o cj real direction (pr_bus e') (pr_voltage e') (pr_power e') (pr_current e') u' (rk k) s))).
    assert (Q : forall s, F' (xorb (turned k) s) = F s).
    { intros s. unfold F, F', LinearSESpec.flows. rewrite !map_flat.
      assert (Fz : forall p, flow e' z' (rk k) (xorb (turned k) s) p = flow e z k s p) by (intros p; now apply flow_same).
      assert (Fx : forall p, flow e' x' (rk k) (xorb (turned k) s) p = flow e x k s p) by (intros p; now apply flow_same).
      assert (A : forall p, p < np -> at_side e' u' (rk k) (xorb (turned k) s) p = at_side e u k s p) by (intros p Hp; now apply side_same).
      rewrite !flat_map_app. f_equal.
      - pose proof (re_power _ _ _ _ _ _ _ _ _ R k s Hk') as H. destruct (pr_power e k s) as [m|], (pr_power e' (rk k) (xorb (turned k) s)) as [m'|]; try contradiction; [|reflexivity].
        cbn [flat_map]. rewrite !app_nil_r, !map_map. apply map_ext_in. intros p Hp. apply in_seq in Hp. cbn [fst snd]. destruct (H p) as [H1 H2]. rewrite Fz, Fx, A, H1, H2 by lia. reflexivity.
      - pose proof (re_current _ _ _ _ _ _ _ _ _ R k s Hk') as H. destruct (pr_current e k s) as [[t m]|], (pr_current e' (rk k) (xorb (turned k) s)) as [[t' m']|]; try contradiction; [|reflexivity].
        destruct H as [Ht H]. cbn [fst snd] in Ht, H. subst t'. destruct t; cbn [flat_map]; rewrite !app_nil_r, !map_map; apply map_ext_in; intros p Hp; apply in_seq in Hp; cbn [fst snd]; destruct (H p) as [H1 H2];
          rewrite ?Fz, ?Fx, ?H1, ?H2, ?A by lia; reflexivity. }
    change (Permutation (flat_map F' [false; true]) (flat_map F [false; true])). pose proof (Q false) as Q0. pose proof (Q true) as Q1. cbn [flat_map]. rewrite !app_nil_r.
    destruct (turned k); cbn [xorb negb] in Q0, Q1; rewrite Q0, Q1; [apply Permutation_app_comm|reflexivity].
  - apply (flat_renamed r); [exact (re_buses _ _ _ _ _ _ _ _ _ R)|]. intros b Hb. apply in_seq in Hb. assert (Hb' : b < n) by lia. rewrite !map_flat.
    assert (Se : forall p, p < np -> seen e' u' (r b) p = seen e u b p) by (intros p Hp; now apply seen_same).
    apply (flat_renamed rs); [symmetry; exact (re_shunts _ _ _ _ _ _ _ _ _ R b Hb')|]. intros k Hk. pose proof (re_shunt_power _ _ _ _ _ _ _ _ _ R b k Hb' Hk) as H.
    assert (T : forall w w' p, same w w' -> through (pr_shunt e' (rs k)) (w' (r b)) p = through (pr_shunt e k) (w b) p).
    { intros w w' p Hw. apply through_same; [intros q; now apply (re_shunt _ _ _ _ _ _ _ _ _ R b)|]. intros q Hq. now apply Hw. }
    destruct (pr_shunt_power e k) as [m|], (pr_shunt_power e' (rs k)) as [m'|]; try contradiction; [|constructor].
    rewrite !map_map. cbn [fst snd]. erewrite map_ext_in; [reflexivity|]. intros p Hp. apply in_seq in Hp. cbn beta. destruct (H p) as [H1 H2]. rewrite H1, H2, Se, (T z z' p Hz), (T x x' p Hx) by lia. reflexivity.
  - apply (flat_renamed r); [exact (re_buses _ _ _ _ _ _ _ _ _ R)|]. intros b Hb. apply in_seq in Hb. assert (Hb' : b < n) by lia.
    assert (Se : forall p, p < np -> seen e' u' (r b) p = seen e u b p) by (intros p Hp; now apply seen_same).
    pose proof (re_injection _ _ _ _ _ _ _ _ _ R b Hb') as H. destruct (pr_injection e b) as [m|], (pr_injection e' (r b)) as [m'|]; try contradiction; [|constructor].
    rewrite !map_map. cbn [fst snd]. erewrite map_ext_in; [reflexivity|]. intros p Hp. apply in_seq in Hp. cbn beta. destruct (H p) as [H1 H2].
    rewrite H1, H2, Se, (injected_same z z' b p Hz Hb'), (injected_same x x' b p Hx Hb') by lia. reflexivity.
Qed.
Lemma mul_c_zero v : c * v = zero <-> v = zero.
Proof. destruct c_positive as [_ Hc]. split; [intros H; transitivity (n_inv o c * (c * v)); [field; exact Hc|rewrite H; ring]|intros ->; ring]. Qed.
Lemma exact_same u u' z z' : same u u' -> same z z' -> exact_met e' u' z' <-> exact_met e u z.
Proof.
  intros Hu Hz. pose proof (residuals_same u u' z z' z z' Hu Hz Hz) as H. split; intros M f v Hf Hv.
  - assert (I : In (f z, f z, c * v) (map (fun f => (fst f z', fst f z', snd f)) (residuals e' u'))).
    { eapply Permutation_in; [symmetry; exact H|]. apply in_map_iff. exists (f, v). split; [reflexivity|exact Hf]. }
    apply in_map_iff in I as ([f' v'] & E & Hf'). cbn [fst snd] in E. injection E as E1 _ E2. rewrite <- E1. apply (M f' v' Hf'). rewrite E2. now apply mul_c_zero.
  - assert (I : In (f z', f z', v) (map (fun f => (fst f z, fst f z, c * snd f)) (residuals e u))).
    { eapply Permutation_in; [exact H|]. apply in_map_iff. exists (f, v). split; [reflexivity|exact Hf]. }
    apply in_map_iff in I as ([f' v'] & E & Hf'). cbn [fst snd] in E. injection E as E1 _ E2. rewrite <- E1. apply (M f' v' Hf'). apply mul_c_zero. now rewrite E2.
Qed.
Lemma change_same u u' x x' z z' : same u u' -> same x x' -> same z z' -> exact_met e u x -> exact_met e u z -> change_sum e' u' x' z' = n_inv o c * change_sum e u x z.
Proof.
  intros Hu Hx Hz Mx Mz. pose proof (residuals_same u u' z z' x x' Hu Hz Hx) as H. destruct c_positive as [_ Hc].
  apply (nsum_perm_se (fun t => one / snd t * (cj (fst (fst t) - snd (fst t)) * snd (fst t)))) in H. rewrite !map_map in H. cbn [fst snd] in H.
  unfold LinearSEFacts.change_sum. etransitivity; [exact H|]. rewrite <- (nsum_scale o (se_num _ _ _ _ _ P)). apply nsum_ext. intros [f v] Hf. cbn [fst snd]. destruct (se_zero _ _ _ _ _ P v) as [V|V].
  - rewrite (Mx f v Hf V). ring.
  - field. split; assumption.
Qed.
End Order.
