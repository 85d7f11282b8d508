(** C68 for the grids of C64: in a connected grid with losses the state estimation has exactly one outcome if every injection is measured or zero and some voltage is known. *)
From Coq Require Import Reals Lra Lia.
From Verif Require Import Common NatMap GroupedIdx Numbers ShortCircuit ShortCircuitFacts PowerFlow BalancedSpec BalancedFacts BalancedGrid YBus YBusSpec Units UnitsFacts Ratings RatingsFacts LossesSpec LossesFacts LossesMore SolvableSpec SolvableFacts SolvableKernel SolvableProps SolvableExamples.
From Verif Require Import LinearSE LinearSESpec LinearSEFacts BalancedSE EstimateOrderSpec EstimateOrderProps EstimateExistsSpec EstimateExistsProps.
From Verif Require TwoPort TwoPortSpec TwoPortFacts.
Import TwoPort (phase, PhA, PhB, PhC, two_port, mat, dotv, calc_param_sym).
Local Open Scope R_scope.

(** ** The complex numbers *)
Definition real_nonneg (z : C) : Prop := im z = 0 /\ 0 <= re z.
Definition positive_real (z : C) : bool := if Rlt_dec 0 (re z) then true else false.
Lemma complex_se_laws : se_laws cnum conj (TwoPort.c_abs complex_ops) positive_real real_nonneg.
Proof.
  constructor.
  - exact cl.
  - intros [x x'] [y y']. cbn. unfold conj, cadd, re, im. cbn [fst snd]. f_equal; ring.
  - intros [x x'] [y y']. cbn. unfold conj, cmul, re, im. cbn [fst snd]. f_equal; ring.
  - intros [x x']. unfold conj, re, im. cbn [fst snd]. f_equal; ring.
  - exact abs_square_c.
  - intros x. cbn. unfold conj, re, im. cbn [fst snd]. f_equal; ring.
  - intros x H ->. unfold positive_real in H. destruct (Rlt_dec 0 (re (n_zero cnum))) as [K|K]; [cbn in K; lra|discriminate].
  - intros [x x'] [H _]. unfold conj, re, im in *. cbn [fst snd] in *. rewrite H. f_equal; ring.
  - intros [x x']. cbn. unfold real_nonneg, cmul, conj, re, im. cbn [fst snd]. split; [ring|]. pose proof (Rle_0_sqr x). pose proof (Rle_0_sqr x'). unfold Rsqr in *. lra.
  - intros [x x'] [y y'] [H1 H2] [H3 H4]. cbn. unfold real_nonneg, cadd, re, im in *. cbn [fst snd] in *. split; lra.
  - intros [x x'] [y y'] [H1 H2] [H3 H4]. cbn. unfold real_nonneg, cmul, re, im in *. cbn [fst snd] in *. rewrite H1, H3. split; [ring|]. pose proof (Rmult_le_pos _ _ H2 H4). lra.
  - intros [x x'] [H1 H2] [H3 H4]. cbn in *. unfold cneg, re, im in *. cbn [fst snd] in *. f_equal; lra.
  - intros x. destruct (c_dec x (n_zero cnum)); [left|right]; assumption.
Qed.

Section Grid.
Variable np : nat.
Context {Y S' : Type} (ten : Y -> nat -> nat -> C) (yadd : Y -> Y -> Y) (yzero : Y).
Hypothesis ten_add : forall a b p q, ten (yadd a b) p q = cadd (ten a p q) (ten b p q).
Hypothesis ten_0 : forall p q, ten yzero p q = (0, 0).
Variables (t : math_topo) (prm : @model_param Y S').
Hypothesis ok : sub_grid_ok t.
Notation n := (mt_n_bus t).
Notation dot := (ShortCircuit.dot cnum np).
Notation branches := (combine (mt_branch t) (p_branch prm)).
Notation shunts := (combine (d_vec (mt_shunt t)) (p_shunt prm)).
Notation Y' := (SolvableFacts.ybus ten yadd yzero t prm).
Hypothesis passive_branches : forall q, In q (p_branch prm) -> passive_branch cnum np ten q.
Hypothesis passive_shunts : forall g, In g (p_shunt prm) -> passive_admittance cnum np ten g.
(** Voltages that are zero at some buses and take no active power are zero at all buses connected to those. *)
Lemma spreads (d : nat -> nat -> C) (anchor : nat -> Prop) :
  rsum (map (fun b => power np (d b) (fun p => nsum cnum (map (fun j => dot (Y' b j) (d j) p) (seq 0 n)))) (seq 0 n)) = 0 ->
  (forall b, anchor b -> forall p, (p < np)%nat -> d b p = (0, 0)) -> forall b, supplied cnum np ten branches anchor b -> (b < n)%nat -> forall p, (p < np)%nat -> d b p = (0, 0).
Proof.
  intros T A. pose proof (ranges t ok) as in_range. rewrite (energy np ten yadd yzero ten_add ten_0 t prm n in_range (go_shunt t ok) d) in T.
  assert (B : forall x, In x branches -> 0 <= takes cnum np ten (snd x) (at_end d (fst (fst x))) (at_end d (snd (fst x)))).
  { intros [x q] Hin. apply passive_branches. now apply in_combine_r in Hin. }
  assert (Sn : 0 <= rsum (map (fun x => power np (d (fst x)) (dot (ten (snd x)) (d (fst x)))) shunts)).
  { apply rsum_nn. intros [b g] Hin. apply passive_shunts. now apply in_combine_r in Hin. }
  pose proof (rsum_nn _ _ B) as Bn.
  assert (NB : forall x, In x branches -> takes cnum np ten (snd x) (at_end d (fst (fst x))) (at_end d (snd (fst x))) = 0) by (apply rsum_0; [exact B|lra]).
  intros b H. induction H as [b Hs|i j q Hin _ IH Hr|i j q Hin _ IH Hr]; intros Hb.
  - exact (A b Hs).
  - pose proof (NB _ Hin) as Tk. cbn [fst snd at_end] in Tk. unfold takes in Tk. rewrite !power_add in Tk.
    assert (Hi : (i < n)%nat) by (apply in_combine_l in Hin; apply (proj1 (in_range _ _ Hin)); reflexivity). specialize (IH Hi).
    rewrite !(near_end np (d i)), !(far_end np _ (d i)) in Tk by exact IH. intros p0 Hp0. refine (not_resistive np ten (ytt q) (d j) _ _ p0 Hp0); [exact Hr|lra].
  - pose proof (NB _ Hin) as Tk. cbn [fst snd at_end] in Tk. unfold takes in Tk. rewrite !power_add in Tk.
    assert (Hj : (j < n)%nat) by (apply in_combine_l in Hin; apply (proj2 (in_range _ _ Hin)); reflexivity). specialize (IH Hj).
    rewrite !(near_end np (d j)), !(far_end np _ (d j)) in Tk by exact IH. intros p0 Hp0. refine (not_resistive np ten (yff q) (d i) _ _ p0 Hp0); [exact Hr|lra].
Qed.
Variable e : problem C.
Hypothesis same_y : forall i j p q, pr_y e i j p q = Y' i j p q.
Lemma same_injected z b p : LinearSESpec.injected cnum np n (pr_y e) z b p = nsum cnum (map (fun j => dot (Y' b j) (z j) p) (seq 0 n)).
Proof. apply nsum_ext. intros j _. apply nsum_ext. intros q _. rewrite same_y. reflexivity. Qed.
Lemma rsum_re {A} (f : A -> C) l : re (nsum cnum (map f l)) = rsum (map (fun x => re (f x)) l).
Proof. induction l as [|x l IH]; [reflexivity|]. cbn [map]. change (nsum cnum (f x :: map f l)) with (cadd (f x) (nsum cnum (map f l))). change (rsum (re (f x) :: map (fun x => re (f x)) l)) with (re (f x) + rsum (map (fun x => re (f x)) l)). rewrite <- IH. reflexivity. Qed.
Variable real : C -> C.
Notation residuals := (LinearSESpec.residuals cnum conj real (phase_shift cnum (TwoPort.c_abs complex_ops) positive_real) np n (pr_branches e) (pr_bus e) (pr_shunts e) (pr_branch e) (pr_shunt e) (pr_y e) (pr_voltage e) (pr_power e) (pr_current e) (pr_shunt_power e) (pr_injection e)).
Notation known := (known cnum np n e).
Notation determined := (determined cnum conj (TwoPort.c_abs complex_ops) positive_real real np n).
Lemma grid_determined : branches_ok n (pr_bus e) -> (forall b, (b < n)%nat -> known b \/ pr_injection e b <> None) -> (forall b, (b < n)%nat -> supplied cnum np ten branches known b) -> determined e.
Proof.
  intros Ho K Cn u x y A b p Hb Hp.
  pose proof (known_agree cnum conj (TwoPort.c_abs complex_ops) positive_real real_nonneg complex_se_laws real np n e u x y (ok_bus _ _ Ho) A) as Kn.
  set (d := LinearSEFacts.minus cnum x y).
  assert (A0 : forall b, known b -> forall p, (p < np)%nat -> d b p = (0, 0)) by (intros b' Kb p' Hp'; unfold d, LinearSEFacts.minus; rewrite (Kn b' Kb p' Hp'); destruct (y b' p'); cbn; unfold csub, re, im; cbn [fst snd]; f_equal; ring).
  assert (T : rsum (map (fun b => power np (d b) (fun p => nsum cnum (map (fun j => dot (Y' b j) (d j) p) (seq 0 n)))) (seq 0 n)) = 0).
  { apply (nsum_zero rnum rnum_laws). intros b' Hb'. apply in_seq in Hb'. destruct (K b') as [Kb|Ib]; [lia|apply near_end; exact (A0 b' Kb)|].
    rewrite (power_ext np _ _ (fun _ => (0, 0))); [apply power_0|]. intros p' Hp'. rewrite <- same_injected. unfold d.
    rewrite (injected_minus cnum conj (TwoPort.c_abs complex_ops) positive_real real_nonneg complex_se_laws). destruct (pr_injection e b') as [m|] eqn:E; [|congruence].
    assert (F : LinearSESpec.injected cnum np n (pr_y e) x b' p' = LinearSESpec.injected cnum np n (pr_y e) y b' p').
    { eapply (same_sub cnum conj (TwoPort.c_abs complex_ops) positive_real real_nonneg complex_se_laws).
      apply (A (fun z => n_sub cnum (LinearSESpec.injected cnum np n (pr_y e) z b' p') (LinearSESpec.current_of cnum conj (value m p') (LinearSESpec.seen cnum real (phase_shift cnum (TwoPort.c_abs complex_ops) positive_real) (pr_voltage e) u b' p'))) (variance m p')).
      unfold LinearSESpec.residuals. apply in_app_iff. right. apply in_app_iff. right. apply in_app_iff. right. apply in_flat_map. exists b'. split; [apply in_seq; lia|]. rewrite E.
      apply in_map_iff. exists p'. split; [reflexivity|apply in_seq; lia]. }
    rewrite F. destruct (LinearSESpec.injected cnum np n (pr_y e) y b' p') as [v v']. cbn. unfold csub, re, im. cbn [fst snd]. f_equal; ring. }
  pose proof (spreads d known T A0 b (Cn b Hb) Hb p Hp) as Z. unfold d, LinearSEFacts.minus in Z.
  destruct (x b p) as [v v'], (y b p) as [w w']. cbn in Z. unfold csub, re, im in Z. cbn [fst snd] in Z. injection Z as Z1 Z2. f_equal; lra.
Qed.
(** The injections of a bus are exact in no phase: it has an appliance. *)
Definition uncertain (b : nat) : Prop := (b < n)%nat /\ forall p, (p < np)%nat -> ~ exact cnum e b p.
Lemma grid_independent : (forall b, (b < n)%nat -> supplied cnum np ten branches uncertain b) -> independent cnum conj np n e.
Proof.
  intros Cn w Hw Hz b p Hb Hp. refine (spreads w uncertain _ _ b (Cn b Hb) Hb p Hp).
  - specialize (Hz w). assert (E : re (nsum cnum (map (fun b => nsum cnum (map (fun p => n_mul cnum (conj (LinearSESpec.injected cnum np n (pr_y e) w b p)) (w b p)) (seq 0 np))) (seq 0 n))) = 0) by (rewrite Hz; reflexivity).
    rewrite rsum_re in E. rewrite <- E. apply nsum_ext. intros i _. rewrite rsum_re, power_sum. apply nsum_ext. intros q _. rewrite <- same_injected.
    generalize (LinearSESpec.injected cnum np n (pr_y e) w i q), (w i q). intros [v v'] [z z']. cbn. unfold cmul, conj, re, im. cbn [fst snd]. ring.
  - intros b' [Hb' U] p' Hp'. destruct (Hw b' p' Hb' Hp') as [X|Z]; [elim (U p' Hp' X)|exact Z].
Qed.
Notation iteration has_angle slack := (LinearSE.iteration cnum conj (TwoPort.c_abs complex_ops) positive_real real np n (pr_branches e) (pr_bus e) (pr_shunts e) (pr_branch e) (pr_shunt e) (pr_y e) (pr_voltage e) (pr_power e) (pr_current e) (pr_shunt_power e) (pr_injection e) has_angle slack).
Lemma grid_estimation : branches_ok n (pr_bus e) -> measurements_ok cnum real_nonneg (pr_voltage e) (pr_power e) (pr_current e) (pr_shunt_power e) (pr_injection e) ->
  (forall b, (b < n)%nat -> known b \/ pr_injection e b <> None) -> (forall b, (b < n)%nat -> supplied cnum np ten branches known b) -> (forall b, (b < n)%nat -> supplied cnum np ten branches uncertain b) ->
  forall has_angle slack start k, (slack < n)%nat -> (0 < np)%nat ->
  exists v, estimates (iteration has_angle slack) start k v /\ forall v', estimates (iteration has_angle slack) start k v' -> forall b p, (b < n)%nat -> (p < np)%nat -> v' b p = v b p.
Proof.
  intros Ho Hm K C1 C2 has_angle slack start k Hs Hn.
  exact (C68_estimation cnum conj (TwoPort.c_abs complex_ops) positive_real real_nonneg complex_se_laws real np n c_dec e has_angle slack start k Ho Hm (grid_determined Ho K C1) (grid_independent C2) Hs Hn).
Qed.
End Grid.

Notation iteration_of e real np n has_angle slack := (LinearSE.iteration cnum conj (TwoPort.c_abs complex_ops) positive_real real np n (pr_branches e) (pr_bus e) (pr_shunts e) (pr_branch e) (pr_shunt e) (pr_y e) (pr_voltage e) (pr_power e) (pr_current e) (pr_shunt_power e) (pr_injection e) has_angle slack).
(** In a symmetric calculation: branches and shunts that do not generate active power (C63); at every bus the voltage is known or the injection is measured or zero; every bus is connected,
    by branches with losses, to a bus with a known voltage and to a bus with an injection that is not known exactly. *)
Theorem C68_symmetric : forall (t : math_topo) (prm : @model_param C Datatypes.unit) (e : problem C) (real : C -> C),
  sub_grid_ok t -> (forall q, In q (p_branch prm) -> exists b, passive b /\ q = param1 b) -> (forall g, In g (p_shunt prm) -> 0 <= re g) ->
  (forall i j p q, pr_y e i j p q = matrix1 complex_ops t prm i j p q) ->
  branches_ok (mt_n_bus t) (pr_bus e) -> measurements_ok cnum real_nonneg (pr_voltage e) (pr_power e) (pr_current e) (pr_shunt_power e) (pr_injection e) ->
  (forall b, (b < mt_n_bus t)%nat -> known cnum 1 (mt_n_bus t) e b \/ pr_injection e b <> None) ->
  (forall b, (b < mt_n_bus t)%nat -> supplied cnum 1 one_number (combine (mt_branch t) (p_branch prm)) (known cnum 1 (mt_n_bus t) e) b) ->
  (forall b, (b < mt_n_bus t)%nat -> supplied cnum 1 one_number (combine (mt_branch t) (p_branch prm)) (uncertain 1 t e) b) ->
  forall has_angle slack start k, (slack < mt_n_bus t)%nat ->
  exists v, estimates (iteration_of e real 1 (mt_n_bus t) has_angle slack) start k v /\
    forall v', estimates (iteration_of e real 1 (mt_n_bus t) has_angle slack) start k v' -> forall b, (b < mt_n_bus t)%nat -> v' b 0%nat = v b 0%nat.
Proof.
  intros t prm e real ok HB HS Hy Ho Hm K C1 C2 has_angle slack start k Hs.
  assert (HB' : forall q, In q (p_branch prm) -> passive_branch cnum 1 one_number q) by (intros q Hq; destruct (HB q Hq) as (b & Pb & ->); now apply passive1).
  assert (HS' : forall g, In g (p_shunt prm) -> passive_admittance cnum 1 one_number g).
  { intros g Hg u. rewrite power1, dot_one, active_self. apply Rmult_le_pos; [now apply HS|apply norm2_nn]. }
  destruct (grid_estimation 1 one_number cadd (0, 0) (fun a b p q => eq_refl) (fun p q => eq_refl) t prm ok HB' HS' e Hy real Ho Hm K C1 C2 has_angle slack start k Hs ltac:(lia)) as (v & Hv & U).
  exists v. split; [exact Hv|]. intros v' Hv' b Hb. apply U; auto.
Qed.
(** In an asymmetric calculation *)
Theorem C68_asymmetric : forall (t : math_topo) (prm : @model_param (nat -> nat -> C) Datatypes.unit) (e : problem C) (real : C -> C),
  sub_grid_ok t -> (forall q, In q (p_branch prm) -> exists b, passive3 b /\ q = param3 b) ->
  (forall g, In g (p_shunt prm) -> exists g1 g0, 0 <= re g1 /\ 0 <= re g0 /\ g = shunt_tensor complex_ops g1 g0) ->
  (forall i j p q, pr_y e i j p q = matrix3 complex_ops t prm i j p q) ->
  branches_ok (mt_n_bus t) (pr_bus e) -> measurements_ok cnum real_nonneg (pr_voltage e) (pr_power e) (pr_current e) (pr_shunt_power e) (pr_injection e) ->
  (forall b, (b < mt_n_bus t)%nat -> known cnum 3 (mt_n_bus t) e b \/ pr_injection e b <> None) ->
  (forall b, (b < mt_n_bus t)%nat -> supplied cnum 3 a_tensor (combine (mt_branch t) (p_branch prm)) (known cnum 3 (mt_n_bus t) e) b) ->
  (forall b, (b < mt_n_bus t)%nat -> supplied cnum 3 a_tensor (combine (mt_branch t) (p_branch prm)) (uncertain 3 t e) b) ->
  forall has_angle slack start k, (slack < mt_n_bus t)%nat ->
  exists v, estimates (iteration_of e real 3 (mt_n_bus t) has_angle slack) start k v /\
    forall v', estimates (iteration_of e real 3 (mt_n_bus t) has_angle slack) start k v' -> forall b p, (b < mt_n_bus t)%nat -> (p < 3)%nat -> v' b p = v b p.
Proof.
  intros t prm e real ok HB HS Hy Ho Hm K C1 C2 has_angle slack start k Hs.
  assert (HB' : forall q, In q (p_branch prm) -> passive_branch cnum 3 a_tensor q) by (intros q Hq; destruct (HB q Hq) as (b & Pb & ->); now apply passive3_branch).
  assert (HS' : forall g, In g (p_shunt prm) -> passive_admittance cnum 3 a_tensor g) by (intros g Hg; destruct (HS g Hg) as (g1 & g0 & H1 & H0 & ->); now apply shunt_passive3).
  exact (grid_estimation 3 a_tensor (tensor_add complex_ops) (tensor_0 complex_ops) (fun a b p q => eq_refl) (fun p q => eq_refl) t prm ok HB' HS' e Hy real Ho Hm K C1 C2 has_angle slack start k Hs ltac:(lia)).
Qed.

(** ** The feeder of C64's example: voltage magnitude measured at the source, no appliance at the middle bus, power measured at the last one *)
Definition feeder_side (q : branch_param (Y := C)) (s b : bool) : C := match s, b with false, false => yff q | false, true => yft q | true, false => ytf q | true, true => ytt q end.
Definition feeder_problem : problem C := mkProblem _ 2
  (fun k s => match k with 0%nat => Some (if s then 1%nat else 0%nat) | 1%nat => Some (if s then 2%nat else 1%nat) | _ => None end) (fun b => if b =? 2 then [0%nat] else [])
  (fun k s b _ _ => feeder_side (nth k (p_branch feeder1) (param1 (calc_param_sym complex_ops true true true the_line))) s b) (fun _ _ _ => (1, 4)) (matrix1 complex_ops feeder feeder1)
  (fun b => if b =? 0 then Some (mkVolt false (fun _ => (1, 0)) (1, 0)) else None) (fun _ _ => None) (fun _ _ => None) (fun _ => None)
  (fun b => match b with 1%nat => Some (mkRand (fun _ => (0, 0)) (fun _ => (0, 0))) | 2%nat => Some (mkRand (fun _ => (-2, 1)) (fun _ => (1, 0))) | _ => None end).
Lemma supplied_more {Y} np (ten : Y -> nat -> nat -> C) l (A B : nat -> Prop) b : (forall b, A b -> B b) -> supplied cnum np ten l A b -> supplied cnum np ten l B b.
Proof. intros H. induction 1 as [b Hb|i j q Hin _ IH Hr|i j q Hin _ IH Hr]; [apply at_source; auto|eapply to_side; eauto|eapply from_side; eauto]. Qed.
Example C68_feeder : forall start k, exists v, estimates (iteration_of feeder_problem (fun z => z) 1 3 false 0) start k v /\
  forall v', estimates (iteration_of feeder_problem (fun z => z) 1 3 false 0) start k v' -> forall b, (b < 3)%nat -> v' b 0%nat = v b 0%nat.
Proof.
  destruct feeder1_meets as (HB & HS & HC). intros start k.
  assert (One : usable cnum real_nonneg (1, 0)) by (split; [unfold real_nonneg, re, im; cbn [fst snd]; lra|intros E; injection E; lra]).
  assert (K0 : known cnum 1 3 feeder_problem 0) by (apply known_voltage; [lia|cbn; discriminate]).
  refine (C68_symmetric feeder feeder1 feeder_problem (fun z => z) feeder_ok HB HS (fun _ _ _ _ => eq_refl) _ _ _ _ _ false 0%nat start k _).
  - constructor; cbn [pr_bus feeder_problem mt_n_bus feeder].
    + intros [|[|k']] s b E; [| |discriminate]; injection E as <-; destruct s; lia.
    + intros [|[|k']] b E1 E2; [| |discriminate]; injection E1 as <-; discriminate.
  - constructor; cbn [pr_voltage pr_power pr_current pr_shunt_power pr_injection feeder_problem]; try discriminate.
    + intros b m. destruct (b =? 0); [|discriminate]. intros E. injection E as <-. exact One.
    + intros [|[|[|b]]] m p E; try discriminate; injection E as <-; [unfold real_nonneg, re, im; cbn [fst snd variance]; lra|exact (proj1 One)].
  - intros [|[|[|b]]] Hb; [left; exact K0|right; cbn; discriminate|right; cbn; discriminate|cbn in Hb; lia].
  - intros b Hb. eapply supplied_more; [|exact (HC b Hb)]. cbn beta. intros b' Hb'. unfold sources_at in Hb'. destruct (Nat.eqb b' 0) eqn:E; [|congruence]. apply Nat.eqb_eq in E. subst b'. exact K0.
  - intros b Hb. eapply supplied_more; [|exact (HC b Hb)]. cbn beta. intros b' Hb'. unfold sources_at in Hb'. destruct (Nat.eqb b' 0) eqn:E; [|congruence]. apply Nat.eqb_eq in E. subst b'.
    split; [cbn; lia|]. intros p _ (m & Em & _). discriminate.
  - cbn. lia.
Qed.
Print Assumptions C68_symmetric. Print Assumptions C68_asymmetric. Print Assumptions C68_feeder.
