(** The reactive power limits of the Newton-Raphson power flow: where a bus keeps the voltage of its regulators, the check has found it within its limits. *)
From Coq Require Import Field.
From Verif Require Import Common Numbers NumbersPair ShortCircuit PowerFlow NewtonRaphson NewtonSpec NewtonFacts.

Section Run.
Context {R : Type} (o : num_ops R).
Hypothesis L : num_laws o.
Add Field NumFieldNl : (nl_field o L).
Local Notation "a + b" := (n_add o a b) : num_scope. Local Notation "a * b" := (n_mul o a b) : num_scope. Local Notation "a - b" := (n_sub o a b) : num_scope.
Local Notation "a / b" := (n_div o a b) : num_scope. Local Notation "- a" := (n_opp o a) : num_scope.
Local Notation zero := (n_zero o). Local Notation one := (n_one o). Local Notation three := (n_add o (n_add o one one) one).
Local Open Scope num_scope.
Local Notation cx := (NumbersPair.cx (R := R)). Local Notation cxo := (pair_num o).
Local Notation cmul := (NumbersPair.cmul o). Local Notation cadd := (NumbersPair.cadd o). Local Notation csub := (NumbersPair.csub o).
Variables (cabs arg : cx -> R) (rcos rsin : R -> R) (gtb : R -> R -> bool) (rabs : R -> R) (tol : R).
Variables (np n : nat) (ybus : nat -> nat -> nat -> nat -> cx).
Variables (sources loads : nat -> list nat) (source_y : nat -> nat -> nat -> cx) (source_u : nat -> nat -> cx).
Variables (type : nat -> load_type) (s : nat -> nat -> cx) (status : nat -> bool) (regulators_of : nat -> list nat) (regs : nat -> regulator (R := R)).
Local Notation active := (NewtonRaphson.active loads status regulators_of regs).
Local Notation bus_control := (NewtonRaphson.bus_control o sources loads status regulators_of regs).
Local Notation build_row := (NewtonRaphson.build_row o np n ybus sources loads source_y source_u type s).
Local Notation build := (NewtonRaphson.build o np n ybus sources loads source_y source_u type s).
Local Notation clamp := (NewtonRaphson.clamp o gtb rabs tol np s).
Local Notation clamp_at := (NewtonRaphson.clamp_at o gtb rabs tol np s regs).
Local Notation enforce_bus := (NewtonRaphson.enforce_bus o gtb rabs tol np loads type s status regulators_of regs).
Local Notation enforce := (NewtonRaphson.enforce o gtb rabs tol np loads type s status regulators_of regs).
Local Notation prepare := (NewtonRaphson.prepare o gtb rabs tol np n ybus sources loads source_y source_u type s status regulators_of regs).
Local Notation total := (NewtonRaphson.total o np).
Local Notation state := (NewtonRaphson.state (R := R)).

Local Notation build_del := (build_del o L np n ybus sources loads source_y source_u type s).
Local Notation fold_control := (NewtonFacts.fold_control o regs).
Local Notation violated_limit := (NewtonRaphson.violated_limit o gtb tol np).
(** ** Limits of a bus *)
Definition osum (f : nat -> option R) (ls : list (nat * nat)) (t : option R) : option R := fold_left (fun t lg => oplus o t (f (snd lg))) ls t.
Lemma fold_control_limits : forall ls c, c_q_min (fold_control ls c) = osum (fun g => g_q_min (regs g)) ls (c_q_min c) /\ c_q_max (fold_control ls c) = osum (fun g => g_q_max (regs g)) ls (c_q_max c).
Proof. induction ls as [|lg ls IH]; intros c; [split; reflexivity|]. cbn [NewtonFacts.fold_control fold_left]. exact (IH _). Qed.
Lemma osum_none f : forall ls, osum f ls None = None.
Proof. induction ls as [|lg ls IH]; [reflexivity|]. exact IH. Qed.
Lemma osum_right f : forall ls t, osum f ls (Some t) = option_map (fun m => t + m) (fold_right (fun g k => match f g, k with Some m, Some k => Some (m + k) | _, _ => None end) (Some zero) (map snd ls)).
Proof.
  induction ls as [|lg ls IH]; intros t; [cbn; f_equal; ring|]. cbn [map fold_right]. unfold osum. cbn [fold_left]. change (osum f ls (oplus o (Some t) (f (snd lg))) = option_map (fun m => t + m)
    (match f (snd lg), fold_right (fun g k => match f g, k with Some m, Some k => Some (m + k) | _, _ => None end) (Some zero) (map snd ls) with Some m, Some k => Some (m + k) | _, _ => None end)).
  destruct (f (snd lg)) as [m|]; cbn [oplus]; [|apply osum_none]. rewrite IH. destruct (fold_right _ _ _) as [k|]; cbn [option_map]; [f_equal; ring|reflexivity].
Qed.
Lemma active_regulators b : map snd (active b) = regulators loads status regulators_of regs b.
Proof.
  unfold NewtonRaphson.active, regulators. induction (loads b) as [|l ls IH]; [reflexivity|]. cbn [flat_map]. rewrite map_app, IH. f_equal. destruct (status l); [|reflexivity].
  rewrite map_map. cbn [snd]. apply map_id.
Qed.
Lemma add_zero t : option_map (fun m => zero + m) t = t.
Proof. destruct t; [cbn; f_equal; ring|reflexivity]. Qed.
Lemma bus_limits b : c_type (bus_control b) = pv ->
  c_q_min (bus_control b) = limit_sum o loads status regulators_of regs at_min b /\ c_q_max (bus_control b) = limit_sum o loads status regulators_of regs at_max b /\
  (c_has_limits (bus_control b) = false -> c_q_min (bus_control b) = None /\ c_q_max (bus_control b) = None).
Proof.
  unfold NewtonRaphson.bus_control. destruct (sources b); [|discriminate].
  change (fold_left _ (active b) (start_control o)) with (fold_control (active b) (start_control o)).
  destruct (fold_control_limits (active b) (start_control o)) as [H1 H2]. cbn [start_control c_q_min c_q_max] in H1, H2. rewrite osum_right, add_zero, active_regulators in H1, H2.
  destruct (c_type (fold_control (active b) (start_control o))) eqn:E; cbn [c_type c_q_min c_q_max c_has_limits]; try congruence. intros _. refine (conj H1 (conj H2 _)).
  destruct (c_q_min _), (c_q_max _); try discriminate. auto.
Qed.
Lemma violated_none q lo hi : violated_limit q lo hi = none ->
  (forall m, hi = Some m -> gtb (total q) (m + tol) = false) /\ (forall m, lo = Some m -> gtb (m - tol) (total q) = false).
Proof.
  unfold NewtonRaphson.violated_limit. destruct hi as [h|], lo as [l|].
  - destruct (gtb (total q) (h + tol)) eqn:E1; [discriminate|]. destruct (gtb (l - tol) (total q)) eqn:E2; [discriminate|]. intros _. split; intros m Hm; injection Hm as <-; assumption.
  - destruct (gtb (total q) (h + tol)) eqn:E1; [discriminate|]. intros _. split; intros m Hm; [injection Hm as <-; assumption|discriminate].
  - destruct (gtb (l - tol) (total q)) eqn:E2; [discriminate|]. intros _. split; intros m Hm; [discriminate|injection Hm as <-; assumption].
  - intros _. split; discriminate.
Qed.

(** ** The check *)
Definition required (st : state) (b : nat) : nat -> R := vminus o (fold_left (fun q lg => vplus o q (vim (s (fst lg)))) (active b) (v0 o)) (pb (r_del (rows st b))).
Lemma enforce_bus_other st st' b : enforce_bus st b = Some st' ->
  rows st' = rows st /\ countdown st' = countdown st /\ (forall i, c_has_limits (ctl st' i) = c_has_limits (ctl st i)) /\ (forall i, i <> b -> ctl st' i = ctl st i) /\
  (c_type (ctl st' b) = pv -> ctl st' b = ctl st b /\ (c_has_limits (ctl st b) = true -> violated_limit (required st b) (c_q_min (ctl st b)) (c_q_max (ctl st b)) = none)).
Proof.
  unfold NewtonRaphson.enforce_bus. fold (required st b). destruct (c_type (ctl st b)) eqn:Ty; [| |destruct (c_has_limits (ctl st b)) eqn:HL; [destruct (forallb _ _); [destruct (violated_limit _ _ _) eqn:V|discriminate]|]].
  all: intros H; injection H as <-; cbn [rows ctl countdown]; refine (conj eq_refl (conj eq_refl (conj _ (conj _ _)))); try reflexivity; try (intros T; split; [reflexivity|]; congruence).
  all: try (intros i; destruct (i =? b) eqn:E; [apply Nat.eqb_eq in E; subst i; cbn [c_has_limits]; congruence|reflexivity]).
  all: try (intros i Hi; rewrite (proj2 (Nat.eqb_neq i b) Hi); reflexivity).
  all: rewrite Nat.eqb_refl; discriminate.
Qed.
Lemma enforce_other : forall bs st st', enforce bs st = Some st' -> NoDup bs ->
  rows st' = rows st /\ countdown st' = countdown st /\ (forall i, c_has_limits (ctl st' i) = c_has_limits (ctl st i)) /\ (forall i, ~ In i bs -> ctl st' i = ctl st i) /\
  (forall b, In b bs -> c_type (ctl st' b) = pv -> ctl st' b = ctl st b /\ (c_has_limits (ctl st b) = true -> violated_limit (required st b) (c_q_min (ctl st b)) (c_q_max (ctl st b)) = none)).
Proof.
  induction bs as [|b bs IH]; intros st st'; cbn [NewtonRaphson.enforce].
  - intros H _. injection H as <-. refine (conj eq_refl (conj eq_refl (conj _ (conj _ _)))); try reflexivity. intros b [].
  - destruct (enforce_bus st b) as [st1|] eqn:E; [|discriminate]. intros H Nd. inversion Nd as [|? ? N1 N2]; subst. destruct (enforce_bus_other st st1 b E) as (A1 & A2 & A3 & A4 & A5). destruct (IH st1 st' H N2) as (B1 & B2 & B3 & B4 & B5).
    refine (conj _ (conj _ (conj _ (conj _ _)))).
    + congruence.
    + congruence.
    + intros i. rewrite B3. apply A3.
    + intros i Hi. rewrite B4 by (intros K; apply Hi; right; exact K). apply A4. intros ->. apply Hi. left. reflexivity.
    + intros i [<-|Hi] T.
      * rewrite (B4 b N1) in T |- *. exact (A5 T).
      * destruct (B5 i Hi T) as [C1 C2]. assert (Ni : i <> b) by (intros ->; contradiction). rewrite (A4 i Ni) in C1, C2. split; [exact C1|]. unfold required in *. rewrite A1 in C2. exact C2.
Qed.
Lemma prepare_check u st st1 : prepare u st = Some st1 ->
  countdown st1 = count (countdown st) /\ (forall b, c_has_limits (ctl st1 b) = c_has_limits (ctl st b)) /\
  (countdown st1 = 0%Z -> forall b, b < n -> c_type (ctl st1 b) = pv -> c_has_limits (ctl st b) = true ->
    violated_limit (required (build false u st) b) (c_q_min (ctl st b)) (c_q_max (ctl st b)) = none).
Proof.
  unfold NewtonRaphson.prepare. set (st1' := build false u st). set (st2 := mkState (x st1') (rows st1') (ctl st1') (clamped st1') (count (countdown st1'))).
  assert (C2 : ctl st2 = ctl st) by reflexivity. assert (D2 : countdown st2 = count (countdown st)) by reflexivity.
  destruct (countdown st2 =? 0)%Z eqn:E0.
  - destruct (enforce (seq 0 n) st2) as [st3|] eqn:E; [|discriminate]. intros H. injection H as <-. destruct (enforce_other (seq 0 n) st2 st3 E (seq_NoDup _ _)) as (A1 & A2 & A3 & A4 & A5).
    refine (conj _ (conj _ _)).
    + destruct (switched n st3); cbn [apply_pv_constraints NewtonRaphson.build countdown]; congruence.
    + intros b. destruct (switched n st3); cbn [apply_pv_constraints NewtonRaphson.build ctl clear_recalc c_has_limits]; rewrite A3, C2; reflexivity.
    + intros _ b Hb T HL. assert (T3 : c_type (ctl st3 b) = pv) by (destruct (switched n st3); cbn [apply_pv_constraints NewtonRaphson.build ctl clear_recalc c_type] in T; exact T).
      destruct (A5 b ltac:(apply in_seq; lia) T3) as [B1 B2]. rewrite C2 in B2. exact (B2 HL).
  - intros H. injection H as <-. refine (conj _ (conj _ _)).
    + destruct (switched n st2); exact D2.
    + intros b. destruct (switched n st2); reflexivity.
    + intros K. assert (K' : countdown st2 = 0%Z) by (destruct (switched n st2); exact K). rewrite K' in E0. discriminate.
Qed.
(** the countdown of a run *)
Local Notation reached := (NewtonRaphson.reached o cabs arg rcos rsin gtb rabs tol np n ybus sources loads source_y source_u type s status regulators_of regs).
Lemma reached_countdown st u : reached st u ->
  (countdown st <= 2)%Z /\ (forall b, c_has_limits (ctl st b) = c_has_limits (bus_control b)) /\ (forall b, b < n -> c_has_limits (bus_control b) = true -> (0 <= countdown st)%Z).
Proof.
  induction 1 as [d Hd|st u st1 d c' Hre IH Hp Hd Hc].
  - cbn [start_state countdown ctl]. unfold start_countdown. refine (conj _ (conj _ _)); [destruct (existsb _ _); lia|reflexivity|].
    intros b Hb HL. assert (E : existsb (fun b => c_has_limits (bus_control b)) (seq 0 n) = true) by (apply existsb_exists; exists b; split; [apply in_seq; lia|exact HL]). rewrite E. lia.
  - destruct IH as (I1 & I2 & I3). destruct (prepare_check u st st1 Hp) as (P1 & P2 & _). cbn [move countdown ctl]. refine (conj _ (conj _ _)).
    + unfold count in P1. destruct Hc as [->|[_ ->]]; [|lia]. rewrite P1. destruct (0 <? countdown st)%Z eqn:E; lia.
    + intros b. rewrite P2. apply I2.
    + intros b Hb HL. specialize (I3 b Hb HL). destruct Hc as [->|[_ ->]]; [|lia]. rewrite P1. unfold count. destruct (0 <? countdown st)%Z eqn:E; lia.
Qed.
(** a bus that keeps the voltage of its regulators in an iteration after the check is within its limits *)
Lemma reached_within u st st1 : reached st u -> prepare u st = Some st1 -> (countdown st1 <= 0)%Z -> forall b, b < n -> same_control o sources loads status regulators_of regs st b ->
  c_type (ctl st1 b) = pv -> c_type (bus_control b) = pv ->
  (forall m, limit_sum o loads status regulators_of regs at_max b = Some m -> gtb (total (required (build false u st) b)) (m + tol) = false) /\
  (forall m, limit_sum o loads status regulators_of regs at_min b = Some m -> gtb (m - tol) (total (required (build false u st) b)) = false).
Proof.
  intros Hre Hp Hc b Hb Sc T T0. destruct (reached_countdown st u Hre) as (_ & I2 & I3). destruct (prepare_check u st st1 Hp) as (P1 & P2 & P3). destruct (bus_limits b T0) as (B1 & B2 & B3).
  destruct Sc as (_ & _ & S3 & S4 & _). destruct (c_has_limits (bus_control b)) eqn:HL.
  - specialize (I3 b Hb HL). assert (E : countdown st1 = 0%Z). { unfold count in P1. destruct (0 <? countdown st)%Z eqn:E; lia. }
    assert (HL' : c_has_limits (ctl st b) = true) by (rewrite I2; exact HL).
    specialize (P3 E b Hb T HL'). rewrite S3, S4, B1, B2 in P3. exact (violated_none _ _ _ P3).
  - destruct (B3 eq_refl) as [N1 N2]. rewrite <- B1, <- B2, N1, N2. split; discriminate.
Qed.
End Run.
