(** C57: the equations of the Newton-Raphson state estimation in a symmetric calculation, as sums over the measurements. *)
From Coq Require Import Reals Lra Field.
From Verif Require Import Common Numbers NumbersPair LinearSE NewtonReals NewtonSE NewtonSESpec NewtonSEFacts.
Local Open Scope R_scope.

Local Notation cxo := (pair_num real_num). Local Notation conj := (cconj real_num). Local Notation ctimes := (cmul real_num). Local Notation cplus := (cadd real_num). Local Notation cminus := (csub real_num).
Local Notation sum f l := (nsum real_num (map f l)).
Definition real_zero (x : R) : bool := if Req_EM_T x 0 then true else false.

Section Rows.
Variables (n n_branch : nat) (branch_bus : nat -> bool -> option nat) (shunts : nat -> list nat).
Variables (branch_param : nat -> bool -> bool -> nat -> nat -> R * R) (shunt_param : nat -> nat -> nat -> R * R) (ybus : nat -> nat -> nat -> nat -> R * R) (slack_bus : nat).
Variables (voltage : nat -> option (voltage_sensor (R := R))) (branch_power : nat -> bool -> option (flow (R := R))) (branch_current : nat -> bool -> option (angle_type * flow (R := R))).
Variables (shunt_power bus_injection : nat -> option (flow (R := R))) (reference : nat -> R).
Local Notation flow_at := (NewtonSESpec.flow_at 1 branch_bus branch_param). Local Notation injected := (NewtonSESpec.injected 1 n ybus).
Local Notation at_side := (NewtonSESpec.at_side branch_bus). Local Notation through := (NewtonSESpec.through 1).
Local Notation D := (NewtonSEFacts.D 1 n branch_bus branch_param shunt_param ybus).
Variable xs : nat -> unknown (R := R).
Definition here : volts := mkVolts (fun b => theta (xs b)) (fun b => v (xs b)).
Local Notation u := (phasors real_num cos sin xs).
Hypothesis v_nonzero : forall b, (b < n)%nat -> v (xs b) 0%nat <> 0.
Local Notation gain := (NewtonSE.gain (R := R)). Local Notation row := (NewtonSE.row (R := R)). Local Notation jacobian := (NewtonSE.jacobian (R := R)).
Variables (d e : volts).

(** what the equations of the row make of [d], tested with [e] *)
Definition left_t (k : nat -> gain) : R := sum (fun j => g_pt (k j) 0%nat 0%nat * ang d j 0%nat + g_pv (k j) 0%nat 0%nat * mag d j 0%nat) (seq 0 n).
Definition left_v (k : nat -> gain) : R := sum (fun j => g_qt (k j) 0%nat 0%nat * ang d j 0%nat + g_qv (k j) 0%nat 0%nat * mag d j 0%nat) (seq 0 n).
Definition row_form (b : nat) (r : row) : R := ang e b 0%nat * (left_t (r_gain r) - eta_t (r_rhs r) 0%nat) + mag e b 0%nat * (left_v (r_gain r) - eta_v (r_rhs r) 0%nat).
Definition jac_at (j : jacobian) (z : volts) (b : nat) : R * R :=
  (dp_dt j 0%nat 0%nat * ang z b 0%nat + dp_dv j 0%nat 0%nat * mag z b 0%nat, dq_dt j 0%nat 0%nat * ang z b 0%nat + dq_dv j 0%nat 0%nat * mag z b 0%nat).
Definition pairing (a : R * R) (m : flow (R := R)) (z : R * R) : R := fst a * fst z / f_p_var m 0%nat + snd a * snd z / f_q_var m 0%nat.
Lemma form_entry b c h r : (c < n)%nat ->
  row_form b (at_entry r c h) = row_form b r +
    (ang e b 0%nat * ((g_pt (h (r_gain r c)) 0%nat 0%nat - g_pt (r_gain r c) 0%nat 0%nat) * ang d c 0%nat + (g_pv (h (r_gain r c)) 0%nat 0%nat - g_pv (r_gain r c) 0%nat 0%nat) * mag d c 0%nat) +
     mag e b 0%nat * ((g_qt (h (r_gain r c)) 0%nat 0%nat - g_qt (r_gain r c) 0%nat 0%nat) * ang d c 0%nat + (g_qv (h (r_gain r c)) 0%nat 0%nat - g_qv (r_gain r c) 0%nat 0%nat) * mag d c 0%nat)).
Proof.
  intros Hc. unfold row_form, left_t, left_v, at_entry. cbn [r_gain r_rhs].
  rewrite (sum_change (fun j k => g_pt k 0%nat 0%nat * ang d j 0%nat + g_pv k 0%nat 0%nat * mag d j 0%nat) (r_gain r) h n c Hc).
  rewrite (sum_change (fun j k => g_qt k 0%nat 0%nat * ang d j 0%nat + g_qv k 0%nat 0%nat * mag d j 0%nat) (r_gain r) h n c Hc). ring.
Qed.
Lemma mmul_1 a b : mmul real_num 1 a b 0%nat 0%nat = a 0%nat 0%nat * b 0%nat 0%nat. Proof. unfold mmul, nsum. cbn. ring. Qed.
Lemma mvec_1 a (w : nat -> R) : mvec real_num 1 a w 0%nat = a 0%nat 0%nat * w 0%nat. Proof. unfold mvec, nsum. cbn. ring. Qed.
Lemma form_rhs b h r : row_form b (at_rhs r h) = row_form b r - (ang e b 0%nat * (eta_t (h (r_rhs r)) 0%nat - eta_t (r_rhs r) 0%nat) + mag e b 0%nat * (eta_v (h (r_rhs r)) 0%nat - eta_v (r_rhs r) 0%nat)).
Proof. unfold row_form, at_rhs. cbn [r_gain r_rhs]. ring. Qed.
Lemma form_lhs b c j f m r : (c < n)%nat ->
  row_form b (at_entry r c (add_lhs real_num 1 (transpose_multiply_weight real_num j m) f)) = row_form b r + pairing (jac_at j e b) m (jac_at f d c).
Proof.
  intros Hc. rewrite form_entry by exact Hc. unfold add_lhs, transpose_multiply_weight, pairing, jac_at. cbn [g_pt g_pv g_qt g_qv dp_dt dp_dv dq_dt dq_dv fst snd].
  unfold tplus, weigh, vinv. rewrite !mmul_1. cbn [n_add n_mul n_div n_one real_num]. unfold Rdiv. ring.
Qed.
Lemma form_delta b j m f r :
  row_form b (at_rhs r (add_rhs real_num 1 (transpose_multiply_weight real_num j m) m f)) = row_form b r - pairing (jac_at j e b) m (cminus (f_value m 0%nat) (f 0%nat)).
Proof.
  rewrite form_rhs. unfold add_rhs, transpose_multiply_weight, pairing, jac_at. cbn [eta_t eta_v dp_dt dp_dv dq_dt dq_dv fst snd csub re im].
  unfold vplus. rewrite !mvec_1. unfold weigh, vinv, vre, vim. cbn [re im csub fst snd n_add n_mul n_div n_one n_sub real_num]. unfold re, im. cbn [fst snd]. unfold Rdiv. ring.
Qed.
Lemma pairing_plus a m z w : pairing a m (cplus z w) = pairing a m z + pairing a m w.
Proof. unfold pairing. cbn. unfold re, im, Rdiv. ring. Qed.
Lemma pairing_minus a m z w : pairing a m (cminus z w) = pairing a m z - pairing a m w.
Proof. unfold pairing. cbn. unfold re, im, Rdiv. ring. Qed.
Lemma pairing_left a b m z : pairing (cplus a b) m z = pairing a m z + pairing b m z.
Proof. unfold pairing. cbn. unfold re, im, Rdiv. ring. Qed.
Lemma form_blocks b c left right m f r : (b < n)%nat -> (c < n)%nat ->
  row_form b (multiply_add_branch_blocks real_num 1 b c left right m f r) =
  row_form b r + pairing (jac_at left e b) m (cminus (cplus (jac_at left d b) (jac_at right d c)) (cminus (f_value m 0%nat) (f 0%nat))).
Proof.
  intros Hb Hc. unfold multiply_add_branch_blocks. rewrite form_delta, !form_lhs by assumption. rewrite (pairing_minus _ _ (cplus _ _)), pairing_plus. ring.
Qed.

(** ** The terms of a row *)
Local Notation voltage_measured b m := (angle_measurement n slack_bus voltage reference b m).
Local Notation angle_measurement := (NewtonSE.angle_measurement real_arg n slack_bus voltage reference).
Definition voltage_term (b : nat) : R :=
  match voltage b with
  | None => 0
  | Some m => mag e b 0%nat * (mag d b 0%nat - (cabs_or_real real_abs m 0%nat - v (xs b) 0%nat)) / s_var m +
      match angle_measurement b m with Some a => ang e b 0%nat * (ang d b 0%nat - (a 0%nat - theta (xs b) 0%nat)) / s_var m | None => 0 end
  end.
Lemma form_voltage b r : (b < n)%nat -> row_form b (add_voltage real_num real_abs real_arg 1 n slack_bus voltage reference xs b r) = row_form b r + voltage_term b.
Proof.
  intros Hb. unfold add_voltage, voltage_term. destruct (voltage b) as [m|]; [|ring]. rewrite form_rhs, form_entry by exact Hb. cbn [g_pt g_pv g_qt g_qv eta_t eta_v at_entry r_rhs].
  unfold tplus, vplus. rewrite !mvec_1. unfold diag. cbn [Nat.eqb n_add n_mul n_div n_one real_num]. unfold vminus, v0.
  destruct (angle_measurement b m); cbn [n_zero n_sub real_num]; unfold Rdiv; ring.
Qed.
Definition shunt_jac (b k : nat) : jacobian * (R * R) :=
  let hm := hm_complex_form real_num (cneg real_num (shunt_param k)) (outer real_num (u b) (tconj real_num (u b))) in
  let nl := columns real_num hm (vinv real_num (v (xs b))) in
  (jac_plus real_num (calculate_jacobian real_num hm nl) (jacobian_diagonal_component real_num (sum_row real_num 1 nl) (sum_row real_num 1 hm)), sum_row real_num 1 hm 0%nat).
Definition shunt_term (b k : nat) : R :=
  match shunt_power k with Some m => pairing (jac_at (fst (shunt_jac b k)) e b) m (cminus (jac_at (fst (shunt_jac b k)) d b) (cminus (f_value m 0%nat) (snd (shunt_jac b k)))) | None => 0 end.
Lemma form_shunt b k m r : (b < n)%nat -> shunt_power k = Some m -> row_form b (add_shunt real_num 1 xs u b (shunt_param k) m r) = row_form b r + shunt_term b k.
Proof.
  intros Hb E. unfold shunt_term. rewrite E. unfold add_shunt. rewrite form_delta, form_lhs by exact Hb. rewrite (pairing_minus _ _ (jac_at _ _ _)). cbn [shunt_jac fst snd]. ring.
Qed.
Local Notation flow_jac k side kind b c := (flow_jacobian real_num 1 kind (branch_param k side side) (branch_param k side (negb side)) (u b) (u c) (v (xs b)) (v (xs c))).
Definition flow_term (b c k : nat) (b0 : bool) (s : bool * flow_kind * flow (R := R)) : R :=
  match s with (side, kind, m) =>
    if Bool.eqb side b0 then
      match flow_jac k side kind b c with (j_own, j_other, f) => pairing (jac_at j_own e b) m (cminus (cplus (jac_at j_own d b) (jac_at j_other d c)) (cminus (f_value m 0%nat) (f 0%nat))) end
    else
      match flow_jac k side kind c b with (j_own, j_other, f) => pairing (jac_at j_other e b) m (cminus (cplus (jac_at j_other d b) (jac_at j_own d c)) (cminus (f_value m 0%nat) (f 0%nat))) end
  end.
Lemma form_flow b c k b0 side kind m r : (b < n)%nat -> (c < n)%nat ->
  row_form b (add_flow real_num 1 branch_param xs u b c k b0 side kind m r) = row_form b r + flow_term b c k b0 (side, kind, m).
Proof.
  intros Hb Hc. unfold add_flow, flow_term. destruct (Bool.eqb side b0).
  - destruct (flow_jac k side kind b c) as [[j_own j_other] f]. apply form_blocks; assumption.
  - destruct (flow_jac k side kind c b) as [[j_own j_other] f]. apply form_blocks; assumption.
Qed.
Local Notation branch_flows := (NewtonSE.branch_flows branch_power branch_current).
Definition element_term (b c : nat) (el : element) : R :=
  match el with Shunt k => shunt_term b k | Branch k b0 b1 => if Bool.eqb b0 b1 then 0 else sum (flow_term b c k b0) (branch_flows k) end.
Local Notation add_element := (NewtonSE.add_element real_num 1 branch_param shunt_param branch_power branch_current shunt_power xs u).
Lemma form_flows b c k b0 : (b < n)%nat -> (c < n)%nat -> forall l r,
  row_form b (fold_left (fun r s => add_flow real_num 1 branch_param xs u b c k b0 (fst (fst s)) (snd (fst s)) (snd s) r) l r) = row_form b r + sum (flow_term b c k b0) l.
Proof.
  intros Hb Hc. induction l as [|[[side kind] m] l IH]; intros r; [cbn; ring|]. cbn [fold_left]. rewrite IH, form_flow by assumption. rewrite sum_cons. cbn [fst snd]. ring.
Qed.
Lemma form_element b c r el : (b < n)%nat -> (c < n)%nat -> row_form b (add_element b c r el) = row_form b r + element_term b c el.
Proof.
  intros Hb Hc. destruct el as [k|k b0 b1]; cbn [NewtonSE.add_element element_term].
  - destruct (shunt_power k) as [m|] eqn:E; [apply form_shunt; assumption|]. unfold shunt_term. rewrite E. ring.
  - destruct (Bool.eqb b0 b1); [ring|]. apply form_flows; assumption.
Qed.
Lemma form_elements b c : (b < n)%nat -> (c < n)%nat -> forall l r, row_form b (fold_left (add_element b c) l r) = row_form b r + sum (element_term b c) l.
Proof.
  intros Hb Hc. induction l as [|el l IH]; intros r; [cbn; ring|]. cbn [fold_left]. rewrite IH, form_element by assumption. rewrite sum_cons. ring.
Qed.
Local Notation add_injection := (NewtonSE.add_injection real_num 1 ybus bus_injection xs u).
Lemma form_injection b c r : (b < n)%nat -> (c < n)%nat -> row_form b (add_injection b c r) = row_form b r.
Proof.
  intros Hb Hc. unfold NewtonSE.add_injection. destruct (bus_injection b) as [m|].
  - assert (E : row_form b (add_injection_row real_num 1 ybus xs u b c r) = row_form b r).
    { unfold add_injection_row. rewrite form_rhs, !form_entry by assumption. cbn [add_injection_jacobian g_pt g_pv g_qt g_qv eta_t eta_v]. ring. }
    cbv zeta. destruct (b =? c)%nat; [|exact E]. unfold add_injection_diagonal. rewrite form_rhs, form_entry by assumption. cbn [set_r g_pt g_pv g_qt g_qv eta_t eta_v]. rewrite E. ring.
  - destruct (b =? c)%nat; [|reflexivity]. rewrite form_entry by exact Hb. cbn [set_r g_pt g_pv g_qt g_qv]. ring.
Qed.
Local Notation elements := (LinearSE.elements n_branch branch_bus shunts).
Local Notation add_column := (NewtonSE.add_column real_num real_abs real_arg 1 n n_branch branch_bus shunts branch_param shunt_param ybus slack_bus voltage branch_power branch_current shunt_power bus_injection reference xs u).
Local Notation build_row := (NewtonSE.build_row real_num real_abs real_arg 1 n n_branch branch_bus shunts branch_param shunt_param ybus slack_bus voltage branch_power branch_current shunt_power bus_injection reference xs u).
Lemma form_column b c r : (b < n)%nat -> (c < n)%nat -> row_form b (add_column b r c) = row_form b r + ((if (b =? c)%nat then voltage_term b else 0) + sum (element_term b c) (elements b c)).
Proof.
  intros Hb Hc. unfold NewtonSE.add_column. rewrite form_injection, form_elements by assumption. destruct (b =? c)%nat; [rewrite form_voltage by exact Hb|]; ring.
Qed.
Lemma form_columns b : (b < n)%nat -> forall l r, (forall c, In c l -> (c < n)%nat) ->
  row_form b (fold_left (add_column b) l r) = row_form b r + sum (fun c => (if (b =? c)%nat then voltage_term b else 0) + sum (element_term b c) (elements b c)) l.
Proof.
  intros Hb. induction l as [|c l IH]; intros r H; [cbn; ring|]. cbn [fold_left]. rewrite IH by (intros c' Hc'; apply H; right; exact Hc').
  rewrite form_column; [|exact Hb|apply H; left; reflexivity]. rewrite sum_cons. ring.
Qed.
Lemma form_no_row b : row_form b (no_row real_num) = 0.
Proof.
  unfold row_form, left_t, left_v, no_row. cbn [r_gain r_rhs no_gain g_pt g_pv g_qt g_qv eta_t eta_v]. unfold t0, v0.
  rewrite (sum_zero (fun j => 0 * ang d j 0%nat + 0 * mag d j 0%nat)) by (intros; ring). cbn. ring.
Qed.
Lemma form_row b : (b < n)%nat -> row_form b (build_row b) = voltage_term b + sum (fun c => sum (element_term b c) (elements b c)) (seq 0 n).
Proof.
  intros Hb. unfold NewtonSE.build_row. rewrite form_columns by (try exact Hb; intros c Hc; apply in_seq in Hc; lia). rewrite form_no_row, sum_plus.
  rewrite (sum_pick (fun _ => voltage_term b) n b Hb). ring.
Qed.

(** ** From elements of entries to branches and shunts *)
Hypothesis bus_range : forall k s b, branch_bus k s = Some b -> (b < n)%nat.
Lemma sum_elements (F : element -> R) b c :
  sum F (elements b c) = (if (b =? c)%nat then sum (fun k => F (Shunt k)) (shunts b) else 0) +
    sum (fun k => sum (fun bb => if LinearSE.at_bus branch_bus k (fst bb) b && LinearSE.at_bus branch_bus k (snd bb) c then F (Branch k (fst bb) (snd bb)) else 0)
      [(false, false); (false, true); (true, false); (true, true)]) (seq 0 n_branch).
Proof.
  unfold LinearSE.elements. rewrite sum_app. f_equal.
  - destruct (b =? c)%nat; [rewrite map_map; reflexivity|reflexivity].
  - rewrite sum_flat. apply sum_ext. intros k _. rewrite sum_flat. apply sum_ext. intros bb _.
    destruct (LinearSE.at_bus branch_bus k (fst bb) b && LinearSE.at_bus branch_bus k (snd bb) c); [rewrite sum_cons, sum_nil; ring|reflexivity].
Qed.
Definition pick2 (F : nat -> nat -> R) k b0 b1 : R := match branch_bus k b0, branch_bus k b1 with Some i, Some j => F i j | _, _ => 0 end.
Lemma sum_pick2 F k b0 b1 : sum (fun b => sum (fun c => if LinearSE.at_bus branch_bus k b0 b && LinearSE.at_bus branch_bus k b1 c then F b c else 0) (seq 0 n)) (seq 0 n) = pick2 F k b0 b1.
Proof.
  unfold LinearSE.at_bus, pick2. destruct (branch_bus k b0) as [i|] eqn:Ei.
  2:{ apply sum_zero. intros b _. apply sum_zero. reflexivity. }
  destruct (branch_bus k b1) as [j|] eqn:Ej.
  - rewrite (sum_ext _ (fun b => if (i =? b)%nat then sum (fun c => if (j =? c)%nat then F b c else 0) (seq 0 n) else 0)).
    + rewrite (sum_pick (fun b => sum (fun c => if (j =? c)%nat then F b c else 0) (seq 0 n)) n i (bus_range _ _ _ Ei)). apply (sum_pick (F i) n j (bus_range _ _ _ Ej)).
    + intros b _. destruct (i =? b)%nat; cbn [andb]; [reflexivity|apply sum_zero; reflexivity].
  - apply sum_zero. intros b _. apply sum_zero. intros c _. rewrite andb_false_r. reflexivity.
Qed.
Lemma all_elements : sum (fun b => sum (fun c => sum (element_term b c) (elements b c)) (seq 0 n)) (seq 0 n) =
  sum (fun b => sum (shunt_term b) (shunts b)) (seq 0 n) +
  sum (fun k => pick2 (fun i j => sum (fun s => flow_term i j k false s + flow_term j i k true s) (branch_flows k)) k false true) (seq 0 n_branch).
Proof.
  rewrite (sum_ext _ (fun b => sum (shunt_term b) (shunts b) + sum (fun k => sum (fun bb => sum (fun c => if LinearSE.at_bus branch_bus k (fst bb) b && LinearSE.at_bus branch_bus k (snd bb) c then element_term b c (Branch k (fst bb) (snd bb)) else 0) (seq 0 n))
      [(false, false); (false, true); (true, false); (true, true)]) (seq 0 n_branch))).
  - rewrite sum_plus. f_equal. rewrite sum_swap. apply sum_ext. intros k _. rewrite sum_swap.
    rewrite (sum_ext _ (fun bb => pick2 (fun b c => element_term b c (Branch k (fst bb) (snd bb))) k (fst bb) (snd bb))) by (intros bb _; apply sum_pick2).
    rewrite !sum_cons, sum_nil. cbn [fst snd element_term Bool.eqb]. unfold pick2. destruct (branch_bus k false) as [i|], (branch_bus k true) as [j|]; try (cbn; ring).
    rewrite sum_plus. ring.
  - intros b Hb. apply in_seq in Hb. rewrite (sum_ext _ _ _ (fun c _ => sum_elements (element_term b c) b c)), sum_plus. f_equal.
    + apply (sum_pick (fun _ => sum (shunt_term b) (shunts b)) n b). lia.
    + rewrite sum_swap. apply sum_ext. intros k _. apply sum_swap.
Qed.
End Rows.
