(** C57: every Gauss-Newton step solves the equations of an iteration, with some multipliers. *)
From Coq Require Import Reals Lra Field Classical.
From Verif Require Import Common Numbers NumbersPair LinearSE NewtonReals NewtonSE NewtonSESpec NewtonSEFacts NewtonSERows NewtonSEWeak NewtonSEInject NewtonSEStep NewtonSEFixed.
Local Open Scope R_scope.

Local Notation cminus := (csub real_num).
Local Notation sum f l := (nsum real_num (map f l)).

(** ** Multipliers: a linear function that is zero where others are zero is a combination of them *)
Definition linear (L : volts -> R) : Prop := forall k e f, L (combine k e f) = L e + k * L f.
Lemma one_multiplier (P : volts -> Prop) f L : (forall k e e', P e -> P e' -> P (combine k e e')) -> linear f -> linear L -> (forall e, P e -> f e = 0 -> L e = 0) -> exists k, forall e, P e -> L e = k * f e.
Proof.
  intros C Hf HL Z. destruct (classic (exists e, P e /\ f e <> 0)) as [(e1 & P1 & N)|N].
  - exists (L e1 / f e1). intros e Pe. assert (E : L (combine (- (f e / f e1)) e e1) = 0).
    { apply Z; [apply C; assumption|]. rewrite Hf. field. exact N. }
    rewrite HL in E. unfold Rdiv in *. replace (L e) with (f e * / f e1 * L e1) by (clear - E; lra). ring.
  - exists 0. intros e Pe. rewrite Rmult_0_l. apply Z; [exact Pe|]. apply NNPP. intros E. apply N. exists e. auto.
Qed.
Lemma multipliers (F G : nat -> volts -> R) : (forall i, linear (F i)) -> (forall i, linear (G i)) ->
  forall m L, linear L -> (forall e, (forall i, (i < m)%nat -> F i e = 0 /\ G i e = 0) -> L e = 0) -> exists c c', forall e, L e = sum (fun i => c i * F i e + c' i * G i e) (seq 0 m).
Proof.
  intros HF HG. induction m as [|m IH]; intros L HL Z.
  - exists (fun _ => 0), (fun _ => 0). intros e. cbn [seq]. rewrite sum_nil. apply Z. intros i Hi. exfalso. clear - Hi. lia.
  - set (P := fun e => forall i, (i < m)%nat -> F i e = 0 /\ G i e = 0).
    assert (CP : forall k e e', P e -> P e' -> P (combine k e e')).
    { intros k e e' A B i Hi. destruct (A i Hi) as [A1 A2], (B i Hi) as [B1 B2]. rewrite HF, HG, A1, A2, B1, B2. split; ring. }
    destruct (one_multiplier (fun e => P e /\ G m e = 0) (F m) L) as [k1 E1]; try assumption; [|apply HF| |].
    { intros k e e' [A A'] [B B']. split; [apply CP; assumption|]. rewrite HG, A', B'. ring. }
    { intros e [A B] C. apply Z. intros i Hi. destruct (Nat.eq_dec i m) as [->|N]; [auto|]. apply A. clear - Hi N. lia. }
    destruct (one_multiplier P (G m) (fun e => L e - k1 * F m e)) as [k2 E2]; [exact CP|apply HG| | |].
    { intros k e e'. rewrite HL, HF. ring. }
    { intros e A B. rewrite (E1 e (conj A B)). ring. }
    destruct (IH (fun e => L e - k1 * F m e - k2 * G m e)) as (c & c' & E).
    { intros k e e'. rewrite HL, HF, HG. ring. }
    { intros e A. rewrite (E2 e A). ring. }
    exists (fun i => if (i =? m)%nat then k1 else c i), (fun i => if (i =? m)%nat then k2 else c' i). intros e. rewrite seq_S, sum_app, sum_cons, sum_nil. cbn [Nat.add]. rewrite Nat.eqb_refl.
    rewrite (sum_ext _ (fun i => c i * F i e + c' i * G i e)), <- E by (intros i Hi; apply in_seq in Hi; destruct (Nat.eqb_spec i m); [exfalso; clear - Hi e0; lia|reflexivity]). ring.
Qed.

Section Exists.
Variables (n n_branch : nat) (branch_bus : nat -> bool -> option nat) (shunts : nat -> list nat).
Variables (branch_param : nat -> bool -> bool -> nat -> nat -> R * R) (shunt_param : nat -> nat -> nat -> R * R) (ybus : nat -> nat -> nat -> nat -> R * R) (slack_bus : nat).
Variables (voltage : nat -> option (voltage_sensor (R := R))) (branch_power : nat -> bool -> option (flow (R := R))) (branch_current : nat -> bool -> option (angle_type * flow (R := R))).
Variables (shunt_power bus_injection : nat -> option (flow (R := R))) (reference : nat -> R).
Local Notation quantity_at := (NewtonSESpec.quantity_at 1 n branch_bus branch_param shunt_param ybus).
Variable xs : nat -> unknown (R := R).
Local Notation x := (here xs). Local Notation D := (NewtonSEFacts.D 1 n branch_bus branch_param shunt_param ybus (here xs)).
Local Notation u := (phasors real_num cos sin xs).
Hypothesis v_nonzero : forall b, (b < n)%nat -> v (xs b) 0%nat <> 0.
Hypothesis BR : branches_ok n branch_bus.
Hypothesis SIDES : both_sides branch_bus branch_power branch_current.
Local Notation build_row := (NewtonSE.build_row real_num real_abs real_arg 1 n n_branch branch_bus shunts branch_param shunt_param ybus slack_bus voltage branch_power branch_current shunt_power bus_injection reference xs u).
Local Notation rhs_of := (NewtonSE.rhs_of real_num real_abs real_arg 1 n n_branch branch_bus shunts branch_param shunt_param ybus slack_bus voltage branch_power branch_current shunt_power bus_injection reference xs u).
Local Notation solution := (NewtonSE.solution real_num real_abs real_arg 1 n n_branch branch_bus shunts branch_param shunt_param ybus slack_bus voltage branch_power branch_current shunt_power bus_injection reference).
Local Notation measured := (NewtonSESpec.measured 1 n n_branch shunts voltage branch_power branch_current shunt_power bus_injection).
Local Notation has_angle := (NewtonSE.has_angle n voltage).

(** ** The equations from their tests *)
Section Tests.
Variable dx : nat -> unknown (R := R).
Local Notation d := (here dx).
Local Notation psi_p := (NewtonSEStep.psi_p xs dx). Local Notation psi_q := (NewtonSEStep.psi_q xs dx).
Definition sum_t (b : nat) : R := total real_num n (fun j => vplus real_num (vplus real_num (mvec real_num 1 (g_pt (r_gain (build_row b) j)) (theta (dx j))) (mvec real_num 1 (g_pv (r_gain (build_row b) j)) (v (dx j))))
  (vplus real_num (mvec real_num 1 (transpose (q_pt (r_gain (build_row j) b))) (phi_p (dx j))) (mvec real_num 1 (transpose (q_qt (r_gain (build_row j) b))) (phi_q (dx j))))) 0%nat.
Definition sum_v (b : nat) : R := total real_num n (fun j => vplus real_num (vplus real_num (mvec real_num 1 (g_qt (r_gain (build_row b) j)) (theta (dx j))) (mvec real_num 1 (g_qv (r_gain (build_row b) j)) (v (dx j))))
  (vplus real_num (mvec real_num 1 (transpose (q_pv (r_gain (build_row j) b))) (phi_p (dx j))) (mvec real_num 1 (transpose (q_qv (r_gain (build_row j) b))) (phi_q (dx j))))) 0%nat.
Local Notation qs Q F f b := (sum (fun c => Q (r_gain (build_row c) b) 0%nat 0%nat * F (f c) 0%nat) (seq 0 n)).
Lemma sum_t_is b : sum_t b = left_t n d (r_gain (build_row b)) + (qs q_pt phi_p dx b + qs q_qt phi_q dx b).
Proof.
  unfold left_t. rewrite <- !sum_plus. unfold sum_t, total. apply sum_ext. intros j _. unfold vplus. rewrite !mvec_1. reflexivity.
Qed.
Lemma sum_v_is b : sum_v b = left_v n d (r_gain (build_row b)) + (qs q_pv phi_p dx b + qs q_qv phi_q dx b).
Proof.
  unfold left_v. rewrite <- !sum_plus. unfold sum_v, total. apply sum_ext. intros j _. unfold vplus. rewrite !mvec_1. reflexivity.
Qed.
Lemma row_tested e b :
  row_form n d e b (build_row b) = ang e b 0%nat * (sum_t b - eta_t (rhs_of b) 0%nat) + mag e b 0%nat * (sum_v b - eta_v (rhs_of b) 0%nat)
  - sum (fun c => psi_p c * (q_pt (r_gain (build_row c) b) 0%nat 0%nat * ang e b 0%nat + q_pv (r_gain (build_row c) b) 0%nat 0%nat * mag e b 0%nat) +
                  psi_q c * (q_qt (r_gain (build_row c) b) 0%nat 0%nat * ang e b 0%nat + q_qv (r_gain (build_row c) b) 0%nat 0%nat * mag e b 0%nat)) (seq 0 n).
Proof.
  destruct (rhs_fold n n_branch branch_bus shunts branch_param shunt_param ybus slack_bus voltage branch_power branch_current shunt_power bus_injection reference xs b (seq 0 n) (r_rhs (build_row b))) as (F1 & F2 & _ & _).
  unfold NewtonSE.rhs_of. rewrite F1, F2, sum_t_is, sum_v_is, !sum_plus.
  assert (E : sum (fun c => psi_p c * (q_pt (r_gain (build_row c) b) 0%nat 0%nat * ang e b 0%nat + q_pv (r_gain (build_row c) b) 0%nat 0%nat * mag e b 0%nat)) (seq 0 n) =
    ang e b 0%nat * (qs q_pt phi_p dx b - qs q_pt phi_p xs b) + mag e b 0%nat * (qs q_pv phi_p dx b - qs q_pv phi_p xs b)).
  { rewrite <- !sum_minus, <- !sum_times, <- sum_plus. apply sum_ext. intros c _. unfold NewtonSEStep.psi_p. ring. }
  assert (E' : sum (fun c => psi_q c * (q_qt (r_gain (build_row c) b) 0%nat 0%nat * ang e b 0%nat + q_qv (r_gain (build_row c) b) 0%nat 0%nat * mag e b 0%nat)) (seq 0 n) =
    ang e b 0%nat * (qs q_qt phi_q dx b - qs q_qt phi_q xs b) + mag e b 0%nat * (qs q_qv phi_q dx b - qs q_qv phi_q xs b)).
  { rewrite <- !sum_minus, <- !sum_times, <- sum_plus. apply sum_ext. intros c _. unfold NewtonSEStep.psi_q. ring. }
  rewrite E, E'. unfold row_form. ring.
Qed.
Lemma tested e : sum (fun b => row_form n d e b (build_row b)) (seq 0 n) = sum (fun b => ang e b 0%nat * (sum_t b - eta_t (rhs_of b) 0%nat) + mag e b 0%nat * (sum_v b - eta_v (rhs_of b) 0%nat)) (seq 0 n)
  - sum (fun c => match bus_injection c with Some _ => psi_p c * D (injection_of c active 0%nat) e + psi_q c * D (injection_of c reactive 0%nat) e | None => 0 end) (seq 0 n).
Proof.
  rewrite (sum_ext _ _ (seq 0 n) (fun b _ => row_tested e b)), sum_minus. f_equal. rewrite sum_swap. apply sum_ext. intros c Hc. rewrite sum_plus, !sum_times.
  pose proof (q_of_row n n_branch branch_bus shunts branch_param shunt_param ybus slack_bus voltage branch_power branch_current shunt_power bus_injection reference xs v_nonzero e c (proj2 (proj1 (in_seq n 0 c) Hc))) as E.
  pose proof (f_equal fst E) as E1. pose proof (f_equal snd E) as E2. unfold q_form in E1, E2. cbn [fst snd] in E1, E2. rewrite E1, E2. destruct (bus_injection c); cbn [both fst snd]; ring.
Qed.
Local Notation term := (NewtonSEWeak.term n branch_bus branch_param shunt_param ybus xs d).
Local Notation virtual_term := (NewtonSEWeak.virtual_term n slack_bus voltage reference xs d).
(** the rows of the injections *)
Hypothesis ROWS : forall b m, (b < n)%nat -> bus_injection b = Some m ->
  D (injection_of b active 0%nat) d - (fst (f_value m 0%nat) - quantity_at (injection_of b active 0%nat) x) = f_p_var m 0%nat * phi_p (dx b) 0%nat /\
  D (injection_of b reactive 0%nat) d - (snd (f_value m 0%nat) - quantity_at (injection_of b reactive 0%nat) x) = f_q_var m 0%nat * phi_q (dx b) 0%nat.
Hypothesis NONE : forall b, (b < n)%nat -> bus_injection b = None -> phi_p (dx b) 0%nat = 0 /\ phi_q (dx b) 0%nat = 0.
Hypothesis WEAK : forall e, sum (term e) (measured_voltages n voltage) + sum (virtual_term e) (seq 0 n) + sum (term e) (flat_map (measured_flows branch_power branch_current) (seq 0 n_branch)) +
  sum (term e) (measured_shunts n shunts shunt_power) +
  sum (fun c => match bus_injection c with Some _ => psi_p c * D (injection_of c active 0%nat) e + psi_q c * D (injection_of c reactive 0%nat) e | None => 0 end) (seq 0 n) = 0.
Theorem solves : solution xs u dx.
Proof.
  assert (Z : forall e, sum (fun b => ang e b 0%nat * (sum_t b - eta_t (rhs_of b) 0%nat) + mag e b 0%nat * (sum_v b - eta_v (rhs_of b) 0%nat)) (seq 0 n) = 0).
  { intros e. pose proof (rows_are n n_branch branch_bus shunts branch_param shunt_param ybus slack_bus voltage branch_power branch_current shunt_power bus_injection reference xs d e v_nonzero BR SIDES) as E.
    rewrite tested in E. pose proof (WEAK e) as W. clear - E W. lra. }
  intros b p Hb Hp. assert (p = 0%nat) by (clear - Hp; lia). subst p. cbv zeta. refine (conj _ (conj _ (conj _ _))).
  - pose proof (Z (mkVolts (fun j _ => if (b =? j)%nat then 1 else 0) (fun _ _ => 0))) as E. cbn [ang mag] in E.
    rewrite (sum_ext _ (fun j => if (b =? j)%nat then sum_t j - eta_t (rhs_of j) 0%nat else 0)) in E by (intros j _; destruct (b =? j)%nat; ring).
    rewrite (sum_pick (fun j => sum_t j - eta_t (rhs_of j) 0%nat) n b Hb) in E. exact (Rminus_diag_uniq _ _ E).
  - pose proof (Z (mkVolts (fun _ _ => 0) (fun j _ => if (b =? j)%nat then 1 else 0))) as E. cbn [ang mag] in E.
    rewrite (sum_ext _ (fun j => if (b =? j)%nat then sum_v j - eta_v (rhs_of j) 0%nat else 0)) in E by (intros j _; destruct (b =? j)%nat; ring).
    rewrite (sum_pick (fun j => sum_v j - eta_v (rhs_of j) 0%nat) n b Hb) in E. exact (Rminus_diag_uniq _ _ E).
  - destruct (rhs_fold n n_branch branch_bus shunts branch_param shunt_param ybus slack_bus voltage branch_power branch_current shunt_power bus_injection reference xs b (seq 0 n) (r_rhs (build_row b))) as (_ & _ & F3 & _).
    unfold NewtonSE.rhs_of. rewrite F3. clear F3.
    pose proof (f_equal fst (q_of_row n n_branch branch_bus shunts branch_param shunt_param ybus slack_bus voltage branch_power branch_current shunt_power bus_injection reference xs v_nonzero d b Hb)) as Q.
    pose proof (f_equal fst (tau_of_row n n_branch branch_bus shunts branch_param shunt_param ybus slack_bus voltage branch_power branch_current shunt_power bus_injection reference xs v_nonzero d b Hb)) as T.
    unfold q_form in Q. unfold tau in T. cbn [fst ang mag here] in Q, T. rewrite T. unfold total, vplus.
    rewrite (sum_ext _ (fun j => (q_pt (r_gain (build_row b) j) 0%nat 0%nat * theta (dx j) 0%nat + q_pv (r_gain (build_row b) j) 0%nat 0%nat * v (dx j) 0%nat) +
       (if (b =? j)%nat then fst (r_entry bus_injection b b) * phi_p (dx j) 0%nat else 0)) (seq 0 n)).
    2:{ intros j _. rewrite !mvec_1. pose proof (f_equal fst (r_of_row n n_branch branch_bus shunts branch_param shunt_param ybus slack_bus voltage branch_power branch_current shunt_power bus_injection reference xs b j Hb)) as E.
        unfold r_at in E. cbn [fst] in E. rewrite E. cbn [n_add real_num]. unfold r_entry. destruct (Nat.eqb_spec b j) as [<-|N]; [rewrite Nat.eqb_refl; ring|cbn [fst]; ring]. }
    rewrite sum_plus, Q, (sum_pick (fun j => fst (r_entry bus_injection b b) * phi_p (dx j) 0%nat) n b Hb). unfold r_entry. rewrite Nat.eqb_refl. destruct (bus_injection b) as [m|] eqn:Hm.
    + destruct (ROWS b m Hb Hm) as [E _]. open_cx. unfold both. cbn [fst]. clear - E. lra.
    + destruct (NONE b Hb Hm) as [-> _]. cbn [fst]. ring.
  - destruct (rhs_fold n n_branch branch_bus shunts branch_param shunt_param ybus slack_bus voltage branch_power branch_current shunt_power bus_injection reference xs b (seq 0 n) (r_rhs (build_row b))) as (_ & _ & _ & F4).
    unfold NewtonSE.rhs_of. rewrite F4. clear F4.
    pose proof (f_equal snd (q_of_row n n_branch branch_bus shunts branch_param shunt_param ybus slack_bus voltage branch_power branch_current shunt_power bus_injection reference xs v_nonzero d b Hb)) as Q.
    pose proof (f_equal snd (tau_of_row n n_branch branch_bus shunts branch_param shunt_param ybus slack_bus voltage branch_power branch_current shunt_power bus_injection reference xs v_nonzero d b Hb)) as T.
    unfold q_form in Q. unfold tau in T. cbn [snd ang mag here] in Q, T. rewrite T. unfold total, vplus.
    rewrite (sum_ext _ (fun j => (q_qt (r_gain (build_row b) j) 0%nat 0%nat * theta (dx j) 0%nat + q_qv (r_gain (build_row b) j) 0%nat 0%nat * v (dx j) 0%nat) +
       (if (b =? j)%nat then snd (r_entry bus_injection b b) * phi_q (dx j) 0%nat else 0)) (seq 0 n)).
    2:{ intros j _. rewrite !mvec_1. pose proof (f_equal snd (r_of_row n n_branch branch_bus shunts branch_param shunt_param ybus slack_bus voltage branch_power branch_current shunt_power bus_injection reference xs b j Hb)) as E.
        unfold r_at in E. cbn [snd] in E. rewrite E. cbn [n_add real_num]. unfold r_entry. destruct (Nat.eqb_spec b j) as [<-|N]; [rewrite Nat.eqb_refl; ring|cbn [snd]; ring]. }
    rewrite sum_plus, Q, (sum_pick (fun j => snd (r_entry bus_injection b b) * phi_q (dx j) 0%nat) n b Hb). unfold r_entry. rewrite Nat.eqb_refl. destruct (bus_injection b) as [m|] eqn:Hm.
    + destruct (ROWS b m Hb Hm) as [_ E]. open_cx. unfold both. cbn [snd]. clear - E. lra.
    + destruct (NONE b Hb Hm) as [_ ->]. cbn [snd]. ring.
Qed.
End Tests.

(** ** The unknowns of a change *)
Hypothesis OK : measurements_ok n voltage branch_power branch_current shunt_power bus_injection.
Hypothesis PHI : phi_ok bus_injection xs.
Variable d : volts.
Definition term_of (e : volts) (s : quantity * (R * R)) : R := D (fst s) e * (D (fst s) d - (fst (snd s) - quantity_at (fst s) x)) / snd (snd s).
Hypothesis EXACT : forall s, In s measured -> snd (snd s) = 0 -> D (fst s) d - (fst (snd s) - quantity_at (fst s) x) = 0.
Hypothesis TESTS : forall e, (forall s, In s measured -> snd (snd s) = 0 -> D (fst s) e = 0) -> sum (term_of e) measured = 0.
Local Notation virtual_bus := (if has_voltage voltage slack_bus then slack_bus else first_voltage n voltage).
Definition turn : R := if has_angle then 0 else reference 0%nat - theta (xs virtual_bus) 0%nat - ang d virtual_bus 0%nat.
Definition exact_p (b : nat) (e : volts) : R := match bus_injection b with Some m => if Req_EM_T (f_p_var m 0%nat) 0 then D (injection_of b active 0%nat) e else 0 | None => 0 end.
Definition exact_q (b : nat) (e : volts) : R := match bus_injection b with Some m => if Req_EM_T (f_q_var m 0%nat) 0 then D (injection_of b reactive 0%nat) e else 0 | None => 0 end.
Lemma linear_sum {A} (f : A -> volts -> R) l : (forall s, In s l -> linear (f s)) -> linear (fun e => sum (fun s => f s e) l).
Proof.
  intros H k e e'. induction l as [|s l IH]; [rewrite !sum_nil; ring|]. rewrite !sum_cons, IH by (intros t I; apply H; right; exact I). rewrite (H s (or_introl eq_refl)). ring.
Qed.
Lemma some_multipliers : exists c c', forall e, sum (term_of e) measured = sum (fun b => c b * exact_p b e + c' b * exact_q b e) (seq 0 n).
Proof.
  apply (multipliers exact_p exact_q) with (L := fun e => sum (term_of e) measured).
  - intros b k e e'. unfold exact_p. destruct (bus_injection b) as [m|]; [|ring]. destruct (Req_EM_T (f_p_var m 0%nat) 0); [apply D_linear|ring].
  - intros b k e e'. unfold exact_q. destruct (bus_injection b) as [m|]; [|ring]. destruct (Req_EM_T (f_q_var m 0%nat) 0); [apply D_linear|ring].
  - apply (linear_sum (fun s e => term_of e s)). intros s _ k e e'. unfold term_of. rewrite D_linear. unfold Rdiv. ring.
  - intros e Z. apply TESTS. intros s I V.
    destruct (variance_sign n n_branch shunts voltage branch_power branch_current shunt_power bus_injection OK s I) as [W|(_ & b & m & Hb & Hm & J)]; [rewrite V in W; exfalso; revert W; apply Rlt_irrefl|].
    destruct (Z b Hb) as [Z1 Z2]. unfold exact_p in Z1. unfold exact_q in Z2. rewrite Hm in Z1, Z2. destruct J as [<-|[<-|[]]]; cbn [fst snd] in V |- *.
    + destruct (Req_EM_T (f_p_var m 0%nat) 0); [exact Z1|contradiction].
    + destruct (Req_EM_T (f_q_var m 0%nat) 0); [exact Z2|contradiction].
Qed.
Section Unknowns.
Variables (c c' : nat -> R).
Definition found (b : nat) : unknown (R := R) :=
  mkX (fun p => ang d b p + turn * 1) (fun p => mag d b p + turn * 0)
    (fun _ => match bus_injection b with Some m => if Req_EM_T (f_p_var m 0%nat) 0 then phi_p (xs b) 0%nat - c b else
        (D (injection_of b active 0%nat) d - (fst (f_value m 0%nat) - quantity_at (injection_of b active 0%nat) x)) / f_p_var m 0%nat | None => 0 end)
    (fun _ => match bus_injection b with Some m => if Req_EM_T (f_q_var m 0%nat) 0 then phi_q (xs b) 0%nat - c' b else
        (D (injection_of b reactive 0%nat) d - (snd (f_value m 0%nat) - quantity_at (injection_of b reactive 0%nat) x)) / f_q_var m 0%nat | None => 0 end).
Lemma found_volts : here found = combine turn d rotation. Proof. reflexivity. Qed.
Lemma D_found s : In s measured -> D (fst s) (here found) = D (fst s) d.
Proof.
  intros I. rewrite found_volts, D_linear. unfold turn. destruct has_angle eqn:H; [ring|].
  rewrite (D_turn n n_branch branch_bus shunts branch_param shunt_param ybus voltage branch_power branch_current shunt_power bus_injection xs OK s H I). ring.
Qed.
Hypothesis MULT : forall e, sum (term_of e) measured = sum (fun b => c b * exact_p b e + c' b * exact_q b e) (seq 0 n).
Lemma found_virtual e : sum (NewtonSEWeak.virtual_term n slack_bus voltage reference xs (here found) e) (seq 0 n) = 0.
Proof.
  apply sum_zero. intros b Hb. apply in_seq in Hb. rewrite (virtual_is n slack_bus voltage reference xs found e b) by (clear - Hb; lia).
  destruct has_angle eqn:H; [reflexivity|]. destruct (Nat.eqb_spec virtual_bus b) as [E|N]; [|reflexivity].
  unfold virtual_part. destruct (voltage b) as [m|]; [|ring]. cbn [ang here found theta]. unfold turn. rewrite H, E. unfold Rdiv. ring.
Qed.
Lemma found_solves : solution xs u found.
Proof.
  assert (INJ : forall b m, (b < n)%nat -> bus_injection b = Some m ->
    In (injection_of b active 0%nat, (fst (f_value m 0%nat), f_p_var m 0%nat)) measured /\ In (injection_of b reactive 0%nat, (snd (f_value m 0%nat), f_q_var m 0%nat)) measured).
  { intros b m Hb Hm. split; apply (in_injections n n_branch shunts voltage branch_power branch_current shunt_power bus_injection b m _ Hb Hm); [left; reflexivity|right; left; reflexivity]. }
  assert (TERM : forall e l, (forall s, In s l -> In s measured) -> sum (NewtonSEWeak.term n branch_bus branch_param shunt_param ybus xs (here found) e) l = sum (term_of e) l).
  { intros e l L. apply sum_ext. intros s I. unfold NewtonSEWeak.term, term_of. rewrite (D_found s (L s I)). reflexivity. }
  apply solves.
  - intros b m Hb Hm. destruct (INJ b m Hb Hm) as [I1 I2]. pose proof (D_found _ I1) as E1. pose proof (D_found _ I2) as E2. cbn [fst] in E1, E2. rewrite E1, E2. cbn [found phi_p phi_q]. rewrite Hm. split.
    + destruct (Req_EM_T (f_p_var m 0%nat) 0) as [Z|Z]; [|field; exact Z]. pose proof (EXACT _ I1 Z) as E. cbn [fst snd] in E. rewrite E, Z. ring.
    + destruct (Req_EM_T (f_q_var m 0%nat) 0) as [Z|Z]; [|field; exact Z]. pose proof (EXACT _ I2 Z) as E. cbn [fst snd] in E. rewrite E, Z. ring.
  - intros b Hb Hm. cbn [found phi_p phi_q]. rewrite Hm. split; reflexivity.
  - intros e. rewrite found_virtual, !TERM by (intros s I; rewrite measured_is, !in_app_iff; auto). pose proof (MULT e) as M. rewrite measured_is, !sum_app in M.
    assert (E : sum (fun b => match bus_injection b with
        | Some _ => NewtonSEStep.psi_p xs found b * D (injection_of b active 0%nat) e + NewtonSEStep.psi_q xs found b * D (injection_of b reactive 0%nat) e | None => 0 end) (seq 0 n) =
      sum (term_of e) (measured_injections n bus_injection) - sum (fun b => c b * exact_p b e + c' b * exact_q b e) (seq 0 n)); [|rewrite E; clear - M; lra].
    unfold measured_injections. rewrite sum_flat, <- sum_minus. apply sum_ext. intros b Hb. apply in_seq in Hb. unfold exact_p, exact_q, NewtonSEStep.psi_p, NewtonSEStep.psi_q. cbn [found phi_p phi_q].
    destruct (bus_injection b) as [m|] eqn:Hm; [|rewrite sum_nil; ring]. destruct (INJ b m) as [I1 I2]; [clear - Hb; lia|exact Hm|]. destruct (PHI b m Hm) as [P1 P2].
    unfold NewtonSESpec.of_flow. cbn [seq flat_map app]. rewrite !sum_cons, sum_nil. unfold term_of. cbn [fst snd].
    destruct (Req_EM_T (f_p_var m 0%nat) 0) as [Z1|Z1], (Req_EM_T (f_q_var m 0%nat) 0) as [Z2|Z2].
    + pose proof (EXACT _ I1 Z1) as E1. pose proof (EXACT _ I2 Z2) as E2. cbn [fst snd] in E1, E2. rewrite E1, E2. unfold Rdiv. ring.
    + pose proof (EXACT _ I1 Z1) as E1. cbn [fst snd] in E1. rewrite E1, (P2 Z2). unfold Rdiv. ring.
    + pose proof (EXACT _ I2 Z2) as E2. cbn [fst snd] in E2. rewrite E2, (P1 Z1). unfold Rdiv. ring.
    + rewrite (P1 Z1), (P2 Z2). unfold Rdiv. ring.
Qed.
End Unknowns.
Theorem some_solution : exists dx, solution xs u dx /\ here dx = combine turn d rotation.
Proof. destruct some_multipliers as (c & c' & M). exists (found c c'). split; [exact (found_solves c c' M)|reflexivity]. Qed.
End Exists.
