(** C55, over the real numbers: an iteration is a step of Newton's method. *)
From Coq Require Import Reals Lra Field FunctionalExtensionality.
From Verif Require Import Common Numbers NumbersPair ShortCircuit PowerFlow PowerFlowSpec PowerFlowFacts NewtonRaphson NewtonSpec NewtonFacts NewtonJacobian NewtonReals.
Local Open Scope R_scope.

Section Step.
Variable tol : R.
Hypothesis tol_nonneg : 0 <= tol.
Local Definition W := real_newton_laws tol tol_nonneg.
Local Definition Lr : num_laws real_num := real_num_laws.
Local Notation cxo := (pair_num real_num). Local Notation conj := (cconj real_num).
Local Notation cmul := (NumbersPair.cmul real_num). Local Notation cadd := (NumbersPair.cadd real_num). Local Notation csub := (NumbersPair.csub real_num).
Variables (np n : nat) (ybus : nat -> nat -> nat -> nat -> R * R) (sources loads : nat -> list nat) (y1 y0 u_source : nat -> R * R).
Variables (type : nat -> load_type) (s : nat -> nat -> R * R) (status : nat -> bool) (regulators_of : nat -> list nat) (regs : nat -> regulator (R := R)).
Hypothesis phases : np = 1%nat \/ np = 3%nat.
Hypothesis loads_disjoint : forall b b' l, (b < n)%nat -> (b' < n)%nat -> In l (loads b) -> In l (loads b') -> b = b'.
Local Notation sy := (source_y cxo np y1 y0). Local Notation su := (source_u cxo real_root u_source).
Local Notation reached := (NewtonRaphson.reached real_num real_abs real_arg cos sin real_gtb Rabs tol np n ybus sources loads sy su type s status regulators_of regs).
Local Notation prepare := (NewtonRaphson.prepare real_num real_gtb Rabs tol np n ybus sources loads sy su type s status regulators_of regs).
Local Notation regulating := (NewtonSpec.regulating sources loads status regulators_of regs).
Local Notation solution := (NewtonRaphson.solution real_num np n).
Local Notation missing held := (missing_power real_num np n ybus sources loads type s cos sin sy su held).
Local Notation network := (network_current cxo np n ybus).
Local Notation imbalance := (NewtonFacts.imbalance real_num np n ybus sources loads sy su type s).

(** The angles and magnitudes on the way from [xs] with the correction [d]: at 0 those of [xs], at 1 those after the iteration. *)
Definition angle_at (xs d : nat -> polar) (t : R) (b p : nat) : R := pa (xs b) p + t * pa (d b) p.
Definition magnitude_at (xs d : nat -> polar) (t : R) (b p : nat) : R := pb (xs b) p + t * (pb (xs b) p * pb (d b) p).
Lemma at_1 xs d b p : pa (moved real_num xs d b) p = angle_at xs d 1 b p /\ pb (moved real_num xs d b) p = magnitude_at xs d 1 b p.
Proof. unfold angle_at, magnitude_at. cbn. unfold vplus, vtimes. cbn. split; ring. Qed.

Lemma dot_minus y (v w : nat -> R * R) p : nsum cxo (map (fun q => cmul (y p q) (csub (v q) (w q))) (seq 0 np)) = csub (dot cxo np y v p) (dot cxo np y w p).
Proof.
  unfold dot. induction (seq 0 np) as [|q l IH]; cbn [map]; [apply pair_eq; cbn; ring|]. rewrite !(sum_cons' real_num), IH. apply pair_eq; cbn; ring.
Qed.
(** the imbalance of the program is the power that is missing *)
Lemma imbalance_missing held xs b p :
  imbalance held (pb (xs b)) (phasors real_num cos sin xs) b p = missing held (fun b => pa (xs b)) (fun b => pb (xs b)) b p.
Proof.
  unfold NewtonFacts.imbalance, missing_power. f_equal. f_equal.
  - apply nsum_ext. intros l _. unfold load_at, given_power. destruct (held l); [reflexivity|]. destruct (type l); [reflexivity| |reflexivity]. apply pair_eq; cbn; unfold re, im; ring.
  - apply nsum_ext. intros i _. f_equal. f_equal. unfold NewtonFacts.source_at. symmetry. apply (dot_minus (sy i)).
Qed.
Definition path (xs d : nat -> polar) (t : R) (b : nat) : polar := mkPolar (angle_at xs d t b) (magnitude_at xs d t b).
Definition corr (d : nat -> polar) (j q : nat) : R * R := (pa (d j) q, pb (d j) q).
Lemma cderiv_voltage xs d b p : cderiv (fun t => phasors real_num cos sin (path xs d t) b p) (change real_num (phasors real_num cos sin xs b) (corr d b) p).
Proof. apply (cderiv_phasor (pa (xs b) p) (pa (d b) p) (pb (xs b) p) (pb (d b) p)). Qed.
Lemma path_0 xs d b p : phasors real_num cos sin (path xs d 0) b p = phasors real_num cos sin xs b p.
Proof. unfold phasors, path, angle_at, magnitude_at. cbn. rewrite !Rmult_0_l, !Rplus_0_r. reflexivity. Qed.
Lemma cderiv_dot (y : nat -> nat -> R * R) (f : nat -> R -> R * R) e p : (forall q, cderiv (f q) (e q)) -> cderiv (fun t => dot cxo np y (fun q => f q t) p) (dot cxo np y e p).
Proof.
  intros H. apply (cderiv_sum (fun q t => cmul (y p q) (f q t)) (fun q => cmul (y p q) (e q))). intros q _.
  eapply cderiv_is; [exact (cderiv_mul _ _ _ _ (cderiv_const (y p q)) (H q))|]. apply pair_eq; cbn; ring.
Qed.
Lemma cderiv_load held xs d b l p :
  cderiv (fun t => load_at real_num type s held (pb (path xs d t b)) l p) (load_change real_num type s held (pb (xs b)) (corr d b) l p).
Proof.
  unfold load_at, load_change. destruct (held l); [apply cderiv_const|].
  assert (V : derivable_pt_lim (fun t => magnitude_at xs d t b p) 0 (pb (xs b) p * pb (d b) p)) by apply deriv_line.
  assert (V0 : magnitude_at xs d 0 b p = pb (xs b) p) by (unfold magnitude_at; ring).
  assert (S : forall k, derivable_pt_lim (fun t => k * magnitude_at xs d t b p) 0 (k * (pb (xs b) p * pb (d b) p))).
  { intros k. eapply deriv_is; [exact (derivable_pt_lim_mult _ _ _ _ _ (derivable_pt_lim_const k 0) V)|]. unfold fct_cte. ring. }
  destruct (type l); [apply cderiv_const| |]; split; cbn.
  1, 2: eapply deriv_is; [exact (derivable_pt_lim_mult _ _ _ _ _ (S _) V)|]; cbn; rewrite V0; ring.
  1, 2: eapply deriv_is; [exact (S _)|]; cbn; ring.
Qed.
Lemma cderiv_imbalance held xs d b p :
  cderiv (fun t => imbalance held (pb (path xs d t b)) (phasors real_num cos sin (path xs d t)) b p)
    (imbalance_change real_num np n ybus sources loads sy su type s held (pb (xs b)) (phasors real_num cos sin xs) (corr d) b p).
Proof.
  set (u := phasors real_num cos sin xs). set (ut := fun t => phasors real_num cos sin (path xs d t)).
  assert (U : forall j q, cderiv (fun t => ut t j q) (change real_num (u j) (corr d j) q)) by (intros j q; apply cderiv_voltage).
  assert (U0 : forall j q, ut 0 j q = u j q) by (intros j q; apply path_0).
  assert (D0 : forall y j, dot cxo np y (ut 0 j) p = dot cxo np y (u j) p) by (intros y j; unfold dot; apply nsum_ext; intros q _; f_equal; apply U0).
  unfold NewtonFacts.imbalance, imbalance_change. apply cderiv_sub; [apply cderiv_add|].
  - apply (cderiv_sum (fun l t => load_at real_num type s held (pb (path xs d t b)) l p)). intros l _. apply cderiv_load.
  - apply (cderiv_sum (fun i t => cmul (ut t b p) (conj (NewtonFacts.source_at real_num np sy su (ut t b) i p)))). intros i _.
    assert (K : cderiv (fun t => NewtonFacts.source_at real_num np sy su (ut t b) i p) (csub (0, 0) (dot cxo np (sy i) (change real_num (u b) (corr d b)) p))).
    { unfold NewtonFacts.source_at. apply cderiv_sub; [apply cderiv_const|]. apply (cderiv_dot (sy i) (fun q t => ut t b q)). intros q. apply U. }
    eapply cderiv_is; [exact (cderiv_mul _ _ _ _ (U b p) (cderiv_conj _ _ K))|]. unfold source_change.
    assert (S0 : NewtonFacts.source_at real_num np sy su (ut 0 b) i p = NewtonFacts.source_at real_num np sy su (u b) i p) by (unfold NewtonFacts.source_at; rewrite D0; reflexivity).
    rewrite S0, U0. generalize (cmul (change real_num (u b) (corr d b) p) (conj (NewtonFacts.source_at real_num np sy su (u b) i p))). intros z.
    generalize (dot cxo np (sy i) (change real_num (u b) (corr d b)) p). intros w. apply pair_eq; cbn; unfold re, im; ring.
  - assert (K : cderiv (fun t => network (ut t) b p) (network (fun j => change real_num (u j) (corr d j)) b p)).
    { apply (cderiv_sum (fun j t => dot cxo np (ybus b j) (ut t j) p)). intros j _. apply (cderiv_dot (ybus b j) (fun q t => ut t j q)). intros q. apply U. }
    eapply cderiv_is; [exact (cderiv_mul _ _ _ _ (U b p) (cderiv_conj _ _ K))|].
    assert (N0 : network (ut 0) b p = network u b p) by (unfold network_current; apply nsum_ext; intros j _; apply D0).
    cbv beta. rewrite N0, U0. apply pair_eq; cbn; ring.
Qed.

Lemma fst_sum {A} (f : A -> R * R) l : fst (nsum cxo (map f l)) = nsum real_num (map (fun i => fst (f i)) l). Proof. exact (re_sum real_num f l). Qed.

(** An iteration goes to where the power that is missing, taken as linear in the angles and magnitudes, is zero: its derivative on the way is its negative. At a bus
    that holds the voltage of its regulators this is so for the active power, and the magnitude of the voltage is kept. The generators that are held at a reactive
    power have a regulator, and the power is a limit of it. *)
Theorem C55_newton_step : forall st u st1 d, reached st u -> prepare u st = Some st1 -> solution (rows st1) d ->
  exists held : nat -> option (nat -> R),
  (forall b l q, (b < n)%nat -> In l (loads b) -> held l = Some q -> exists g sd, regulating b l g /\ limit regs sd g = Some (nsum real_num (map q (seq 0 np)))) /\
  forall b p, (b < n)%nat -> (p < np)%nat ->
  let m := fun t => missing held (angle_at (x st) d t) (magnitude_at (x st) d t) b p in
  derivable_pt_lim (fun t => fst (m t)) 0 (- fst (m 0)) /\
  (derivable_pt_lim (fun t => snd (m t)) 0 (- snd (m 0)) \/
   (exists l g, regulating b l g) /\ pb (moved real_num (x st) d b) p = pb (x st b) p).
Proof.
  intros st u st1 d Hr Hp Hd. exists (clamped st1).
  destruct (reached_inv real_num Lr real_abs real_arg cos sin real_gtb Rabs tol np n ybus sources loads sy su type s status regulators_of regs phases (nw_three _ _ _ _ _ _ _ _ _ W) (nw_above_tol _ _ _ _ _ _ _ _ _ W)
    loads_disjoint (nw_circle _ _ _ _ _ _ _ _ _ W) (nw_polar _ _ _ _ _ _ _ _ _ W) (nw_above_zero _ _ _ _ _ _ _ _ _ W) st u Hr) as (I1 & I2 & I3).
  destruct (prepare_spec real_num Lr cos sin real_gtb Rabs tol np n ybus sources loads sy su type s status regulators_of regs phases (nw_three _ _ _ _ _ _ _ _ _ W) (nw_above_tol _ _ _ _ _ _ _ _ _ W)
    loads_disjoint u st st1 I1 Hp) as (P1 & P2 & P3 & P4).
  split.
  { intros b l q Hb Hl Hq. destruct (bus_control_spec real_num sources loads status regulators_of regs b) as (_ & _ & _ & B4).
    destruct (P1 b Hb) as [[K|K] _]; [destruct K as (_ & _ & _ & _ & _ & K); rewrite (K l Hl) in Hq; discriminate|].
    destruct K as (K1 & _ & _ & K). destruct (K l Hl) as [(g & q' & G1 & G2 & G3)|[_ G]]; [|congruence]. rewrite G2 in Hq. injection Hq as ->.
    destruct (B4 K1) as (Bs & _). apply in_active in G1. exists g, (side_of (c_violated (ctl st1 b))). split; [unfold NewtonSpec.regulating; tauto|].
    rewrite G3. f_equal. apply (total_sum real_num Lr np phases). }
  intros b p Hb Hpp m. set (cl := clamped st1) in *. set (xs := x st) in *.
  assert (Hu : u = phasors real_num cos sin xs) by (apply functional_extensionality; intros j; apply functional_extensionality; intros q; apply I2). subst u.
  set (br := NewtonRaphson.build_row real_num np n ybus sources loads sy su type s xs cl (phasors real_num cos sin xs) b).
  assert (D : cderiv m (imbalance_change real_num np n ybus sources loads sy su type s cl (pb (xs b)) (phasors real_num cos sin xs) (corr d) b p)).
  { pose proof (cderiv_imbalance cl xs d b p) as [D1 D2].
    split; [refine (derivable_pt_lim_ext _ _ _ _ _ D1)|refine (derivable_pt_lim_ext _ _ _ _ _ D2)]; intros t; unfold m; rewrite (imbalance_missing cl (path xs d t)); reflexivity. }
  assert (M0 : m 0 = imbalance cl (pb (xs b)) (phasors real_num cos sin xs) b p).
  { unfold m. rewrite (imbalance_missing cl xs). f_equal; apply functional_extensionality; intros j; apply functional_extensionality; intros q; unfold angle_at, magnitude_at; ring. }
  destruct (build_del real_num Lr np n ybus sources loads sy su type s xs cl (phasors real_num cos sin xs) b p) as [B1 B2]. fold br in B1, B2. rewrite <- M0 in B1, B2.
  pose proof (build_jac real_num Lr np n ybus sources loads sy su type s xs cl (phasors real_num cos sin xs) (corr d) b p Hb Hpp) as J. fold br in J.
  pose proof (row_equation real_num np n (rows st1) d b p Hd Hb Hpp) as E. rewrite (P3 b Hb) in E. fold xs in E. fold br in E.
  set (dm := imbalance_change real_num np n ybus sources loads sy su type s cl (pb (xs b)) (phasors real_num cos sin xs) (corr d) b p) in *.
  assert (F1 : fst dm = - fst (m 0)).
  { assert (K : nsum real_num (map (fun j => fst (blk real_num np (r_jac br j) (corr d j) p)) (seq 0 n)) = pa (r_del br) p).
    { assert (K1 := f_equal fst E). destruct (c_type (ctl st1 b)); rewrite fst_sum in K1; exact K1. }
    assert (J1 := f_equal fst J). rewrite fst_sum in J1.
    rewrite K, B1 in J1. assert (J1' : fst (m 0) = - fst dm) by exact J1. rewrite J1'. ring. }
  destruct D as [D1 D2]. split; [rewrite <- F1; exact D1|].
  destruct (c_type (ctl st1 b)) eqn:T.
  1, 2: left; assert (F2 : snd dm = - snd (m 0));
    [assert (J2 := f_equal snd (eq_trans (eq_sym E) J)); cbn [snd] in J2; rewrite B2 in J2; assert (J2' : snd (m 0) = - snd dm) by exact J2; rewrite J2'; ring|rewrite <- F2; exact D2].
  right. split.
  - destruct (bus_control_spec real_num sources loads status regulators_of regs b) as (_ & _ & B3 & B4).
    destruct (P1 b Hb) as [[K|K] _]; [|destruct K as (_ & K & _); congruence]. destruct K as (K & _).
    destruct B4 as (Bs & ((l0, g0) & G1 & G2) & _); [congruence|]. exists l0, g0. cbn in G1. apply in_active in G1. unfold NewtonSpec.regulating. tauto.
  - assert (R1 := P3 b Hb). rewrite T in R1. cbn. unfold vplus, vtimes. cbn.
    pose proof (pv_solution real_num Lr cos sin real_gtb Rabs tol np n ybus sources loads sy su type s status regulators_of regs phases (nw_above_tol _ _ _ _ _ _ _ _ _ W)
      loads_disjoint (nw_circle _ _ _ _ _ _ _ _ _ W) (nw_above_zero _ _ _ _ _ _ _ _ _ W) st1 d xs (phasors real_num cos sin xs) cl b p Hd Hb Hpp R1) as PV.
    cbn in PV. lra.
Qed.
End Step.
Print Assumptions C55_newton_step.
