(** C55: the Newton-Raphson power flow. *)
From Coq Require Import Field.
From Verif Require Import Common Numbers NumbersPair ShortCircuit PowerFlow PowerFlowSpec PowerFlowFacts PowerFlowProps NewtonRaphson NewtonSpec NewtonFacts NewtonJacobian NewtonLimits.

Section Props.
Context {R : Type} (o : num_ops R).
Variables (cabs arg : R * R -> R) (rcos rsin : R -> R) (gtb : R -> R -> bool) (rabs : R -> R) (tol : R) (a : R * R).
Hypothesis W : newton_laws o cabs arg rcos rsin gtb rabs tol a.
Local Definition L : num_laws o := nw_num _ _ _ _ _ _ _ _ _ W.
Local Definition Lc : num_laws (pair_num o) := pair_num_laws o L (nw_real _ _ _ _ _ _ _ _ _ W).
Add Field NumFieldNp : (nl_field o L).
Add Field NumFieldNpc : (nl_field (pair_num o) Lc).
Local Notation zero := (n_zero o). Local Notation cxo := (pair_num o). Local Notation cconj := (NumbersPair.cconj o).
Local Notation cabs' := (fun z => (cabs z, zero)).

Lemma pair_pf_laws : pf_laws cxo cconj cabs' a.
Proof.
  constructor.
  - exact Lc.
  - intros x y. apply pair_eq; cbn; ring.
  - intros x y. apply pair_eq; cbn; ring.
  - intros x. apply pair_eq; cbn; ring.
  - intros x. pose proof (abs_norm o L cabs arg rcos rsin (nw_circle _ _ _ _ _ _ _ _ _ W) (nw_polar _ _ _ _ _ _ _ _ _ W) x) as H.
    unfold norm2 in H. apply pair_eq; cbn in *; [|ring]. match goal with |- ?l = _ => transitivity (n_mul o (cabs x) (cabs x)); [ring|] end. rewrite H. ring.
  - intros H. apply (nw_three _ _ _ _ _ _ _ _ _ W). cbn in H. injection H as H _. exact H.
  - exact (nw_root _ _ _ _ _ _ _ _ _ W).
Qed.

Variables (np n : nat) (ybus : nat -> nat -> nat -> nat -> R * R) (sources loads : nat -> list nat) (y1 y0 u_source : nat -> R * R).
Variables (type : nat -> load_type) (s : nat -> nat -> R * R) (status : nat -> bool) (regulators_of : nat -> list nat) (regs : nat -> regulator (R := R)).
Hypothesis phases : np = 1 \/ np = 3.
(** each load and generator is at one bus *)
Hypothesis loads_once : forall b, b < n -> NoDup (loads b).
Hypothesis loads_disjoint : forall b b' l, b < n -> b' < n -> In l (loads b) -> In l (loads b') -> b = b'.
Local Notation sy := (source_y cxo np y1 y0). Local Notation su := (source_u cxo a u_source).
Local Notation reached := (NewtonRaphson.reached o cabs arg rcos rsin gtb rabs tol np n ybus sources loads sy su type s status regulators_of regs).
Local Notation prepare := (NewtonRaphson.prepare o gtb rabs tol np n ybus sources loads sy su type s status regulators_of regs).
Local Notation regulating := (NewtonSpec.regulating sources loads status regulators_of regs).
Local Notation active := (NewtonRaphson.active loads status regulators_of regs).
Local Notation solution := (NewtonRaphson.solution o np n).

(** the generators with a regulator have constant power, and the regulators of a bus agree on the voltage *)
Hypothesis regulated_const_pq : forall b l g, b < n -> regulating b l g -> type l = const_pq.
Hypothesis one_u_ref : forall b l g l' g', b < n -> regulating b l g -> regulating b l' g' -> g_u_ref (regs g) = g_u_ref (regs g').
Lemma regulating_active b l g : regulating b l g <-> sources b = [] /\ In (l, g) (active b).
Proof. unfold NewtonSpec.regulating. rewrite in_active. tauto. Qed.

(** In every iteration, a bus with regulators whose limit has not been found exceeded has the voltage of its regulators. *)
Theorem C55_regulated_voltage : forall st u, reached st u -> forall b l g, b < n -> regulating b l g -> c_violated (ctl st b) = none ->
  forall p, p < np -> norm2 o (u b p) = norm2 o (g_u_ref (regs g)).
Proof.
  intros st u Hr b l g Hb Hreg Hv p Hp.
  destruct (reached_inv o L cabs arg rcos rsin gtb rabs tol np n ybus sources loads sy su type s status regulators_of regs phases (nw_three _ _ _ _ _ _ _ _ _ W) (nw_above_tol _ _ _ _ _ _ _ _ _ W)
    loads_disjoint (nw_circle _ _ _ _ _ _ _ _ _ W) (nw_polar _ _ _ _ _ _ _ _ _ W) (nw_above_zero _ _ _ _ _ _ _ _ _ W) st u Hr) as (I1 & I2 & I3).
  destruct (proj1 (regulating_active b l g) Hreg) as [Hs Ha].
  destruct (bus_control_spec o sources loads status regulators_of regs b) as (_ & _ & B3 & B4). rewrite Hs in B3.
  assert (T0 : c_type (NewtonRaphson.bus_control o sources loads status regulators_of regs b) = pv).
  { rewrite B3. destruct (active b); [contradiction|reflexivity]. }
  destruct (I1 b Hb) as [[K|K] _]; [|destruct K as (_ & _ & K & _); contradiction].
  destruct K as (K & _). rewrite I2. unfold phasors.
  rewrite (norm_polar o L rcos rsin (nw_circle _ _ _ _ _ _ _ _ _ W)). rewrite (I3 b p Hb Hp) by congruence.
  destruct (B4 T0) as (_ & ((l' & g') & G1 & G2) & _). rewrite G2. cbn [snd]. f_equal.
  apply (one_u_ref b l' g' l g Hb); [apply regulating_active; auto|exact Hreg].
Qed.

(** ** The result *)
Local Notation moved := (NewtonRaphson.moved o).
Local Notation load_at := (NewtonFacts.load_at o type s).
Local Notation source_at := (NewtonFacts.source_at o np sy su).
Local Notation imbalance := (NewtonFacts.imbalance o np n ybus sources loads sy su type s).
Local Notation inv := (reached_inv o L cabs arg rcos rsin gtb rabs tol np n ybus sources loads sy su type s status regulators_of regs phases (nw_three _ _ _ _ _ _ _ _ _ W) (nw_above_tol _ _ _ _ _ _ _ _ _ W)
    loads_disjoint (nw_circle _ _ _ _ _ _ _ _ _ W) (nw_polar _ _ _ _ _ _ _ _ _ W) (nw_above_zero _ _ _ _ _ _ _ _ _ W)).
Local Notation prepared := (prepare_spec o L rcos rsin gtb rabs tol np n ybus sources loads sy su type s status regulators_of regs phases (nw_three _ _ _ _ _ _ _ _ _ W) (nw_above_tol _ _ _ _ _ _ _ _ _ W)
    loads_disjoint).
(** an iteration that changes neither angle nor magnitude finds no imbalance *)
Lemma no_change (xs d : nat -> polar) : (forall b p, b < n -> p < np -> pb (xs b) p <> zero) ->
  (forall b p, b < n -> p < np -> pa (moved xs d b) p = pa (xs b) p /\ pb (moved xs d b) p = pb (xs b) p) ->
  forall b p, b < n -> p < np -> pa (d b) p = zero /\ pb (d b) p = zero.
Proof.
  intros Hv H b p Hb Hp. destruct (H b p Hb Hp) as [H1 H2]. cbn [NewtonRaphson.moved pa pb] in *. unfold vplus, vtimes in *. split.
  - transitivity (n_sub o (n_add o (pa (xs b) p) (pa (d b) p)) (pa (xs b) p)); [ring|]. rewrite H1. ring.
  - transitivity (n_div o (n_sub o (n_add o (pb (xs b) p) (n_mul o (pb (xs b) p) (pb (d b) p))) (pb (xs b) p)) (pb (xs b) p)); [field; apply Hv; assumption|].
    rewrite H2. field. apply Hv; assumption.
Qed.
Lemma zero_solution rs d : solution rs d -> (forall b p, b < n -> p < np -> pa (d b) p = zero /\ pb (d b) p = zero) ->
  forall b p, b < n -> p < np -> pa (r_del (rs b)) p = zero /\ pb (r_del (rs b)) p = zero.
Proof.
  intros H Hz b p Hb Hp. destruct (H b p Hb Hp) as [H1 H2]. split; [rewrite <- H1|rewrite <- H2].
  all: apply (nsum_zero o L); intros j Hj; apply (nsum_zero o L); intros q Hq; apply in_seq in Hj; apply in_seq in Hq;
    destruct (Hz j q) as [E1 E2]; [lia|lia|]; rewrite E1, E2; ring.
Qed.
(** a power that takes up what is missing at one generator *)
Definition taken (held : bool) (l0 : nat) (missing : nat -> R) (pw : nat -> nat -> R * R) (l p : nat) : R * R :=
  if held && (l =? l0) then (fst (pw l p), n_sub o (snd (pw l p)) (missing p)) else pw l p.
Lemma sum_cons' (z : R * R) l : nsum cxo (z :: l) = cadd o z (nsum cxo l). Proof. reflexivity. Qed.
Lemma pair_take (z w : R * R) m : cadd o (fst z, n_sub o (snd z) m) w = csub o (cadd o z w) (zero, m).
Proof. destruct z, w. apply pair_eq; cbn; ring. Qed.
Lemma pair_balance (A B C w : R * R) : csub o (csub o (cadd o A B) C) w = (zero, zero) -> C = cadd o B (csub o A w).
Proof.
  destruct A as [a1 a2], B as [b1 b2], C as [c1 c2], w as [w1 w2]. cbn. intros H. injection H as H1 H2. apply pair_eq; cbn.
  - transitivity (n_add o b1 (n_sub o (n_sub o a1 w1) (n_sub o (n_sub o (n_add o a1 b1) c1) w1))); [ring|]. rewrite H1. ring.
  - transitivity (n_add o b2 (n_sub o (n_sub o a2 w2) (n_sub o (n_sub o (n_add o a2 b2) c2) w2))); [ring|]. rewrite H2. ring.
Qed.
Lemma pair_later (z w v : R * R) : cadd o z (csub o w v) = csub o (cadd o z w) v.
Proof. destruct z, w, v. apply pair_eq; cbn; ring. Qed.
Lemma pair_none (w : R * R) : w = csub o w (zero, zero).
Proof. destruct w. apply pair_eq; cbn; ring. Qed.
Lemma taken_sum held l0 missing pw p : forall ls, NoDup ls -> (held = true -> In l0 ls) ->
  nsum cxo (map (fun l => taken held l0 missing pw l p) ls) = csub o (nsum cxo (map (fun l => pw l p) ls)) (zero, if held then missing p else zero).
Proof.
  intros ls Nd Hin. destruct held; cbn [taken andb].
  - specialize (Hin eq_refl). induction ls as [|l ls IH]; [contradiction|]. inversion Nd as [|? ? N1 N2]; subst. cbn [map]. rewrite !sum_cons'.
    unfold taken at 1. cbn [andb]. destruct (l =? l0) eqn:E.
    + apply Nat.eqb_eq in E. subst l0. rewrite (nsum_ext cxo (fun l1 => taken true l missing pw l1 p) (fun l1 => pw l1 p)).
      * apply pair_take.
      * intros x Hx. unfold taken. destruct (x =? l) eqn:E; [apply Nat.eqb_eq in E; subst; contradiction|reflexivity].
    + apply Nat.eqb_neq in E. rewrite IH; [apply pair_later|exact N2|destruct Hin as [Hin|Hin]; [congruence|exact Hin]].
  - unfold taken. cbn [andb]. apply pair_none.
Qed.
(** the reactive power for the voltage of the regulators *)
Local Notation generators := (NewtonSpec.generators loads status regulators_of regs).
Definition one_regulator : Prop := forall l, length (filter (fun g => g_status (regs g)) (regulators_of l)) <= 1.
Lemma vplus_fold (f : nat * nat -> nat -> R) p : forall ls v, fold_left (fun q lg => vplus o q (f lg)) ls v p = n_add o (v p) (nsum o (map (fun lg => f lg p) ls)).
Proof. induction ls as [|lg ls IH]; intros v; cbn [fold_left map]; [unfold nsum; cbn; ring|]. rewrite IH. unfold vplus, nsum. cbn [fold_right]. ring. Qed.
Lemma specified_sum b p : one_regulator -> nsum o (map (fun lg => im (s (fst lg) p)) (active b)) = nsum o (map (fun l => snd (s l p)) (generators b)).
Proof.
  intros One. unfold NewtonRaphson.active, NewtonSpec.generators. induction (loads b) as [|l ls IH]; [reflexivity|]. cbn [flat_map filter]. rewrite map_app, (nsum_app o L), IH. specialize (One l).
  destruct (status l); cbn [andb]; [|unfold nsum at 1; cbn; ring]. rewrite map_map. cbn [fst].
  assert (E : existsb (fun g => g_status (regs g)) (regulators_of l) = match filter (fun g => g_status (regs g)) (regulators_of l) with [] => false | _ => true end).
  { clear One. induction (regulators_of l) as [|g gs IH']; [reflexivity|]. cbn [existsb filter]. destruct (g_status (regs g)); [reflexivity|exact IH']. }
  rewrite E. destruct (filter _ (regulators_of l)) as [|g [|g' gs]]; cbn [length] in One; [unfold nsum at 1; cbn; ring| |lia].
  unfold nsum. cbn [map fold_right]. unfold im. ring.
Qed.
Lemma in_generators b l : sources b = [] -> In l (generators b) -> exists g, regulating b l g.
Proof.
  intros Hs H. apply filter_In in H as [H1 H2]. apply andb_true_iff in H2 as [H2 H3]. apply existsb_exists in H3 as (g & G1 & G2). exists g. unfold NewtonSpec.regulating. auto.
Qed.
Lemma regulating_generators b l g : regulating b l g -> In l (generators b).
Proof.
  intros (H1 & H2 & H3 & H4 & H5). apply filter_In. split; [exact H2|]. rewrite H3. cbn [andb]. apply existsb_exists. exists g. auto.
Qed.
Lemma sum_less (f : nat -> R) l0 m : forall ls, NoDup ls -> In l0 ls -> nsum o (map (fun l => if l =? l0 then n_sub o (f l) m else f l) ls) = n_sub o (nsum o (map f ls)) m.
Proof.
  induction ls as [|l ls IH]; intros Nd I; [contradiction|]. inversion Nd as [|? ? N1 N2]; subst. unfold nsum. cbn [map fold_right].
  fold (nsum o (map (fun l => if l =? l0 then n_sub o (f l) m else f l) ls)). fold (nsum o (map f ls)). destruct (l =? l0) eqn:E.
  - apply Nat.eqb_eq in E. subst l0. rewrite (nsum_ext o _ f); [ring|]. intros j Hj. destruct (j =? l) eqn:E; [apply Nat.eqb_eq in E; subst; contradiction|reflexivity].
  - rewrite IH; [ring|exact N2|]. destruct I as [->|I]; [rewrite Nat.eqb_refl in E; discriminate|exact I].
Qed.
(** Voltages that an iteration leaves as they are solve the power flow. Once the countdown to the check of the limits has ended, as 343-348 demand for the end of a run,
    the voltage of the regulators is kept only within the limits. *)
Theorem C55_fixed_point : forall st u st1 d, reached st u -> prepare u st = Some st1 -> solution (rows st1) d ->
  (forall b p, b < n -> p < np -> pb (x st b) p = cabs (u b p) /\ cabs (u b p) <> zero) ->
  (forall b p, b < n -> p < np -> pa (moved (x st) d b) p = pa (x st b) p /\ pb (moved (x st) d b) p = pb (x st b) p) ->
  power_flow o cabs a np n ybus sources loads y1 y0 u_source type s status regulators_of regs gtb tol (one_regulator /\ (countdown st1 <= 0)%Z) u.
Proof.
  intros st u st1 d Hr Hp Hd Habs Hfix b Hb.
  destruct (inv st u Hr) as (I1 & I2 & I3). destruct (prepared u st st1 I1 Hp) as (P1 & P2 & P3 & P4).
  assert (Z : forall b p, b < n -> p < np -> pa (r_del (rows st1 b)) p = zero /\ pb (r_del (rows st1 b)) p = zero).
  { apply (zero_solution _ d Hd). apply (no_change (x st)); [|exact Hfix]. intros b' p' Hb' Hp'. destruct (Habs b' p' Hb' Hp') as [E1 E2]. rewrite E1. exact E2. }
  set (cl := clamped st1) in *. set (V := pb (x st b)).
  set (held := match c_type (ctl st1 b) with pv => true | _ => false end).
  assert (Imb : forall p, p < np -> re (imbalance cl V u b p) = zero /\ (held = false -> im (imbalance cl V u b p) = zero)).
  { intros p Hpp. destruct (Z b p Hb Hpp) as [Z1 Z2]. rewrite (P3 b Hb) in Z1, Z2.
    destruct (build_del o L np n ybus sources loads sy su type s (x st) cl u b p) as [D1 D2]. fold V in D1, D2.
    unfold held. destruct (c_type (ctl st1 b)); cbn [pv_row r_del pa pb] in Z1, Z2; split; try discriminate; congruence. }
  assert (U : forall p, p < np -> u b p <> (zero, zero)).
  { intros p Hpp E. destruct (Habs b p Hb Hpp) as [_ N]. apply N.
    assert (S := I2 b p). unfold phasors in S. destruct (Habs b p Hb Hpp) as [A _]. rewrite A in S.
    assert (Q : norm2 o (u b p) = zero) by (rewrite E; unfold norm2; cbn; ring).
    rewrite <- (abs_norm o L cabs arg rcos rsin (nw_circle _ _ _ _ _ _ _ _ _ W) (nw_polar _ _ _ _ _ _ _ _ _ W)) in Q.
    destruct (nw_real _ _ _ _ _ _ _ _ _ W (cabs (u b p)) zero) as [Q1 _]; [rewrite Q; ring|exact Q1]. }
  destruct (bus_control_spec o sources loads status regulators_of regs b) as (_ & _ & B3 & B4).
  assert (Held : held = true -> exists l0 g0, regulating b l0 g0 /\ c_u_ref (NewtonRaphson.bus_control o sources loads status regulators_of regs b) = g_u_ref (regs g0)).
  { unfold held. intros H. destruct (P1 b Hb) as [[K|K] _].
    - destruct K as (K & _). destruct B4 as (Bs & ((l0, g0) & G1 & G2) & _); [rewrite <- K; destruct (c_type (ctl st1 b)); congruence|].
      exists l0, g0. split; [apply regulating_active; auto|exact G2].
    - destruct K as (_ & K & _). rewrite K in H. discriminate. }
  assert (Ex : exists l0, held = true -> In l0 (loads b) /\ exists g0, regulating b l0 g0).
  { destruct held; [|exists 0; discriminate]. destruct (Held eq_refl) as (l0 & g0 & H & _). exists l0. intros _. split; [apply H|exists g0; exact H]. }
  destruct Ex as (l0 & Hl0).
  set (power := taken held l0 (fun p => im (imbalance cl V u b p)) (load_at cl V)).
  set (current := fun l p => cconj (n_div cxo (power l p) (u b p))).
  assert (Bal : forall p, p < np -> n_mul cxo (u b p) (cconj (network_current cxo np n ybus u b p)) =
            n_add cxo (nsum cxo (map (fun i => n_mul cxo (u b p) (cconj (source_at (u b) i p))) (sources b))) (nsum cxo (map (fun l => power l p) (loads b)))).
  { intros p Hpp. unfold power. rewrite (taken_sum held l0 _ (load_at cl V) p (loads b) (loads_once b Hb)) by (intros H; apply Hl0; exact H).
    destruct (Imb p Hpp) as [M1 M2]. assert (M3 : csub o (imbalance cl V u b p) (zero, if held then im (imbalance cl V u b p) else zero) = (zero, zero)).
    { destruct held; apply pair_eq; cbn [csub re im fst snd] in *; [transitivity (n_sub o (re (imbalance cl V u b p)) zero); [reflexivity|rewrite M1; ring]|unfold im; ring|
        transitivity (n_sub o (re (imbalance cl V u b p)) zero); [reflexivity|rewrite M1; ring]|transitivity (n_sub o (im (imbalance cl V u b p)) zero); [reflexivity|rewrite M2 by reflexivity; ring]]. }
    exact (pair_balance _ _ _ _ M3). }
  assert (Cp : forall l p, p < np -> n_mul cxo (u b p) (cconj (current l p)) = power l p).
  { intros l p Hpp. unfold current. rewrite (pf_conj_conj _ _ _ _ pair_pf_laws). field. exact (U p Hpp). }
  assert (Clamp : forall l, In l (loads b) -> (forall g, ~ regulating b l g) -> cl l = None).
  { intros l Hl Hn. destruct (P1 b Hb) as [[K|K] _].
    - destruct K as (_ & _ & _ & _ & _ & K). exact (K l Hl).
    - destruct K as (K1 & _ & _ & K). destruct (K l Hl) as [(g & q & G1 & _)|[_ G]]; [|exact G].
      destruct (B4 K1) as (Bs & _). elim (Hn g). apply regulating_active. auto. }
  exists (source_at (u b)), current, power. refine (conj _ (conj _ (conj _ (conj _ (conj _ _))))).
  - intros p Hpp. rewrite map_app, !map_map, (nsum_app cxo Lc).
    assert (E : cconj (network_current cxo np n ybus u b p) = cconj (n_add cxo (nsum cxo (map (fun i => source_at (u b) i p) (sources b))) (nsum cxo (map (fun l => current l p) (loads b))))).
    { specialize (Bal p Hpp). rewrite (nsum_ext cxo (fun l => power l p) (fun l => n_mul cxo (u b p) (cconj (current l p)))) in Bal by (intros l _; symmetry; apply Cp; exact Hpp).
      rewrite !(nsum_scale cxo Lc) in Bal.
      rewrite (pf_conj_add _ _ _ _ pair_pf_laws).
      assert (Cs : forall (g : nat -> nat -> R * R) ls, cconj (nsum cxo (map (fun i => g i p) ls)) = nsum cxo (map (fun i => cconj (g i p)) ls)) by (intros g ls; apply (conj_sum o L)).
      rewrite (Cs (source_at (u b))), (Cs current).
      match goal with |- ?x = ?y => transitivity (n_div cxo (n_mul cxo (u b p) x) (u b p)); [field; exact (U p Hpp)|] end. rewrite Bal. field. exact (U p Hpp). }
    assert (E' := f_equal cconj E). rewrite !(pf_conj_conj _ _ _ _ pair_pf_laws) in E'. exact E'.
  - intros i _. apply (ohm_law cxo cconj cabs' a pair_pf_laws np ybus sources loads y1 y0 u_source s type type i (u b)); [exact phases|]. intros p _. reflexivity.
  - intros l _ p Hpp. symmetry. apply Cp. exact Hpp.
  - intros l Hl Hn p Hpp. unfold power, taken.
    assert (E : held && (l =? l0) = false).
    { destruct held; [|reflexivity]. cbn [andb]. apply Nat.eqb_neq. intros ->. destruct (Hl0 eq_refl) as [_ [g0 G0]]. exact (Hn g0 G0). }
    rewrite E. unfold NewtonFacts.load_at. rewrite (Clamp l Hl Hn). destruct (Habs b p Hb Hpp) as [A _]. fold V in A. rewrite A.
    destruct (type l); apply pair_eq; cbn; ring.
  - intros l g Hreg p Hpp. assert (E : fst (power l p) = fst (load_at cl V l p)) by (unfold power, taken; destruct (held && (l =? l0)); reflexivity). rewrite E.
    unfold NewtonFacts.load_at. destruct (cl l); [reflexivity|]. rewrite (regulated_const_pq b l g Hb Hreg). reflexivity.
  - destruct (P1 b Hb) as [[K|K] _].
    + left. split; [intros l g Hreg p Hpp; destruct K as (K & _)|].
      2:{ intros [One Hc] (lr & gr & Hreg). destruct K as (K & _ & _ & _ & _ & K6).
        assert (Hs : sources b = []) by apply Hreg.
        assert (T1 : c_type (NewtonRaphson.bus_control o sources loads status regulators_of regs b) = pv).
        { destruct (proj1 (regulating_active b lr gr) Hreg) as [_ Ha]. rewrite Hs in B3. rewrite B3. destruct (active b); [contradiction|reflexivity]. }
        assert (T2 : c_type (ctl st1 b) = pv) by congruence.
        destruct (I1 b Hb) as [[Sc|Al] _]; [|destruct Al as (_ & Al & _); rewrite (P4 b Hb T2) in Al; discriminate].
        pose proof (reached_within o L cabs arg rcos rsin gtb rabs tol np n ybus sources loads sy su type s status regulators_of regs u st st1 Hr Hp Hc b Hb Sc T2 T1) as Wi.
        assert (Q : total o np (required o loads s status regulators_of regs (build o np n ybus sources loads sy su type s false u st) b) = nsum o (map (fun l => total_q o np (power l)) (generators b))).
        { rewrite (total_sum o L np phases). unfold total_q. rewrite (nsum_swap o L). apply nsum_ext. intros p _. unfold required, vminus.
          cbn [build rows andb]. destruct Sc as (_ & _ & _ & _ & _ & S6).
          rewrite (build_row_ext o np n ybus sources loads sy su type s (x st) (clamped st) cl u b) by (intros l Hl; rewrite (S6 l Hl); symmetry; exact (K6 l Hl)).
          rewrite (proj2 (build_del o L np n ybus sources loads sy su type s (x st) cl u b p)). fold V.
          rewrite (vplus_fold (fun lg => vim (s (fst lg)))). unfold v0. change (fun lg => vim (s (fst lg)) p) with (fun lg : nat * nat => im (s (fst lg) p)). rewrite (specified_sum b p One).
          assert (Hh : held = true) by (unfold held; rewrite T2; reflexivity). destruct (Hl0 Hh) as [_ [g0 G0]].
          transitivity (n_sub o (nsum o (map (fun l => snd (s l p)) (generators b))) (im (imbalance cl V u b p))); [ring|].
          rewrite <- (sum_less (fun l => snd (s l p)) l0 _ (generators b)); [|apply NoDup_filter, (loads_once b Hb)|exact (regulating_generators b l0 g0 G0)].
          apply nsum_ext. intros l Hl. destruct (in_generators b l Hs Hl) as [g G]. unfold power, taken. rewrite Hh. cbn [andb].
          assert (La : load_at cl V l p = s l p) by (unfold NewtonFacts.load_at; rewrite (K6 l (proj1 (proj2 G)) : cl l = None); rewrite (regulated_const_pq b l g Hb G); reflexivity).
          rewrite La. destruct (l =? l0); reflexivity. }
        rewrite Q in Wi. exact Wi. }
      assert (T1 : c_type (NewtonRaphson.bus_control o sources loads status regulators_of regs b) = pv).
      { destruct (proj1 (regulating_active b l g) Hreg) as [Hs Ha]. rewrite Hs in B3. rewrite B3. destruct (active b); [contradiction|reflexivity]. }
      destruct (B4 T1) as (_ & ((l' & g') & G1 & G2) & _).
      rewrite I2. unfold phasors. rewrite (norm_polar o L rcos rsin (nw_circle _ _ _ _ _ _ _ _ _ W)).
      rewrite (I3 b p Hb Hpp) by (apply P4; [exact Hb|congruence]). rewrite G2. cbn [snd]. f_equal.
      apply (one_u_ref b l' g' l g Hb); [apply regulating_active; split; [apply Hreg|exact G1]|exact Hreg].
    + right. destruct K as (K1 & K2 & K3 & K4). exists (side_of (c_violated (ctl st1 b))). intros l g Hreg.
      destruct (proj1 (regulating_active b l g) Hreg) as [Hs Ha].
      destruct (K4 l) as [(g' & q & G1 & G2 & G3)|[G1 _]]; [apply Hreg| |elim (G1 g Ha)].
      exists g'. split; [apply regulating_active; auto|]. rewrite G3. f_equal. rewrite (total_sum o L np phases). unfold total_q. apply nsum_ext. intros p _.
      unfold power, taken, held. rewrite K2. cbn [andb]. unfold NewtonFacts.load_at. fold cl in G2. rewrite G2. reflexivity.
Qed.

(** The limits are checked in the second iteration at the latest: the countdown is 2 at most, and every iteration that does not check lowers it. *)
Theorem C55_limits_checked : forall st u, reached st u -> (countdown st <= 2)%Z /\
  forall st1, prepare u st = Some st1 -> (countdown st1 <= 0)%Z \/ (countdown st1 < countdown st)%Z.
Proof.
  intros st u Hr. destruct (reached_countdown o cabs arg rcos rsin gtb rabs tol np n ybus sources loads sy su type s status regulators_of regs st u Hr) as (H & _). split; [exact H|].
  intros st1 Hp. destruct (prepare_check o rcos rsin gtb rabs tol np n ybus sources loads sy su type s status regulators_of regs u st st1 Hp) as (-> & _). unfold count. destruct (0 <? countdown st)%Z eqn:E; lia.
Qed.

(** ** The start *)
(** The power that the start takes for a load or generator: without the reactive power of a generator that has a regulator. *)
Definition start_power (l p : nat) : R * R :=
  (fst (s l p), if status l && existsb (fun g => g_status (regs g)) (regulators_of l) then zero else snd (s l p)).
Local Notation block := (NewtonRaphson.block (R := R)). Local Notation polar := (NewtonRaphson.polar (R := R)).
(** what a block makes of a voltage *)
Local Notation blk := (NewtonJacobian.blk o np).
Lemma blk_linear y v p : blk (linear_block o y) v p = dot cxo np y v p.
Proof.
  unfold NewtonJacobian.blk, dot. apply pair_eq; [rewrite (re_sum o)|rewrite (im_sum o)]; cbn [re im fst snd]; apply nsum_ext; intros q _; cbn; unfold re, im; ring.
Qed.
Lemma blk_load k l v p : p < np -> blk (add_linear_load o s status regulators_of regs k l) v p = csub o (blk k v p) (cmul o (cconj (start_power l p)) (v p)).
Proof.
  intros Hp. unfold NewtonJacobian.blk, add_linear_load. cbn [bh bn bm bl]. rewrite !(diag_sum o L) by exact Hp.
  assert (E : is_regulated status regulators_of regs l = status l && existsb (fun g => g_status (regs g)) (regulators_of l)).
  { unfold is_regulated. generalize (regulators_of l). induction l0 as [|g ls IH]; cbn [existsb]; [destruct (status l); reflexivity|]. rewrite IH. destruct (g_status (regs g)), (status l); reflexivity. }
  rewrite E. unfold start_power, vre, vim, vneg. destruct (status l && existsb (fun g => g_status (regs g)) (regulators_of l)).
  all: apply pair_eq; cbn [re im csub cmul cconj copp fst snd NumbersPair.cconj NumbersPair.csub NumbersPair.cmul NumbersPair.copp]; unfold re, im; cbn [fst snd]; ring.
Qed.
Lemma pair_move (z w v : R * R) : csub o (csub o z w) v = csub o z (cadd o w v).
Proof. destruct z, w, v. apply pair_eq; cbn; ring. Qed.
Lemma pair_zero (w : R * R) : w = csub o w (nsum cxo []).
Proof. destruct w. apply pair_eq; cbn; ring. Qed.
Lemma pair_zero' (w : R * R) : w = cadd o w (nsum cxo []).
Proof. destruct w. apply pair_eq; cbn; ring. Qed.
Lemma pair_assoc (z w v : R * R) : cadd o (cadd o z w) v = cadd o z (cadd o w v).
Proof. destruct z, w, v. apply pair_eq; cbn; ring. Qed.
Lemma blk_loads v p : p < np -> forall ls k, blk (fold_left (add_linear_load o s status regulators_of regs) ls k) v p =
  csub o (blk k v p) (nsum cxo (map (fun l => cmul o (cconj (start_power l p)) (v p)) ls)).
Proof.
  intros Hp. induction ls as [|l ls IH]; intros k; cbn [fold_left map]; [apply pair_zero|]. rewrite IH, blk_load by exact Hp. rewrite sum_cons'. apply pair_move.
Qed.
Lemma blk_sources v p : forall ls k r,
  blk (fst (fold_left (add_linear_source o np sy su) ls (k, r))) v p = cadd o (blk k v p) (nsum cxo (map (fun i => dot cxo np (sy i) v p) ls)) /\
  (pa (snd (fold_left (add_linear_source o np sy su) ls (k, r))) p, pb (snd (fold_left (add_linear_source o np sy su) ls (k, r))) p) =
    cadd o (pa r p, pb r p) (nsum cxo (map (fun i => dot cxo np (sy i) (su i) p) ls)).
Proof.
  induction ls as [|l ls IH]; intros k r; cbn [fold_left map]; [split; apply pair_zero'|]. unfold add_linear_source at 2 4 6.
  destruct (IH (block_add o k (linear_block o (sy l))) (mkPolar (vplus o (pa r) (vre (dot cxo np (sy l) (su l)))) (vplus o (pb r) (vim (dot cxo np (sy l) (su l)))))) as [H1 H2].
  split; rewrite !sum_cons'.
  - etransitivity; [exact H1|]. rewrite (blk_add o L), blk_linear. apply pair_assoc.
  - etransitivity; [exact H2|]. rewrite <- pair_assoc. reflexivity.
Qed.
(** The first voltages, before those of the buses with a regulator are set, balance the currents, for loads and generators that are constant admittances. *)
Theorem C55_start : forall d, solution (linear_row o np ybus sources loads sy su s status regulators_of regs) d ->
  forall b, b < n -> exists drawn : nat -> nat -> R * R,
    (forall i, In i (sources b) -> source_law cxo a np (y1 i) (y0 i) (u_source i) (fun p => (pa (d b) p, pb (d b) p)) (drawn i)) /\
    kirchhoff cxo np n ybus (fun j p => (pa (d j) p, pb (d j) p))
      (map drawn (sources b) ++ map (fun l p => cmul o (cconj (start_power l p)) (pa (d b) p, pb (d b) p)) (loads b)) b.
Proof.
  intros d Hd. set (u := fun j p => (pa (d j) p, pb (d j) p)).
  apply (C39_equations cxo cconj cabs' a pair_pf_laws np n ybus sources loads y1 y0 u_source start_power phases u).
  intros b p Hb Hp.
  set (e := prepare_linear cxo cconj a np n ybus sources loads y1 y0 u_source start_power).
  assert (Z : residual cxo np n e u b p = n_zero cxo).
  { unfold e. rewrite (prepare_residual cxo cconj cabs' a pair_pf_laws) by assumption.
    destruct (Hd b p Hb Hp) as [H1 H2].
    set (r := linear_row o np ybus sources loads sy su s status regulators_of regs b) in *.
    assert (E : nsum cxo (map (fun j => blk (r_jac r j) (u j) p) (seq 0 n)) = (pa (r_del r) p, pb (r_del r) p)).
    { apply pair_eq; [rewrite (re_sum o)|rewrite (im_sum o)]; [exact H1|exact H2]. }
    clear H1 H2.
    set (k0 := fold_left (add_linear_load o s status regulators_of regs) (loads b) (linear_block o (ybus b b))).
    destruct (blk_sources (u b) p (sources b) k0 (mkPolar (v0 o) (v0 o))) as [S1 S2].
    unfold r, linear_row in E. fold k0 in E. destruct (fold_left (add_linear_source o np sy su) (sources b) (k0, mkPolar (v0 o) (v0 o))) as [kb rb]. cbn [fst snd r_jac r_del] in *.
    rewrite S2 in E. clear S2.
    rewrite (nsum_change cxo cconj cabs' a pair_pf_laws _ (fun j => dot cxo np (ybus b j) (u j) p) b) in E; [|apply seq_NoDup|apply in_seq; lia|].
    - unfold set_entry in E. rewrite Nat.eqb_refl, S1 in E. unfold k0 in E. rewrite blk_loads, blk_linear in E by exact Hp.
      fold (network_current cxo np n ybus u b p) in E.
      rewrite (nsum_sub cxo Lc). 
      match type of E with ?l = ?r => assert (E' : n_sub cxo l r = n_zero cxo) by (rewrite E; ring) end.
      etransitivity; [|exact E']. cbn [pa pb]. unfold v0.
      change (cadd o) with (n_add cxo). change (csub o) with (n_sub cxo). change (cmul o) with (n_mul cxo). change (zero, zero) with (n_zero cxo). ring.
    - intros j Hj. unfold set_entry. destruct (j =? b) eqn:Ej; [apply Nat.eqb_eq in Ej; congruence|]. apply blk_linear. }
  unfold residual in Z. transitivity (n_add cxo (n_sub cxo (nsum cxo (map (fun j => dot cxo np (e_mat e b j) (u j) p) (seq 0 n))) (e_rhs e b p)) (e_rhs e b p)); [ring|].
  rewrite Z. ring.
Qed.
End Props.
Print Assumptions C55_regulated_voltage. Print Assumptions C55_fixed_point. Print Assumptions C55_limits_checked. Print Assumptions C55_start.
