(** C64: the linear power flow of a grid in which every bus is connected to a source by branches with losses has exactly one solution. *)
From Coq Require Import Reals Lra Lia.
From Verif Require Import Common NatMap GroupedIdx Numbers ShortCircuit ShortCircuitFacts PowerFlow PowerFlowSpec PowerFlowFacts BalancedSpec BalancedFacts BalancedGrid YBus YBusSpec SquareSystem Units UnitsFacts Ratings RatingsFacts LossesSpec LossesFacts LossesMore SolvableSpec SolvableFacts SolvableKernel.
From Verif Require TwoPort TwoPortSpec TwoPortFacts.
Import TwoPort (phase, PhA, PhB, PhC, two_port, mat, dotv).
Local Open Scope R_scope.

(** ** One phase *)
Notation one_number := (fun (y : C) (_ _ : nat) => y).
Notation a_tensor := (fun m : nat -> nat -> C => m).
Lemma power1 u i : power 1 u i = active (u 0%nat) (i 0%nat).
Proof. unfold power, active. cbn. ring. Qed.
Lemma dot_one y u p : dot cnum 1 y u p = cmul (y p 0%nat) (u 0%nat).
Proof. unfold dot, nsum. cbn [seq map fold_right]. generalize (y p 0%nat), (u 0%nat). intros a b. cbn. creal; ring. Qed.
Lemma resistive1 y : resistive cnum 1 one_number y <-> 0 < re y.
Proof.
  unfold resistive. split.
  - intros H. specialize (H (fun _ => (1, 0))). rewrite power1, dot_one, active_self in H. assert (N : norm2 (1, 0) = 1) by (unfold norm2, re, im; cbn; ring). rewrite N in H.
    assert (0 < re y * 1); [|lra]. apply H. exists 0%nat. split; [lia|]. intros E. injection E as E. lra.
  - intros H u (p & Hp & Hu). assert (p = 0%nat) by lia. subst p. rewrite power1, dot_one, active_self. apply Rmult_lt_0_compat; [exact H|]. now apply norm2_pos.
Qed.
Lemma passive1 b : passive b -> passive_branch cnum 1 one_number (param1 b).
Proof.
  intros H uf ut. unfold takes. rewrite !power1. unfold vadd. rewrite !dot_one. apply H. split; reflexivity.
Qed.
(** ** Three phases *)
Definition phases (u : nat -> C) : phase -> C := fun x => u (match x with PhA => 0 | PhB => 1 | PhC => 2 end)%nat.
Lemma power3 u i : power 3 u i = active3 (phases u) (phases i).
Proof. unfold power, active3, active, phases. cbn. ring. Qed.
Lemma dot_three m u x : phases (dot cnum 3 (tensor_of m) u) x = dotv complex_ops m (phases u) x.
Proof.
  unfold phases, dot, nsum, tensor_of, dotv. cbn [seq map fold_right].
  destruct x; cbn [phase_of]; generalize (u 0%nat), (u 1%nat), (u 2%nat); intros a b c;
    match goal with |- context [m ?x PhA] => generalize (m x PhA), (m x PhB), (m x PhC) end; intros d e f; cbn; creal; ring.
Qed.
Lemma power3_dot m u v : power 3 v (dot cnum 3 (tensor_of m) u) = active3 (phases v) (dotv complex_ops m (phases u)).
Proof. rewrite power3. apply active3_ext; [intros x; reflexivity|]. intros x. apply dot_three. Qed.
Definition resistive_matrix (m : @mat C) : Prop := forall u, (exists x, u x <> (0, 0)) -> 0 < active3 u (dotv complex_ops m u).
Lemma resistive3 m : resistive_matrix m -> resistive cnum 3 a_tensor (tensor_of m).
Proof.
  intros H u (p & Hp & Hu). rewrite power3_dot. apply H. exists (phase_of p). unfold phases. destruct p as [|[|[|p]]]; [exact Hu|exact Hu|exact Hu|lia].
Qed.
Lemma passive3_branch b : passive3 b -> passive_branch cnum 3 a_tensor (param3 b).
Proof.
  intros H uf ut. unfold takes. rewrite !power_add. cbn [param3 yff yft ytf ytt]. rewrite !power3_dot, <- !active3_add. apply H. split; intros x; reflexivity.
Qed.
Lemma passive_matrix_admittance m : passive_matrix m -> passive_admittance cnum 3 a_tensor (tensor_of m).
Proof. intros H u. rewrite power3_dot. apply H. Qed.
Lemma resistive_sequences (m : @mat C) (y0 y1 y2 : C) : 0 < re y0 -> 0 < re y1 -> 0 < re y2 ->
  (forall u, TwoPortSpec.veq (dotv complex_ops m (TwoPortSpec.vscale complex_ops u (TwoPortSpec.equal_phases complex_ops))) (TwoPortSpec.vscale complex_ops (cmul y0 u) (TwoPortSpec.equal_phases complex_ops))) ->
  (forall u, TwoPortSpec.veq (dotv complex_ops m (TwoPortSpec.vscale complex_ops u (TwoPortSpec.positive complex_ops))) (TwoPortSpec.vscale complex_ops (cmul y1 u) (TwoPortSpec.positive complex_ops))) ->
  (forall u, TwoPortSpec.veq (dotv complex_ops m (TwoPortSpec.vscale complex_ops u (TwoPortSpec.negative complex_ops))) (TwoPortSpec.vscale complex_ops (cmul y2 u) (TwoPortSpec.negative complex_ops))) ->
  resistive_matrix m.
Proof.
  intros R0 R1 R2 A0 A1 A2 u (x & Hx). destruct (decompose u) as (a0 & a1 & a2 & E).
  assert (D : TwoPortSpec.veq (dotv complex_ops m u) (composed (cmul y0 a0) (cmul y1 a1) (cmul y2 a2))).
  { intros z. rewrite (TwoPortFacts.dot_ext complex_ops m _ _ E z). apply (dot_composed m a0 a1 a2 _ _ _ (A0 a0) (A1 a1) (A2 a2)). }
  rewrite (active3_ext _ _ _ _ E D), active_composed, !active_self.
  pose proof (norm2_nn a0) as N0. pose proof (norm2_nn a1) as N1. pose proof (norm2_nn a2) as N2.
  pose proof (Rmult_le_pos _ _ (Rlt_le _ _ R0) N0). pose proof (Rmult_le_pos _ _ (Rlt_le _ _ R1) N1). pose proof (Rmult_le_pos _ _ (Rlt_le _ _ R2) N2).
  destruct (c_dec a0 (0, 0)) as [->|Z]; [|pose proof (Rmult_lt_0_compat _ _ R0 (norm2_pos _ Z)); lra].
  destruct (c_dec a1 (0, 0)) as [->|Z]; [|pose proof (Rmult_lt_0_compat _ _ R1 (norm2_pos _ Z)); lra].
  destruct (c_dec a2 (0, 0)) as [->|Z]; [|pose proof (Rmult_lt_0_compat _ _ R2 (norm2_pos _ Z)); lra].
  exfalso. apply Hx. rewrite (E x). unfold composed. creal; ring.
Qed.
Lemma resistive_tensor y1 y0 : 0 < re y1 -> 0 < re y0 -> resistive_matrix (TwoPort.tensor2 (cdiv (cadd (cmul (2, 0) y1) y0) (3, 0)) (cdiv (csub y0 y1) (3, 0))).
Proof.
  intros H1 H0. rewrite <- two_c at 1. rewrite <- three_c'. apply (resistive_sequences _ y0 y1 y1 H0 H1 H1); intros u.
  - apply (TwoPortFacts.tensor_equal complex_ops complex_laws).
  - apply (TwoPortFacts.tensor_pos complex_ops complex_laws). exact complex_rots.
  - apply (TwoPortFacts.tensor_neg complex_ops complex_laws). exact complex_rots.
Qed.
Lemma cnum_two : n_add cnum (n_one cnum) (n_one cnum) = (2, 0). Proof. exact two_c. Qed.
Lemma cnum_three : n_add cnum (n_add cnum (n_one cnum) (n_one cnum)) (n_one cnum) = (3, 0).
Proof. rewrite cnum_two. cbn. creal; ring. Qed.
Lemma resistive_ext np m m' : (forall p q, (p < np)%nat -> (q < np)%nat -> m p q = m' p q) -> resistive cnum np a_tensor m -> resistive cnum np a_tensor m'.
Proof.
  intros E H u Hu. rewrite (power_ext np u _ (dot cnum np m u)); [now apply H|]. intros p Hp. unfold dot. apply nsum_ext. intros q Hq. apply in_seq in Hq. rewrite E by lia. reflexivity.
Qed.
Lemma source_resistive1 y1 y0 k : 0 < re (y1 k) -> resistive cnum 1 a_tensor (source_y cnum 1 y1 y0 k).
Proof. intros H. exact (proj2 (resistive1 (y1 k)) H). Qed.
Lemma source_resistive3 y1 y0 k : 0 < re (y1 k) -> 0 < re (y0 k) -> resistive cnum 3 a_tensor (source_y cnum 3 y1 y0 k).
Proof.
  intros H1 H0. apply (resistive_ext 3 (tensor_of (TwoPort.tensor2 (cdiv (cadd (cmul (2, 0) (y1 k)) (y0 k)) (3, 0)) (cdiv (csub (y0 k) (y1 k)) (3, 0))))); [|apply resistive3, resistive_tensor; assumption].
  intros p q Hp Hq. unfold source_y, y_ref. cbn [Nat.eqb]. rewrite cnum_three, cnum_two. destruct p as [|[|[|p]]]; try lia; destruct q as [|[|[|q]]]; try lia; reflexivity.
Qed.
Lemma shunt_passive3 y1 y0 : 0 <= re y1 -> 0 <= re y0 -> passive_admittance cnum 3 a_tensor (shunt_tensor complex_ops y1 y0).
Proof.
  intros H1 H0 u. rewrite (power_ext 3 u _ (dot cnum 3 (tensor_of (TwoPort.tensor2 (cdiv (cadd (cmul (2, 0) y1) y0) (3, 0)) (cdiv (csub y0 y1) (3, 0)))) u)).
  - apply (passive_matrix_admittance _ (pm_tensor y1 y0 H1 H0)).
  - intros p Hp. unfold dot. apply nsum_ext. intros q Hq. apply in_seq in Hq. f_equal. unfold shunt_tensor. fold cnum. rewrite cnum_three, cnum_two.
    destruct p as [|[|[|p]]]; try lia; destruct q as [|[|[|q]]]; try lia; reflexivity.
Qed.

(** ** Exactly one solution *)
Section Main.
Variable np : nat.
Context {Y S' : Type} (ten : Y -> nat -> nat -> C) (yadd : Y -> Y -> Y) (yzero : Y).
Hypothesis ten_add : forall a b p q, ten (yadd a b) p q = cadd (ten a p q) (ten b p q).
Hypothesis ten_0 : forall p q, ten yzero p q = (0, 0).
Variables (t : math_topo) (prm : @model_param Y S').
Variables (sources loads : nat -> list nat) (y1 y0 u_ref : nat -> C) (s : nat -> nat -> C).
Hypothesis ok : sub_grid_ok t.
Notation n := (mt_n_bus t).
Notation branches := (combine (mt_branch t) (p_branch prm)).
Notation source_y := (source_y cnum np y1 y0).
Notation Y' := (ybus ten yadd yzero t prm).
Hypothesis passive_branches : forall q, In q (p_branch prm) -> passive_branch cnum np ten q.
Hypothesis passive_shunts : forall g, In g (p_shunt prm) -> passive_admittance cnum np ten g.
Hypothesis real_sources : forall b k, In k (sources b) -> resistive cnum np (fun m => m) (source_y k).
Hypothesis connected : forall b, (b < n)%nat -> supplied cnum np ten branches (fun b => sources b <> []) b.
Notation unique e := (exists u, solves cnum np n e u /\ forall u', solves cnum np n e u' -> forall b p, (b < n)%nat -> (p < np)%nat -> u' b p = u b p).
Lemma ranges : (forall f b, In (f, b) (mt_branch t) -> (forall i, f = Some i -> (i < n)%nat) /\ (forall i, b = Some i -> (i < n)%nat)).
Proof. intros f b H. apply In_nth_error in H as [k Hk]. exact (go_branch t ok k (f, b) Hk). Qed.
Lemma unique_linear : (forall b l p, In l (loads b) -> (p < np)%nat -> re (s l p) <= 0) ->
  unique (prepare_linear cnum conj (a120 complex_ops) np n Y' sources loads y1 y0 u_ref s).
Proof.
  intros consumers. set (e := prepare_linear _ _ _ _ _ _ _ _ _ _ _ _).
  apply (exactly_one cnum conj (TwoPort.c_abs complex_ops) (a120 complex_ops) cpf np n c_dec (e_mat e) (e_rhs e)).
  intros d Hd b p Hb Hp.
  apply (all_zero np ten yadd yzero ten_add ten_0 t prm n ranges (go_shunt t ok) sources loads y1 y0 u_ref s passive_branches passive_shunts consumers real_sources connected d); auto.
  intros b' p' Hb' Hp'. refine (eq_trans _ (Hd b' p' Hb' Hp')). symmetry. apply (linear_row cnum conj (TwoPort.c_abs complex_ops) (a120 complex_ops) cpf); assumption.
Qed.
Lemma unique_matrix (r : nat -> nat -> C) : unique (mkEq (iterative_matrix cnum np n Y' sources y1 y0) r (fun _ => 0%nat)).
Proof.
  set (e := mkEq _ _ _).
  apply (exactly_one cnum conj (TwoPort.c_abs complex_ops) (a120 complex_ops) cpf np n c_dec (e_mat e) (e_rhs e)).
  intros d Hd b p Hb Hp.
  apply (all_zero np ten yadd yzero ten_add ten_0 t prm n ranges (go_shunt t ok) sources (fun _ => []) y1 y0 u_ref s passive_branches passive_shunts (fun _ _ _ (H : False) => match H with end) real_sources connected d); auto.
  intros b' p' Hb' Hp'. refine (eq_trans _ (Hd b' p' Hb' Hp')). cbn [map]. symmetry. unfold row. cbn [e e_mat].
  pose (ty := fun _ : nat => PowerFlow.const_y). rewrite (iterative_matrix_row cnum conj (TwoPort.c_abs complex_ops) (a120 complex_ops) cpf) by assumption. f_equal.
  unfold nsum. cbn [fold_right]. generalize (network_current cnum np n Y' d b' p'). intros w. cbn. creal; ring.
Qed.
Lemma unique_iteration ty u : unique (mkEq (iterative_matrix cnum np n Y' sources y1 y0) (iterative_rhs cnum conj (TwoPort.c_abs complex_ops) (a120 complex_ops) np sources loads y1 y0 u_ref s ty u) (fun _ => 0%nat)).
Proof. apply unique_matrix. Qed.
End Main.

(** In a symmetric calculation: branches and shunts that do not generate active power (C63), loads that consume (constant impedance), sources with a resistance. *)
Theorem C64_symmetric : forall (t : math_topo) (prm : @model_param C Datatypes.unit) (sources loads : nat -> list nat) (y1 y0 u_ref : nat -> C) (s : nat -> nat -> C),
  sub_grid_ok t ->
  (forall q, In q (p_branch prm) -> exists b, passive b /\ q = param1 b) -> (forall g, In g (p_shunt prm) -> 0 <= re g) ->
  (forall b k, In k (sources b) -> 0 < re (y1 k)) ->
  (forall b, (b < mt_n_bus t)%nat -> supplied cnum 1 one_number (combine (mt_branch t) (p_branch prm)) (fun b => sources b <> []) b) ->
  ((forall b l, In l (loads b) -> re (s l 0%nat) <= 0) ->
   let e := prepare_linear cnum conj (a120 complex_ops) 1 (mt_n_bus t) (matrix1 complex_ops t prm) sources loads y1 y0 u_ref s in
   exists u, solves cnum 1 (mt_n_bus t) e u /\ forall u', solves cnum 1 (mt_n_bus t) e u' -> forall b, (b < mt_n_bus t)%nat -> u' b 0%nat = u b 0%nat) /\
  (forall ty v, let next := iteration cnum conj (TwoPort.c_abs complex_ops) (a120 complex_ops) 1 (mt_n_bus t) (matrix1 complex_ops t prm) sources loads y1 y0 u_ref s ty v in
   exists u, next u /\ forall u', next u' -> forall b, (b < mt_n_bus t)%nat -> u' b 0%nat = u b 0%nat).
Proof.
  intros t prm sources loads y1 y0 u_ref s ok HB HS HK HC.
  assert (HB' : forall q, In q (p_branch prm) -> passive_branch cnum 1 one_number q) by (intros q Hq; destruct (HB q Hq) as (b & Pb & ->); now apply passive1).
  assert (HS' : forall g, In g (p_shunt prm) -> passive_admittance cnum 1 one_number g).
  { intros g Hg u. rewrite power1, dot_one, active_self. apply Rmult_le_pos; [now apply HS|apply norm2_nn]. }
  assert (HK' : forall b k, In k (sources b) -> resistive cnum 1 (fun m => m) (source_y cnum 1 y1 y0 k)) by (intros b k Hk; apply source_resistive1; eapply HK; eauto).
  split.
  - intros HL e. destruct (unique_linear 1 one_number cadd (0, 0) (fun a b p q => eq_refl) (fun p q => eq_refl) t prm sources loads y1 y0 u_ref s ok HB' HS' HK' HC) as (u & Hu & Hn).
    + intros b l p Hl Hp. assert (p = 0%nat) by lia. subst p. eapply HL; eauto.
    + exists u. split; [exact Hu|]. intros u' Hu' b Hb. apply Hn; auto.
  - intros ty v next. destruct (unique_iteration 1 one_number cadd (0, 0) (fun a b p q => eq_refl) (fun p q => eq_refl) t prm sources loads y1 y0 u_ref s ok HB' HS' HK' HC ty v) as (u & Hu & Hn).
    exists u. split; [exact Hu|]. intros u' Hu' b Hb. apply Hn; auto.
Qed.
(** In an asymmetric calculation: also the zero sequence must reach every bus, see [C64_line], [C64_transformer]. *)
Theorem C64_asymmetric : forall (t : math_topo) (prm : @model_param (nat -> nat -> C) Datatypes.unit) (sources loads : nat -> list nat) (y1 y0 u_ref : nat -> C) (s : nat -> nat -> C),
  sub_grid_ok t ->
  (forall q, In q (p_branch prm) -> exists b, passive3 b /\ q = param3 b) ->
  (forall g, In g (p_shunt prm) -> exists g1 g0, 0 <= re g1 /\ 0 <= re g0 /\ g = shunt_tensor complex_ops g1 g0) ->
  (forall b k, In k (sources b) -> 0 < re (y1 k) /\ 0 < re (y0 k)) ->
  (forall b, (b < mt_n_bus t)%nat -> supplied cnum 3 a_tensor (combine (mt_branch t) (p_branch prm)) (fun b => sources b <> []) b) ->
  ((forall b l p, In l (loads b) -> (p < 3)%nat -> re (s l p) <= 0) ->
   let e := prepare_linear cnum conj (a120 complex_ops) 3 (mt_n_bus t) (matrix3 complex_ops t prm) sources loads y1 y0 u_ref s in
   exists u, solves cnum 3 (mt_n_bus t) e u /\ forall u', solves cnum 3 (mt_n_bus t) e u' -> forall b p, (b < mt_n_bus t)%nat -> (p < 3)%nat -> u' b p = u b p) /\
  (forall ty v, let next := iteration cnum conj (TwoPort.c_abs complex_ops) (a120 complex_ops) 3 (mt_n_bus t) (matrix3 complex_ops t prm) sources loads y1 y0 u_ref s ty v in
   exists u, next u /\ forall u', next u' -> forall b p, (b < mt_n_bus t)%nat -> (p < 3)%nat -> u' b p = u b p).
Proof.
  intros t prm sources loads y1 y0 u_ref s ok HB HS HK HC.
  assert (HB' : forall q, In q (p_branch prm) -> passive_branch cnum 3 a_tensor q) by (intros q Hq; destruct (HB q Hq) as (b & Pb & ->); now apply passive3_branch).
  assert (HS' : forall g, In g (p_shunt prm) -> passive_admittance cnum 3 a_tensor g) by (intros g Hg; destruct (HS g Hg) as (g1 & g0 & H1 & H0 & ->); now apply shunt_passive3).
  assert (HK' : forall b k, In k (sources b) -> resistive cnum 3 (fun m => m) (source_y cnum 3 y1 y0 k)) by (intros b k Hk; destruct (HK b k Hk); now apply source_resistive3).
  split.
  - intros HL e. apply (unique_linear 3 a_tensor (tensor_add complex_ops) (tensor_0 complex_ops) (fun a b p q => eq_refl) (fun p q => eq_refl) t prm sources loads y1 y0 u_ref s ok HB' HS' HK' HC HL).
  - intros ty v next. apply (unique_iteration 3 a_tensor (tensor_add complex_ops) (tensor_0 complex_ops) (fun a b p q => eq_refl) (fun p q => eq_refl) t prm sources loads y1 y0 u_ref s ok HB' HS' HK' HC ty v).
Qed.
(** the matrix of the iterative current method: any currents have one set of voltages *)
Lemma C64_matrix_asymmetric : forall (t : math_topo) (prm : @model_param (nat -> nat -> C) Datatypes.unit) (sources : nat -> list nat) (y1 y0 : nat -> C),
  sub_grid_ok t ->
  (forall q, In q (p_branch prm) -> exists b, passive3 b /\ q = param3 b) ->
  (forall g, In g (p_shunt prm) -> exists g1 g0, 0 <= re g1 /\ 0 <= re g0 /\ g = shunt_tensor complex_ops g1 g0) ->
  (forall b k, In k (sources b) -> 0 < re (y1 k) /\ 0 < re (y0 k)) ->
  (forall b, (b < mt_n_bus t)%nat -> supplied cnum 3 a_tensor (combine (mt_branch t) (p_branch prm)) (fun b => sources b <> []) b) ->
  forall r, let e := mkEq (iterative_matrix cnum 3 (mt_n_bus t) (matrix3 complex_ops t prm) sources y1 y0) r (fun _ => 0%nat) in
  exists u, solves cnum 3 (mt_n_bus t) e u /\ forall u', solves cnum 3 (mt_n_bus t) e u' -> forall b p, (b < mt_n_bus t)%nat -> (p < 3)%nat -> u' b p = u b p.
Proof.
  intros t prm sources y1 y0 ok HB HS HK HC r.
  assert (HB' : forall q, In q (p_branch prm) -> passive_branch cnum 3 a_tensor q) by (intros q Hq; destruct (HB q Hq) as (b & Pb & ->); now apply passive3_branch).
  assert (HS' : forall g, In g (p_shunt prm) -> passive_admittance cnum 3 a_tensor g) by (intros g Hg; destruct (HS g Hg) as (g1 & g0 & H1 & H0 & ->); now apply shunt_passive3).
  assert (HK' : forall b k, In k (sources b) -> resistive cnum 3 (fun m => m) (source_y cnum 3 y1 y0 k)) by (intros b k Hk; destruct (HK b k Hk); now apply source_resistive3).
  apply (unique_matrix 3 a_tensor (tensor_add complex_ops) (tensor_0 complex_ops) (fun a b p q => eq_refl) (fun p q => eq_refl) t prm sources (fun _ => []) y1 y0 (fun _ => (0, 0)) (fun _ _ => (0, 0)) ok HB' HS' HK' HC r).
Qed.
