(** Facts about the model of the iterative linear state estimation. *)
From Coq Require Import Field.
From Verif Require Import Common Numbers ShortCircuit ShortCircuitFacts LinearSE LinearSESpec.

Section Facts.
Context {C : Type} (o : num_ops C) (cj cabs : C -> C) (positive : C -> bool) (nonneg : C -> Prop).
Hypothesis P : se_laws o cj cabs positive nonneg.
Local Definition L : num_laws o := se_num _ _ _ _ _ P.
Add Field NumFieldLs : (nl_field o L).
Local Notation "a + b" := (n_add o a b) : num_scope. Local Notation "a * b" := (n_mul o a b) : num_scope. Local Notation "a - b" := (n_sub o a b) : num_scope.
Local Notation "a / b" := (n_div o a b) : num_scope. Local Notation "- a" := (n_opp o a) : num_scope.
Local Notation zero := (n_zero o). Local Notation one := (n_one o).
Local Open Scope num_scope.
Local Notation sum f l := (nsum o (map f l)).

(** ** Conjugation and sums *)
Lemma cj_zero : cj zero = zero.
Proof. assert (H : cj zero + cj zero = cj zero) by (rewrite <- (se_conj_add _ _ _ _ _ P); f_equal; ring). transitivity (cj zero + cj zero - cj zero); [ring|]. rewrite H. ring. Qed.
Lemma cj_one : cj one = one.
Proof. rewrite <- (se_conj_conj _ _ _ _ _ P one) at 2. transitivity (cj one * cj (cj one)); [|rewrite <- (se_conj_mul _ _ _ _ _ P); f_equal; ring]. rewrite (se_conj_conj _ _ _ _ _ P). ring. Qed.
Lemma cj_opp x : cj (- x) = - cj x.
Proof. transitivity (cj (- x) + cj x - cj x); [ring|]. rewrite <- (se_conj_add _ _ _ _ _ P). replace (- x + x) with zero by ring. rewrite cj_zero. ring. Qed.
Lemma cj_sub x y : cj (x - y) = cj x - cj y.
Proof. replace (x - y) with (x + - y) by ring. rewrite (se_conj_add _ _ _ _ _ P), cj_opp. ring. Qed.
Lemma cj_sum {A} (f : A -> C) l : cj (sum f l) = sum (fun i => cj (f i)) l.
Proof. unfold nsum. induction l as [|i l IH]; cbn [map fold_right]; [apply cj_zero|]. rewrite (se_conj_add _ _ _ _ _ P), IH. reflexivity. Qed.
Lemma sum_flat {A B} (F : B -> C) (h : A -> list B) l : sum F (flat_map h l) = sum (fun i => sum F (h i)) l.
Proof. unfold nsum at 2. induction l as [|i l IH]; [reflexivity|]. cbn [flat_map map fold_right]. rewrite map_app, (nsum_app o L), IH. reflexivity. Qed.
Lemma sum_if {A} (h : bool) (F : A -> C) l : sum F (if h then l else []) = if h then sum F l else zero.
Proof. destruct h; reflexivity. Qed.
Lemma sum_pick (f : nat -> C) n b : b < n -> sum (fun j => if b =? j then f j else zero) (seq 0 n) = f b.
Proof.
  intros Hb. assert (G : forall l, NoDup l -> In b l -> sum (fun j => if b =? j then f j else zero) l = f b).
  { induction l as [|j l IH]; intros N I; [contradiction|]. inversion N as [|? ? N1 N2]; subst. unfold nsum. cbn [map fold_right]. fold (sum (fun j => if b =? j then f j else zero) l).
    destruct (b =? j) eqn:E.
    - apply Nat.eqb_eq in E. subst j. rewrite (nsum_zero o L); [ring|]. intros j Hj. destruct (b =? j) eqn:E; [apply Nat.eqb_eq in E; subst; contradiction|reflexivity].
    - rewrite IH; [ring|exact N2|]. destruct I as [->|I]; [rewrite Nat.eqb_refl in E; discriminate|exact I]. }
  apply G; [apply seq_NoDup|apply in_seq; lia].
Qed.
Lemma sum_none {A} (l : list A) : sum (fun _ => zero) l = zero. Proof. apply (nsum_zero o L). reflexivity. Qed.

(** ** Inner products *)
Variable np : nat.
Local Notation dot := (ShortCircuit.dot o np).
Local Notation vec := (ShortCircuit.vec (C := C)). Local Notation tensor := (ShortCircuit.tensor (C := C)).
Definition inner (d v : vec) : C := sum (fun p => cj (d p) * v p) (seq 0 np).
Lemma inner_ext d v v' : (forall p, p < np -> v p = v' p) -> inner d v = inner d v'.
Proof. intros H. apply nsum_ext. intros p Hp. apply in_seq in Hp. rewrite H by lia. reflexivity. Qed.
Lemma inner_add d v w : inner d (fun p => v p + w p) = inner d v + inner d w.
Proof. unfold inner. rewrite <- (nsum_add o L). apply nsum_ext. intros p _. ring. Qed.
Lemma inner_sub d v w : inner d (fun p => v p - w p) = inner d v - inner d w.
Proof. unfold inner. rewrite <- (nsum_sub o L). apply nsum_ext. intros p _. ring. Qed.
Lemma inner_sum {A} d (f : A -> vec) l : inner d (fun p => sum (fun i => f i p) l) = sum (fun i => inner d (f i)) l.
Proof.
  unfold inner. rewrite (nsum_swap o L). apply nsum_ext. intros p _. rewrite (nsum_scale o L). reflexivity.
Qed.
Lemma inner_zero d v : (forall p, p < np -> v p = zero) -> inner d v = zero.
Proof. intros H. apply (nsum_zero o L). intros p Hp. apply in_seq in Hp. rewrite H by lia. ring. Qed.
(** a weighted product of currents *)
Definition form (w i j : vec) : C := sum (fun p => w p * (cj (i p) * j p)) (seq 0 np).
Local Notation hermitian := (LinearSE.hermitian cj). Local Notation dot3 := (LinearSE.dot3 o np). Local Notation dot3v := (LinearSE.dot3v o np).
Lemma adjoint d a w v : inner d (dot3v (hermitian a) w v) = form w (dot a d) v.
Proof.
  unfold inner, form, LinearSE.dot3v, LinearSE.hermitian, ShortCircuit.dot.
  transitivity (sum (fun p => sum (fun k => cj (d p) * (cj (a k p) * w k * v k)) (seq 0 np)) (seq 0 np)); [apply nsum_ext; intros p _; symmetry; apply (nsum_scale o L)|].
  rewrite (nsum_swap o L). apply nsum_ext. intros k _. rewrite cj_sum.
  transitivity (w k * v k * sum (fun p => cj (a k p * d p)) (seq 0 np)); [|ring]. rewrite <- (nsum_scale o L). apply nsum_ext. intros p _. rewrite (se_conj_mul _ _ _ _ _ P). ring.
Qed.
Lemma dot_dot3 a w b x p : dot (dot3 a w b) x p = dot3v a w (dot b x) p.
Proof.
  unfold ShortCircuit.dot, LinearSE.dot3, LinearSE.dot3v.
  transitivity (sum (fun q => sum (fun k => x q * (a p k * w k * b k q)) (seq 0 np)) (seq 0 np)); [apply nsum_ext; intros q _; rewrite (nsum_scale o L); ring|].
  rewrite (nsum_swap o L). apply nsum_ext. intros k _. rewrite <- (nsum_scale o L). apply nsum_ext. intros q _. ring.
Qed.
Lemma inner_dot3 d a w b x : inner d (dot (dot3 (hermitian a) w b) x) = form w (dot a d) (dot b x).
Proof. rewrite <- adjoint. apply inner_ext. intros p _. apply dot_dot3. Qed.
Lemma dot_zero t p : dot t (vzero o) p = zero.
Proof. apply (nsum_zero o L). intros q _. unfold vzero. ring. Qed.
Lemma tzero_dot x p : dot (tzero o) x p = zero.
Proof. apply (nsum_zero o L). intros q _. unfold tzero. ring. Qed.
Lemma dot_sub t x y p : dot t (fun q => x q - y q) p = dot t x p - dot t y p.
Proof. unfold ShortCircuit.dot. rewrite <- (nsum_sub o L). apply nsum_ext. intros q _. ring. Qed.
Lemma form_ext w w' i i' j j' : (forall p, p < np -> w p = w' p) -> (forall p, p < np -> i p = i' p) -> (forall p, p < np -> j p = j' p) -> form w i j = form w' i' j'.
Proof. intros H1 H2 H3. apply nsum_ext. intros p Hp. apply in_seq in Hp. rewrite H1, H2, H3 by lia. reflexivity. Qed.
Lemma diag_dot (w : vec) x p : p < np -> dot (fun p q => if p =? q then w p else zero) x p = w p * x p.
Proof.
  intros Hp. unfold ShortCircuit.dot. rewrite (nsum_ext o _ (fun q => if p =? q then w p * x q else zero)) by (intros q _; destruct (p =? q); ring). apply (sum_pick (fun q => w p * x q)). exact Hp.
Qed.

(** ** The equations *)
Variables (real : C -> C) (n n_branch : nat) (branch_bus : nat -> bool -> option nat) (shunts : nat -> list nat).
Variables (branch_param : nat -> bool -> bool -> tensor) (shunt_param : nat -> tensor) (ybus : nat -> nat -> tensor).
Variables (voltage : nat -> option (voltage_measurement (C := C))) (branch_power : nat -> bool -> option (rand (C := C))) (branch_current : nat -> bool -> option (angle_type * rand (C := C))).
Variables (shunt_power bus_injection : nat -> option (rand (C := C))).
Local Notation phase_shift := (LinearSE.phase_shift o cabs positive).
Local Notation elements := (LinearSE.elements n_branch branch_bus shunts).
Local Notation gain_element := (LinearSE.gain_element o cj np branch_param shunt_param branch_power branch_current shunt_power).
Local Notation branch_variances := (LinearSE.branch_variances branch_power branch_current).
Local Notation branch_currents := (LinearSE.branch_currents o cj cabs positive real branch_bus voltage branch_power branch_current).
Local Notation rhs_element := (LinearSE.rhs_element o cj cabs positive real np branch_bus branch_param shunt_param voltage branch_power branch_current shunt_power).
Local Notation linearize := (LinearSE.linearize o cabs positive real voltage).
Local Notation power_to_current := (LinearSE.power_to_current o cj).
Local Notation diagonal_inverse := (LinearSE.diagonal_inverse o).
Local Notation sides := [false; true].
Local Notation side_pairs := [(false, false); (false, true); (true, false); (true, true)].
(** a branch is connected to buses of the sub-grid, at its two sides to different ones *)
Hypothesis bus_range : forall k s b, branch_bus k s = Some b -> b < n.
Hypothesis ends_differ : forall k b, branch_bus k false = Some b -> branch_bus k true = Some b -> False.

Lemma fold_tadd {A} (f : A -> tensor) l t x p : dot (fold_left (fun t i => tadd o t (f i)) l t) x p = dot t x p + sum (fun i => dot (f i) x p) l.
Proof.
  revert t. induction l as [|i l IH]; intros t; cbn [fold_left map]; [unfold nsum; cbn; ring|]. rewrite IH, (dot_add o L). unfold nsum. cbn [fold_right]. ring.
Qed.
Lemma fold_vadd {A} (f : A -> vec) l v p : fold_left (fun v i => vadd o v (f i)) l v p = v p + sum (fun i => f i p) l.
Proof.
  revert v. induction l as [|i l IH]; intros v; cbn [fold_left map]; [unfold nsum; cbn; ring|]. rewrite IH. unfold vadd, nsum. cbn [fold_right]. ring.
Qed.
(** what an element adds to the product of [d] with the rows, for the voltages [x] *)
Definition element_form (e : element) (d x : vec) : C :=
  match e with
  | Shunt k => match shunt_power k with Some m => form (diagonal_inverse (variance m)) (dot (shunt_param k) d) (dot (shunt_param k) x) | None => zero end
  | Branch k b0 b1 => sum (fun side => sum (fun v => form (diagonal_inverse v) (dot (branch_param k side b0) d) (dot (branch_param k side b1) x)) (branch_variances k side)) sides
  end.
Lemma gain_element_form d x e t : inner d (dot (gain_element t e) x) = inner d (dot t x) + element_form e d x.
Proof.
  destruct e as [k|k b0 b1]; cbn [LinearSE.gain_element element_form].
  - destruct (shunt_power k) as [m|]; [|ring]. rewrite <- inner_dot3, <- inner_add. apply inner_ext. intros p _. apply (dot_add o L).
  - cbn [fold_left]. unfold nsum at 1. cbn [map fold_right].
    rewrite (inner_ext d _ (fun p => dot t x p + sum (fun v => dot (dot3 (hermitian (branch_param k false b0)) (diagonal_inverse v) (branch_param k false b1)) x p) (branch_variances k false) +
      sum (fun v => dot (dot3 (hermitian (branch_param k true b0)) (diagonal_inverse v) (branch_param k true b1)) x p) (branch_variances k true))) by (intros p _; rewrite !fold_tadd; reflexivity).
    rewrite !inner_add, !inner_sum.
    rewrite (nsum_ext o (fun v => inner d (dot (dot3 (hermitian (branch_param k false b0)) (diagonal_inverse v) (branch_param k false b1)) x)) _ _ (fun v _ => inner_dot3 _ _ _ _ _)).
    rewrite (nsum_ext o (fun v => inner d (dot (dot3 (hermitian (branch_param k true b0)) (diagonal_inverse v) (branch_param k true b1)) x)) _ _ (fun v _ => inner_dot3 _ _ _ _ _)).
    ring.
Qed.
Lemma gain_elements d x : forall es t, inner d (dot (fold_left gain_element es t) x) = inner d (dot t x) + sum (fun e => element_form e d x) es.
Proof.
  induction es as [|e es IH]; intros t; cbn [fold_left map]; [unfold nsum; cbn; ring|]. rewrite IH, gain_element_form. unfold nsum. cbn [fold_right]. ring.
Qed.
Definition element_rhs (u : nat -> vec) (b : nat) (e : element) (d : vec) : C :=
  match e with
  | Shunt k => match shunt_power k with Some m => - form (diagonal_inverse (variance m)) (dot (shunt_param k) d) (value (power_to_current m (linearize u b))) | None => zero end
  | Branch k b0 _ => sum (fun side => sum (fun c => form (diagonal_inverse (variance c)) (dot (branch_param k side b0) d) (value c)) (branch_currents u k side)) sides
  end.
Lemma rhs_element_form u b d e v : inner d (rhs_element u b v e) = inner d v + element_rhs u b e d.
Proof.
  destruct e as [k|k b0 b1]; cbn [LinearSE.rhs_element element_rhs].
  - destruct (shunt_power k) as [m|]; [|ring]. rewrite <- adjoint. unfold LinearSE.vminus. rewrite inner_sub. cbn [variance LinearSE.power_to_current]. ring.
  - cbn [fold_left]. unfold nsum at 1. cbn [map fold_right].
    rewrite (inner_ext d _ (fun p => v p + sum (fun c => dot3v (hermitian (branch_param k false b0)) (diagonal_inverse (variance c)) (value c) p) (branch_currents u k false) +
      sum (fun c => dot3v (hermitian (branch_param k true b0)) (diagonal_inverse (variance c)) (value c) p) (branch_currents u k true))) by (intros p _; rewrite !fold_vadd; reflexivity).
    rewrite !inner_add, !inner_sum.
    rewrite (nsum_ext o (fun c => inner d (dot3v (hermitian (branch_param k false b0)) (diagonal_inverse (variance c)) (value c))) _ _ (fun c _ => adjoint _ _ _ _)).
    rewrite (nsum_ext o (fun c => inner d (dot3v (hermitian (branch_param k true b0)) (diagonal_inverse (variance c)) (value c))) _ _ (fun c _ => adjoint _ _ _ _)).
    ring.
Qed.
Lemma rhs_elements u b d : forall es v, inner d (fold_left (rhs_element u b) es v) = inner d v + sum (fun e => element_rhs u b e d) es.
Proof.
  induction es as [|e es IH]; intros v; cbn [fold_left map]; [unfold nsum; cbn; ring|]. rewrite IH, rhs_element_form. unfold nsum. cbn [fold_right]. ring.
Qed.

(** ** From elements of entries to branches and shunts *)
Local Notation volts := (nat -> vec).
(** the voltage at a side of a branch *)
Definition side_volt (d : volts) (k : nat) (side : bool) : vec := match branch_bus k side with Some j => d j | None => vzero o end.
Lemma pick_side (F : vec -> C) (d : volts) k s : F (vzero o) = zero -> sum (fun b => if LinearSE.at_bus branch_bus k s b then F (d b) else zero) (seq 0 n) = F (side_volt d k s).
Proof.
  intros F0. unfold LinearSE.at_bus, side_volt. destruct (branch_bus k s) as [j|] eqn:E.
  - apply (sum_pick (fun b => F (d b))). exact (bus_range k s j E).
  - rewrite sum_none. symmetry. exact F0.
Qed.
Lemma sum_elements (F : element -> C) r c :
  sum F (elements r c) = (if r =? c then sum (fun k => F (Shunt k)) (shunts r) else zero) +
    sum (fun k => sum (fun bb => if LinearSE.at_bus branch_bus k (fst bb) r && LinearSE.at_bus branch_bus k (snd bb) c then F (Branch k (fst bb) (snd bb)) else zero) side_pairs) (seq 0 n_branch).
Proof.
  unfold LinearSE.elements. rewrite map_app, (nsum_app o L). f_equal.
  - destruct (r =? c); [rewrite map_map; reflexivity|reflexivity].
  - rewrite sum_flat. apply nsum_ext. intros k _. rewrite sum_flat. apply nsum_ext. intros bb _. rewrite sum_if. unfold nsum. cbn [map fold_right].
    destruct (LinearSE.at_bus branch_bus k (fst bb) r && LinearSE.at_bus branch_bus k (snd bb) c); [ring|reflexivity].
Qed.
(** the flow of the voltages [d] into a side of a branch *)
Definition flow_of (d : volts) (k : nat) (side : bool) (p : nat) : C :=
  dot (branch_param k side false) (side_volt d k false) p + dot (branch_param k side true) (side_volt d k true) p.
Lemma form_zero_left w t j : form w (dot t (vzero o)) j = zero.
Proof. apply (nsum_zero o L). intros p _. rewrite dot_zero, cj_zero. ring. Qed.
Lemma form_zero_right w i t : form w i (dot t (vzero o)) = zero.
Proof. apply (nsum_zero o L). intros p _. rewrite dot_zero. ring. Qed.
Lemma branch_form_zero_left k b0 b1 x : element_form (Branch k b0 b1) (vzero o) x = zero.
Proof. cbn [element_form]. apply (nsum_zero o L). intros s _. apply (nsum_zero o L). intros v _. apply form_zero_left. Qed.
Lemma branch_form_zero_right k b0 b1 d : element_form (Branch k b0 b1) d (vzero o) = zero.
Proof. cbn [element_form]. apply (nsum_zero o L). intros s _. apply (nsum_zero o L). intros v _. apply form_zero_right. Qed.
Lemma branch_rhs_zero u b k b0 b1 : element_rhs u b (Branch k b0 b1) (vzero o) = zero.
Proof. cbn [element_rhs]. apply (nsum_zero o L). intros s _. apply (nsum_zero o L). intros v _. apply form_zero_left. Qed.
Lemma form_add_left w i i' j : form w (fun p => i p + i' p) j = form w i j + form w i' j.
Proof. unfold form. rewrite <- (nsum_add o L). apply nsum_ext. intros p _. rewrite (se_conj_add _ _ _ _ _ P). ring. Qed.
Lemma form_add_right w i j j' : form w i (fun p => j p + j' p) = form w i j + form w i j'.
Proof. unfold form. rewrite <- (nsum_add o L). apply nsum_ext. intros p _. ring. Qed.
(** all elements, left-hand side *)
Lemma all_elements (d x : volts) :
  sum (fun b => sum (fun j => sum (fun e => element_form e (d b) (x j)) (elements b j)) (seq 0 n)) (seq 0 n) =
  sum (fun b => sum (fun k => element_form (Shunt k) (d b) (x b)) (shunts b)) (seq 0 n) +
  sum (fun k => sum (fun side => sum (fun v => form (diagonal_inverse v) (flow_of d k side) (flow_of x k side)) (branch_variances k side)) sides) (seq 0 n_branch).
Proof.
  rewrite (nsum_ext o _ (fun b => sum (fun k => element_form (Shunt k) (d b) (x b)) (shunts b) +
    sum (fun k => sum (fun bb => if LinearSE.at_bus branch_bus k (fst bb) b then element_form (Branch k (fst bb) (snd bb)) (d b) (side_volt x k (snd bb)) else zero) side_pairs) (seq 0 n_branch))).
  - rewrite (nsum_add o L). f_equal. rewrite (nsum_swap o L). apply nsum_ext. intros k _. rewrite (nsum_swap o L).
    transitivity (sum (fun bb => element_form (Branch k (fst bb) (snd bb)) (side_volt d k (fst bb)) (side_volt x k (snd bb))) side_pairs).
    { apply nsum_ext. intros bb _. apply (pick_side (fun v => element_form (Branch k (fst bb) (snd bb)) v (side_volt x k (snd bb)))). apply branch_form_zero_left. }
    cbn [element_form]. rewrite (nsum_swap o L). apply nsum_ext. intros side _. rewrite (nsum_swap o L). apply nsum_ext. intros v _.
    unfold flow_of. rewrite form_add_left, !form_add_right. unfold nsum. cbn [map fold_right fst snd].
    change (fun p => dot (branch_param k side false) (side_volt d k false) p) with (dot (branch_param k side false) (side_volt d k false)).
    change (fun p => dot (branch_param k side true) (side_volt d k true) p) with (dot (branch_param k side true) (side_volt d k true)).
    change (fun p => dot (branch_param k side false) (side_volt x k false) p) with (dot (branch_param k side false) (side_volt x k false)).
    change (fun p => dot (branch_param k side true) (side_volt x k true) p) with (dot (branch_param k side true) (side_volt x k true)). ring.
  - intros b Hb. apply in_seq in Hb. rewrite (nsum_ext o _ _ _ (fun j _ => sum_elements (fun e => element_form e (d b) (x j)) b j)). rewrite (nsum_add o L). f_equal.
    + apply (sum_pick (fun j => sum (fun k => element_form (Shunt k) (d b) (x j)) (shunts b))). lia.
    + rewrite (nsum_swap o L). apply nsum_ext. intros k _. rewrite (nsum_swap o L). apply nsum_ext. intros bb _.
      destruct (LinearSE.at_bus branch_bus k (fst bb) b); cbn [andb]; [|apply sum_none].
      apply (pick_side (fun v => element_form (Branch k (fst bb) (snd bb)) (d b) v)). apply branch_form_zero_right.
Qed.
(** all elements, right-hand side *)
Lemma all_rhs u (d : volts) :
  sum (fun b => sum (fun e => element_rhs u b e (d b)) (elements b b)) (seq 0 n) =
  sum (fun b => sum (fun k => element_rhs u b (Shunt k) (d b)) (shunts b)) (seq 0 n) +
  sum (fun k => sum (fun side => sum (fun c => form (diagonal_inverse (variance c)) (flow_of d k side) (value c)) (branch_currents u k side)) sides) (seq 0 n_branch).
Proof.
  rewrite (nsum_ext o _ (fun b => sum (fun k => element_rhs u b (Shunt k) (d b)) (shunts b) +
    sum (fun k => sum (fun b0 => if LinearSE.at_bus branch_bus k b0 b then element_rhs u 0 (Branch k b0 b0) (d b) else zero) sides) (seq 0 n_branch))).
  - rewrite (nsum_add o L). f_equal. rewrite (nsum_swap o L). apply nsum_ext. intros k _. rewrite (nsum_swap o L).
    transitivity (sum (fun b0 => element_rhs u 0 (Branch k b0 b0) (side_volt d k b0)) sides).
    { apply nsum_ext. intros b0 _. apply (pick_side (fun v => element_rhs u 0 (Branch k b0 b0) v)). apply branch_rhs_zero. }
    cbn [element_rhs]. rewrite (nsum_swap o L). apply nsum_ext. intros side _. rewrite (nsum_swap o L). apply nsum_ext. intros v _.
    unfold flow_of. rewrite form_add_left. unfold nsum. cbn [map fold_right].
    change (fun p => dot (branch_param k side false) (side_volt d k false) p) with (dot (branch_param k side false) (side_volt d k false)).
    change (fun p => dot (branch_param k side true) (side_volt d k true) p) with (dot (branch_param k side true) (side_volt d k true)). ring.
  - intros b Hb. rewrite sum_elements, Nat.eqb_refl. f_equal. apply nsum_ext. intros k _. unfold nsum. cbn [map fold_right fst snd].
    assert (X : LinearSE.at_bus branch_bus k false b && LinearSE.at_bus branch_bus k true b = false).
    { unfold LinearSE.at_bus. destruct (branch_bus k false) as [i|] eqn:E1; [|reflexivity]. destruct (branch_bus k true) as [j|] eqn:E2; [|apply andb_false_r].
      destruct (i =? b) eqn:Ei; [|reflexivity]. destruct (j =? b) eqn:Ej; [|reflexivity]. apply Nat.eqb_eq in Ei. apply Nat.eqb_eq in Ej. subst. elim (ends_differ k b E1 E2). }
    rewrite X, andb_comm in *. rewrite X. rewrite !andb_diag. cbn [element_rhs].
    destruct (LinearSE.at_bus branch_bus k false b), (LinearSE.at_bus branch_bus k true b); ring.
Qed.

(** ** The rows paired with the voltages [d] *)
Lemma div_inv a b : a / b = a * n_inv o b. Proof. exact (Fdiv_def (nl_field o L) a b). Qed.
Local Notation q_block := (LinearSE.q_block o ybus bus_injection). Local Notation r_block := (LinearSE.r_block o bus_injection).
Local Notation gain_voltage := (LinearSE.gain_voltage o voltage).
Local Notation gain_block := (LinearSE.gain_block o cj np n_branch branch_bus shunts branch_param shunt_param ybus voltage branch_power branch_current shunt_power bus_injection).
Local Notation rhs_block := (LinearSE.rhs_block o cj cabs positive real np n_branch branch_bus shunts branch_param shunt_param voltage branch_power branch_current shunt_power bus_injection).
Local Notation solution := (LinearSE.solution o cj cabs positive real np n n_branch branch_bus shunts branch_param shunt_param ybus voltage branch_power branch_current shunt_power bus_injection).
Definition voltage_part (d w : volts) : C :=
  sum (fun b => match voltage b with Some m => form (fun _ => one / volt_var m) (d b) (w b) | None => zero end) (seq 0 n).
Definition shunt_part (d x : volts) : C := sum (fun b => sum (fun k => element_form (Shunt k) (d b) (x b)) (shunts b)) (seq 0 n).
Definition shunt_rhs u (d : volts) : C := sum (fun b => sum (fun k => element_rhs u b (Shunt k) (d b)) (shunts b)) (seq 0 n).
Definition branch_part (d x : volts) : C :=
  sum (fun k => sum (fun side => sum (fun v => form (diagonal_inverse v) (flow_of d k side) (flow_of x k side)) (branch_variances k side)) sides) (seq 0 n_branch).
Definition branch_rhs u (d : volts) : C :=
  sum (fun k => sum (fun side => sum (fun c => form (diagonal_inverse (variance c)) (flow_of d k side) (value c)) (branch_currents u k side)) sides) (seq 0 n_branch).
Lemma inner_tdiag d w x : inner d (dot (tdiag o w) x) = form (fun _ => w) d x.
Proof.
  unfold inner, form. apply nsum_ext. intros p Hp. apply in_seq in Hp. rewrite (diag_dot (fun _ => w)) by lia. ring.
Qed.
Lemma gain_total d x : sum (fun b => sum (fun j => inner (d b) (dot (g (gain_block b j)) (x j))) (seq 0 n)) (seq 0 n) = voltage_part d x + (shunt_part d x + branch_part d x).
Proof.
  unfold shunt_part, branch_part, voltage_part. rewrite <- all_elements, <- (nsum_add o L). apply nsum_ext. intros b Hb. apply in_seq in Hb.
  rewrite (nsum_ext o _ (fun j => inner (d b) (dot (gain_voltage b j) (x j)) + sum (fun e => element_form e (d b) (x j)) (elements b j))) by (intros j _; cbn [g LinearSE.gain_block]; apply gain_elements).
  rewrite (nsum_add o L). f_equal. unfold LinearSE.gain_voltage. destruct (voltage b) as [m|].
  - rewrite (nsum_ext o _ (fun j => if b =? j then form (fun _ => one / volt_var m) (d b) (x j) else zero)).
    + apply (sum_pick (fun j => form (fun _ => one / volt_var m) (d b) (x j))). lia.
    + intros j _. destruct (b =? j); [apply inner_tdiag|]. apply inner_zero. intros p _. apply tzero_dot.
  - apply (nsum_zero o L). intros j _. apply inner_zero. intros p _. apply tzero_dot.
Qed.
Lemma eta_total u d : sum (fun b => inner (d b) (eta (rhs_block u b))) (seq 0 n) = voltage_part d (linearize u) + (shunt_rhs u d + branch_rhs u d).
Proof.
  unfold shunt_rhs, branch_rhs, voltage_part. rewrite <- all_rhs, <- (nsum_add o L). apply nsum_ext. intros b _. cbn [eta LinearSE.rhs_block]. rewrite rhs_elements. f_equal.
  destruct (voltage b) as [m|]; [|apply inner_zero; reflexivity]. unfold inner, form. apply nsum_ext. intros p _. rewrite !div_inv. ring.
Qed.
(** the currents at the buses with an injection *)
Local Notation injected := (LinearSESpec.injected o np n ybus).
Definition injected_at (d : volts) (c : nat) : vec := fun p => match bus_injection c with Some _ => injected d c p | None => zero end.
Lemma q_injected d c p : sum (fun b => dot (q_block c b) (d b) p) (seq 0 n) = injected_at d c p.
Proof.
  unfold LinearSE.q_block, injected_at. destruct (bus_injection c); [reflexivity|]. apply (nsum_zero o L). intros b _. apply tzero_dot.
Qed.
Lemma inner_hermitian d a v : inner d (dot (hermitian a) v) = inner (dot a d) v.
Proof.
  transitivity (inner d (dot3v (hermitian a) (fun _ => one) v)).
  - apply inner_ext. intros p _. apply nsum_ext. intros k _. ring.
  - rewrite adjoint. apply nsum_ext. intros p _. ring.
Qed.
Lemma inner_sum_left {A} (f : A -> vec) v l : inner (fun p => sum (fun i => f i p) l) v = sum (fun i => inner (f i) v) l.
Proof.
  unfold inner. rewrite (nsum_swap o L). apply nsum_ext. intros p _. rewrite cj_sum. transitivity (v p * sum (fun i => cj (f i p)) l); [ring|]. rewrite <- (nsum_scale o L). apply nsum_ext. intros i _. ring.
Qed.
Lemma inner_ext_left d d' v : (forall p, p < np -> d p = d' p) -> inner d v = inner d' v.
Proof. intros H. apply nsum_ext. intros p Hp. apply in_seq in Hp. rewrite H by lia. reflexivity. Qed.
Lemma qh_total d phi : sum (fun b => sum (fun j => inner (d b) (dot (qh (gain_block b j)) (phi j))) (seq 0 n)) (seq 0 n) = sum (fun c => inner (injected_at d c) (phi c)) (seq 0 n).
Proof.
  rewrite (nsum_swap o L). apply nsum_ext. intros c _. cbn [qh LinearSE.gain_block].
  rewrite (nsum_ext o _ _ _ (fun b _ => inner_hermitian (d b) (q_block c b) (phi c))). rewrite <- inner_sum_left. apply inner_ext_left. intros p _. apply q_injected.
Qed.
(** the equations, first row *)
Definition row1 (x phi : volts) (b : nat) : vec := fun p => sum (fun j => dot (g (gain_block b j)) (x j) p + dot (qh (gain_block b j)) (phi j) p) (seq 0 n).
Lemma row1_total d x phi : sum (fun b => inner (d b) (row1 x phi b)) (seq 0 n) = voltage_part d x + (shunt_part d x + branch_part d x) + sum (fun c => inner (injected_at d c) (phi c)) (seq 0 n).
Proof.
  rewrite <- gain_total, <- qh_total, <- (nsum_add o L). apply nsum_ext. intros b _. rewrite <- (nsum_add o L).
  transitivity (sum (fun j => inner (d b) (fun p => dot (g (gain_block b j)) (x j) p + dot (qh (gain_block b j)) (phi j) p)) (seq 0 n)).
  - apply (inner_sum (d b) (fun j p => dot (g (gain_block b j)) (x j) p + dot (qh (gain_block b j)) (phi j) p)).
  - apply nsum_ext. intros j _. apply inner_add.
Qed.
(** the equations, second row *)
Lemma row2 x phi b p : b < n -> p < np -> sum (fun j => dot (q (gain_block b j)) (x j) p + dot (r (gain_block b j)) (phi j) p) (seq 0 n) =
  injected_at x b p - match bus_injection b with Some m => variance m p * phi b p | None => phi b p end.
Proof.
  intros Hb Hp. rewrite (nsum_add o L). cbn [q r LinearSE.gain_block]. rewrite q_injected. unfold LinearSE.r_block.
  rewrite (nsum_ext o (fun j => dot (if b =? j then _ else tzero o) (phi j) p) (fun j => if b =? j then - match bus_injection b with Some m => variance m p * phi j p | None => phi j p end else zero)).
  - rewrite (sum_pick (fun j => - match bus_injection b with Some m => variance m p * phi j p | None => phi j p end)) by exact Hb. ring.
  - intros j _. destruct (b =? j); [|apply tzero_dot]. destruct (bus_injection b) as [m|].
    + rewrite (diag_dot (fun p => - variance m p)) by exact Hp. ring.
    + rewrite (diag_dot (fun _ => - one)) by exact Hp. ring.
Qed.

(** ** The residuals *)
Local Notation seen := (LinearSESpec.seen o real phase_shift voltage). Local Notation at_side := (LinearSESpec.at_side o real phase_shift branch_bus voltage).
Local Notation flow := (LinearSESpec.flow o np branch_bus branch_param). Local Notation flows := (LinearSESpec.flows o cj real phase_shift branch_bus voltage branch_power branch_current).
Local Notation residuals := (LinearSESpec.residuals o cj real phase_shift np n n_branch branch_bus shunts branch_param shunt_param ybus voltage branch_power branch_current shunt_power bus_injection).
Local Notation cost := (LinearSESpec.cost o cj real phase_shift np n n_branch branch_bus shunts branch_param shunt_param ybus voltage branch_power branch_current shunt_power bus_injection).
Local Notation exact_met := (LinearSESpec.exact_met o cj real phase_shift np n n_branch branch_bus shunts branch_param shunt_param ybus voltage branch_power branch_current shunt_power bus_injection).
Local Notation least_squares := (LinearSESpec.least_squares o cj nonneg real phase_shift np n n_branch branch_bus shunts branch_param shunt_param ybus voltage branch_power branch_current shunt_power bus_injection).
Lemma linearize_seen u b p : linearize u b p = seen u b p.
Proof. unfold LinearSE.linearize, LinearSESpec.seen. destruct (voltage b) as [m|]; [destruct (full m)|]; reflexivity. Qed.
Lemma at_side_measured u k side p : LinearSE.measured_voltage o cabs positive real voltage u (branch_bus k side) p = at_side u k side p.
Proof. unfold LinearSE.measured_voltage, LinearSESpec.at_side. destruct (branch_bus k side); [apply linearize_seen|reflexivity]. Qed.
Lemma flow_eq z k side p : flow z k side p = flow_of z k side p.
Proof.
  unfold LinearSESpec.flow, flow_of, side_volt. destruct (branch_bus k false), (branch_bus k true); rewrite ?dot_zero; reflexivity.
Qed.
Lemma cj_inv a : a <> zero -> cj (n_inv o a) = n_inv o (cj a).
Proof.
  intros H. assert (Hc : cj a <> zero). { intros E. apply H. rewrite <- (se_conj_conj _ _ _ _ _ P a), E. apply cj_zero. }
  assert (X : cj (n_inv o a) * cj a = one). { rewrite <- (se_conj_mul _ _ _ _ _ P). replace (n_inv o a * a) with one by (field; exact H). apply cj_one. }
  transitivity (cj (n_inv o a) * cj a * n_inv o (cj a)); [field; exact Hc|]. rewrite X. ring.
Qed.
Lemma phase_shift_one x : phase_shift x * cj (phase_shift x) = one.
Proof.
  unfold LinearSE.phase_shift. destruct (positive (cabs x)) eqn:E; [|rewrite cj_one; ring]. apply (se_positive _ _ _ _ _ P) in E.
  rewrite div_inv, (se_conj_mul _ _ _ _ _ P), cj_inv by exact E. rewrite (se_abs_real _ _ _ _ _ P).
  transitivity (x * cj x * (n_inv o (cabs x) * n_inv o (cabs x))); [ring|]. rewrite <- (se_abs _ _ _ _ _ P). field. exact E.
Qed.
(** the measured currents of a side *)
Lemma flows_currents (F : vec -> vec -> C) u k side :
  (forall a a' v v', (forall p, a p = a' p) -> (forall p, v p = v' p) -> F a v = F a' v') ->
  sum (fun m => F (fun p => fst (m p)) (fun p => snd (m p))) (flows u k side) = sum (fun c => F (value c) (variance c)) (branch_currents u k side).
Proof.
  intros HF. unfold LinearSESpec.flows, LinearSE.branch_currents. rewrite !map_app, !(nsum_app o L). f_equal.
  - destruct (branch_power k side) as [m|]; [|reflexivity]. unfold nsum. cbn [map fold_right fst snd]. f_equal. apply HF; [|reflexivity].
    intros p. cbn [value LinearSE.power_to_current]. rewrite at_side_measured. reflexivity.
  - destruct (branch_current k side) as [[t m]|]; [|reflexivity]. destruct t; unfold nsum; cbn [map fold_right fst snd LinearSE.global_current]; f_equal; apply HF; try reflexivity.
    + intros p. cbn [value]. rewrite at_side_measured. reflexivity.
    + intros p. cbn [variance]. rewrite phase_shift_one. ring.
Qed.
Lemma variances_currents (F : vec -> C) u k side : (forall v v', (forall p, v p = v' p) -> F v = F v') ->
  sum (fun v => F v) (branch_variances k side) = sum (fun c => F (variance c)) (branch_currents u k side).
Proof.
  intros HF. unfold LinearSE.branch_variances, LinearSE.branch_currents. rewrite !map_app, !(nsum_app o L). f_equal.
  - destruct (branch_power k side) as [m|]; reflexivity.
  - destruct (branch_current k side) as [[t m]|]; [|reflexivity]. destruct t; unfold nsum; cbn [map fold_right fst snd LinearSE.global_current]; f_equal; apply HF; try reflexivity.
    intros p. cbn [variance]. rewrite phase_shift_one. ring.
Qed.
(** the sum over the residuals of the product of a change with the residual *)
Definition change_sum (u x z : volts) : C := sum (fun r => one / snd r * (cj (fst r z - fst r x) * fst r x)) (residuals u).
Definition injection_part (u x d : volts) : C :=
  sum (fun b => match bus_injection b with
    | Some m => sum (fun p => one / variance m p * (cj (injected d b p) * (injected x b p - cj (value m p / seen u b p)))) (seq 0 np) | None => zero end) (seq 0 n).
Definition minus (z x : volts) : volts := fun b p => z b p - x b p.
Lemma flow_minus z x k side p : flow_of (minus z x) k side p = flow_of z k side p - flow_of x k side p.
Proof.
  unfold flow_of, side_volt, minus. destruct (branch_bus k false), (branch_bus k true); rewrite ?dot_sub, ?dot_zero; ring.
Qed.
Lemma injected_minus z x b p : injected (minus z x) b p = injected z b p - injected x b p.
Proof. unfold LinearSESpec.injected. rewrite <- (nsum_sub o L). apply nsum_ext. intros j _. apply (dot_sub (ybus b j)). Qed.
Lemma change_sum_parts u x z : change_sum u x z =
  (voltage_part (minus z x) x - voltage_part (minus z x) (linearize u)) + (branch_part (minus z x) x - branch_rhs u (minus z x)) + (shunt_part (minus z x) x - shunt_rhs u (minus z x)) +
  injection_part u x (minus z x).
Proof.
  unfold change_sum, LinearSESpec.residuals. rewrite !map_app, !(nsum_app o L), !sum_flat.
  assert (V : sum (fun b => sum (fun r => one / snd r * (cj (fst r z - fst r x) * fst r x)) match voltage b with Some m => map (fun p => (fun z : volts => z b p - seen u b p, volt_var m)) (seq 0 np) | None => [] end) (seq 0 n) =
    voltage_part (minus z x) x - voltage_part (minus z x) (linearize u)).
  { unfold voltage_part. rewrite <- (nsum_sub o L). apply nsum_ext. intros b _. destruct (voltage b) as [m|] eqn:E; [|unfold nsum; cbn; ring].
    rewrite map_map. unfold form. rewrite <- (nsum_sub o L). apply nsum_ext. intros p _. cbn [fst snd]. unfold minus. rewrite linearize_seen.
    replace (z b p - seen u b p - (x b p - seen u b p)) with (z b p - x b p) by ring. ring. }
  assert (B : sum (fun k => sum (fun r => one / snd r * (cj (fst r z - fst r x) * fst r x))
      (flat_map (fun side => flat_map (fun m => map (fun p => (fun z : volts => flow z k side p - fst (m p), snd (m p))) (seq 0 np)) (flows u k side)) sides)) (seq 0 n_branch) =
    branch_part (minus z x) x - branch_rhs u (minus z x)).
  { unfold branch_part, branch_rhs. rewrite <- (nsum_sub o L). apply nsum_ext. intros k _. rewrite sum_flat, <- (nsum_sub o L). apply nsum_ext. intros side _. rewrite sum_flat.
    rewrite (variances_currents (fun v => form (diagonal_inverse v) (flow_of (minus z x) k side) (flow_of x k side)) u k side).
    2:{ intros v v' Hv. apply form_ext; [|reflexivity|reflexivity]. intros p _. unfold LinearSE.diagonal_inverse. rewrite Hv. reflexivity. }
    rewrite <- (nsum_sub o L).
    pose (F := fun a v : vec => form (diagonal_inverse v) (flow_of (minus z x) k side) (flow_of x k side) - form (diagonal_inverse v) (flow_of (minus z x) k side) a).
    transitivity (sum (fun m => F (fun p => fst (m p)) (fun p => snd (m p))) (flows u k side)).
    - apply nsum_ext. intros m _. rewrite map_map. unfold F, form. rewrite <- (nsum_sub o L). apply nsum_ext. intros p _. cbn [fst snd]. rewrite !flow_eq, flow_minus. unfold LinearSE.diagonal_inverse.
      replace (flow_of z k side p - fst (m p) - (flow_of x k side p - fst (m p))) with (flow_of z k side p - flow_of x k side p) by ring. ring.
    - apply (flows_currents F). intros a a' v v' Ha Hv. unfold F. f_equal; apply form_ext; try reflexivity; intros p _; [| |apply Ha]; unfold LinearSE.diagonal_inverse; rewrite Hv; reflexivity. }
  assert (S : sum (fun b => sum (fun r => one / snd r * (cj (fst r z - fst r x) * fst r x)) (flat_map (fun k => match shunt_power k with
      | Some m => map (fun p => (fun z : volts => - LinearSESpec.through o np (shunt_param k) (z b) p - LinearSESpec.current_of o cj (value m p) (seen u b p), variance m p)) (seq 0 np) | None => [] end) (shunts b))) (seq 0 n) =
    shunt_part (minus z x) x - shunt_rhs u (minus z x)).
  { unfold shunt_part, shunt_rhs. rewrite <- (nsum_sub o L). apply nsum_ext. intros b _. rewrite sum_flat, <- (nsum_sub o L). apply nsum_ext. intros k _. cbn [element_form element_rhs].
    destruct (shunt_power k) as [m|]; [|unfold nsum; cbn; ring]. rewrite map_map.
    transitivity (form (diagonal_inverse (variance m)) (dot (shunt_param k) (minus z x b)) (dot (shunt_param k) (x b)) + form (diagonal_inverse (variance m)) (dot (shunt_param k) (minus z x b)) (value (power_to_current m (linearize u b)))); [|ring].
    unfold form. rewrite <- (nsum_add o L). apply nsum_ext. intros p _. cbn [fst snd value LinearSE.power_to_current]. unfold LinearSESpec.current_of, LinearSE.diagonal_inverse. rewrite linearize_seen.
    change (LinearSESpec.through o np (shunt_param k) (z b) p) with (dot (shunt_param k) (z b) p). change (LinearSESpec.through o np (shunt_param k) (x b) p) with (dot (shunt_param k) (x b) p).
    change (dot (shunt_param k) (minus z x b) p) with (dot (shunt_param k) (fun q => z b q - x b q) p). rewrite dot_sub.
    replace (- dot (shunt_param k) (z b) p - cj (value m p / seen u b p) - (- dot (shunt_param k) (x b) p - cj (value m p / seen u b p))) with (- (dot (shunt_param k) (z b) p - dot (shunt_param k) (x b) p)) by ring.
    rewrite cj_opp. ring. }
  assert (I : sum (fun b => sum (fun r => one / snd r * (cj (fst r z - fst r x) * fst r x)) match bus_injection b with
      | Some m => map (fun p => (fun z : volts => injected z b p - LinearSESpec.current_of o cj (value m p) (seen u b p), variance m p)) (seq 0 np) | None => [] end) (seq 0 n) =
    injection_part u x (minus z x)).
  { unfold injection_part. apply nsum_ext. intros b _. destruct (bus_injection b) as [m|]; [|reflexivity]. rewrite map_map. apply nsum_ext. intros p _. cbn [fst snd]. unfold LinearSESpec.current_of. rewrite injected_minus.
    replace (injected z b p - cj (value m p / seen u b p) - (injected x b p - cj (value m p / seen u b p))) with (injected z b p - injected x b p) by ring. ring. }
  refine (eq_trans (f_equal2 (n_add o) V (f_equal2 (n_add o) B (f_equal2 (n_add o) S I))) _). ring.
Qed.

(** ** A solution is a least squares solution *)
Hypothesis ok : measurements_ok o nonneg voltage branch_power branch_current shunt_power bus_injection.
Lemma residual_kind u f v : In (f, v) (residuals u) -> nonneg v /\ (v <> zero \/
  exists b m p, b < n /\ p < np /\ bus_injection b = Some m /\ v = variance m p /\ f = fun z : volts => injected z b p - cj (value m p / seen u b p)).
Proof.
  unfold LinearSESpec.residuals. rewrite !in_app_iff. intros [H|[H|[H|H]]]; apply in_flat_map in H; destruct H as [b [Hb H]].
  - destruct (voltage b) as [m|] eqn:E; [|contradiction]. apply in_map_iff in H. destruct H as [p [H _]]. injection H as <- <-. destruct (ok_voltage _ _ _ _ _ _ _ ok b m E) as [H1 H2]. split; [exact H1|left; exact H2].
  - apply in_flat_map in H. destruct H as [side [_ H]]. apply in_flat_map in H. destruct H as [m [Hm H]]. apply in_map_iff in H. destruct H as [p [H _]]. injection H as <- <-.
    assert (U : usable o nonneg (snd (m p))).
    { unfold LinearSESpec.flows in Hm. apply in_app_iff in Hm. destruct Hm as [Hm|Hm].
      - destruct (branch_power b side) as [m'|] eqn:E; [|contradiction]. destruct Hm as [<-|[]]. exact (ok_power _ _ _ _ _ _ _ ok b side m' p E).
      - destruct (branch_current b side) as [[t m']|] eqn:E; [|contradiction]. destruct t; destruct Hm as [<-|[]]; exact (ok_current _ _ _ _ _ _ _ ok b side _ m' p E). }
    destruct U as [H1 H2]. split; [exact H1|left; exact H2].
  - apply in_flat_map in H. destruct H as [k [_ H]]. destruct (shunt_power k) as [m|] eqn:E; [|contradiction]. apply in_map_iff in H. destruct H as [p [H _]]. injection H as <- <-.
    destruct (ok_shunt _ _ _ _ _ _ _ ok k m p E) as [H1 H2]. split; [exact H1|left; exact H2].
  - destruct (bus_injection b) as [m|] eqn:E; [|contradiction]. apply in_map_iff in H. destruct H as [p [H Hp]]. injection H as <- <-. apply in_seq in Hb. apply in_seq in Hp.
    split; [exact (ok_injection _ _ _ _ _ _ _ ok b m p E)|]. right. exists b, m, p. refine (conj _ (conj _ (conj E (conj eq_refl eq_refl)))); lia.
Qed.
Lemma solution_injection u x phi b m p : solution u x phi -> b < n -> p < np -> bus_injection b = Some m -> injected x b p - cj (value m p / seen u b p) = variance m p * phi b p.
Proof.
  intros H Hb Hp E. destruct (H b p Hb Hp) as [_ H2]. rewrite (row2 x phi b p Hb Hp) in H2. unfold injected_at in H2. rewrite E in H2. cbn [tau LinearSE.rhs_block] in H2. rewrite E in H2.
  cbn [value LinearSE.power_to_current] in H2. rewrite linearize_seen in H2. rewrite <- H2. ring.
Qed.
Lemma solution_exact u x phi : solution u x phi -> exact_met u x.
Proof.
  intros H f v Hf Hv. destruct (residual_kind u f v Hf) as [_ [K|[b [m [p [Hb [Hp [E [-> ->]]]]]]]]]; [contradiction|]. cbv beta. rewrite (solution_injection u x phi b m p H Hb Hp E), Hv. ring.
Qed.
Lemma in_injection u b m p : b < n -> p < np -> bus_injection b = Some m -> In ((fun z : volts => injected z b p - cj (value m p / seen u b p)), variance m p) (residuals u).
Proof.
  intros Hb Hp E. unfold LinearSESpec.residuals. apply in_app_iff. right. apply in_app_iff. right. apply in_app_iff. right. apply in_flat_map. exists b. split; [apply in_seq; lia|]. rewrite E.
  apply in_map_iff. exists p. split; [reflexivity|apply in_seq; lia].
Qed.
Lemma solution_change u x phi z : solution u x phi -> exact_met u z -> change_sum u x z = zero.
Proof.
  intros H Hz. pose proof (solution_exact u x phi H) as Hx. rewrite change_sum_parts.
  assert (I : injection_part u x (minus z x) = sum (fun c => inner (injected_at (minus z x) c) (phi c)) (seq 0 n)).
  { unfold injection_part. apply nsum_ext. intros b Hb. apply in_seq in Hb. unfold inner, injected_at. destruct (bus_injection b) as [m|] eqn:E.
    - apply nsum_ext. intros p Hp. apply in_seq in Hp. rewrite (solution_injection u x phi b m p H) by (try exact E; lia). destruct (se_zero _ _ _ _ _ P (variance m p)) as [V|V].
      + rewrite injected_minus. pose proof (Hz _ _ (in_injection u b m p ltac:(lia) ltac:(lia) E) V) as Z1. pose proof (Hx _ _ (in_injection u b m p ltac:(lia) ltac:(lia) E) V) as X1. cbv beta in Z1, X1.
        replace (injected z b p - injected x b p) with (injected z b p - cj (value m p / seen u b p) - (injected x b p - cj (value m p / seen u b p))) by ring. rewrite Z1, X1, V.
        replace (zero - zero) with zero by ring. rewrite cj_zero. ring.
      + field. exact V.
    - symmetry. apply (nsum_zero o L). intros p _. rewrite cj_zero. ring. }
  rewrite I. pose proof (row1_total (minus z x) x phi) as R1. pose proof (eta_total u (minus z x)) as R2.
  rewrite (nsum_ext o _ (fun b => inner (minus z x b) (eta (rhs_block u b)))) in R1.
  - rewrite R2 in R1. transitivity (voltage_part (minus z x) x + (shunt_part (minus z x) x + branch_part (minus z x) x) + sum (fun c => inner (injected_at (minus z x) c) (phi c)) (seq 0 n) -
      (voltage_part (minus z x) (linearize u) + (shunt_rhs u (minus z x) + branch_rhs u (minus z x)))); [ring|]. rewrite <- R1. ring.
  - intros b Hb. apply in_seq in Hb. apply inner_ext. intros p Hp. destruct (H b p ltac:(lia) Hp) as [H1 _]. exact H1.
Qed.
Lemma nonneg_zero : nonneg zero.
Proof. replace zero with (zero * cj zero) by ring. apply (se_nonneg_square _ _ _ _ _ P). Qed.
Lemma nonneg_inv v : nonneg v -> v <> zero -> nonneg (n_inv o v).
Proof.
  intros H Hv. replace (n_inv o v) with (v * (n_inv o v * cj (n_inv o v))).
  - apply (se_nonneg_mul _ _ _ _ _ P); [exact H|apply (se_nonneg_square _ _ _ _ _ P)].
  - rewrite (cj_inv v Hv), (se_nonneg_real _ _ _ _ _ P v H). field. exact Hv.
Qed.
Lemma nonneg_sum {A} (f : A -> C) l : (forall i, In i l -> nonneg (f i)) -> nonneg (sum f l).
Proof.
  unfold nsum. induction l as [|i l IH]; intros H; cbn [map fold_right]; [apply nonneg_zero|]. apply (se_nonneg_add _ _ _ _ _ P); [apply H; left; reflexivity|]. apply IH. intros j Hj. apply H. right. exact Hj.
Qed.
Theorem solution_least_squares u x phi : solution u x phi -> least_squares u x.
Proof.
  intros H. pose proof (solution_exact u x phi H) as Hx. split; [exact Hx|]. intros z Hz. pose proof (solution_change u x phi z H Hz) as Z. unfold LinearSESpec.le, LinearSESpec.cost.
  rewrite <- (nsum_sub o L).
  replace (sum (fun r => LinearSESpec.abs2 o cj (fst r z) / snd r - LinearSESpec.abs2 o cj (fst r x) / snd r) (residuals u)) with
    (sum (fun r => LinearSESpec.abs2 o cj (fst r z - fst r x) / snd r) (residuals u) + (change_sum u x z + cj (change_sum u x z))).
  - rewrite Z, cj_zero. replace (zero + zero) with zero by ring. apply (se_nonneg_add _ _ _ _ _ P); [|apply nonneg_zero]. apply nonneg_sum. intros [f v] Hr. cbn [fst snd].
    destruct (se_zero _ _ _ _ _ P v) as [V|V].
    + rewrite (Hz f v Hr V), (Hx f v Hr V), div_inv. replace (LinearSESpec.abs2 o cj (zero - zero) * n_inv o v) with zero; [apply nonneg_zero|]. unfold LinearSESpec.abs2. ring.
    + rewrite div_inv. apply (se_nonneg_mul _ _ _ _ _ P); [apply (se_nonneg_square _ _ _ _ _ P)|]. apply nonneg_inv; [|exact V]. exact (proj1 (residual_kind u f v Hr)).
  - unfold change_sum. rewrite cj_sum, <- !(nsum_add o L). apply nsum_ext. intros [f v] Hr. cbn [fst snd]. destruct (se_zero _ _ _ _ _ P v) as [V|V].
    + rewrite (Hz f v Hr V), (Hx f v Hr V), !div_inv. unfold LinearSESpec.abs2. rewrite !(se_conj_mul _ _ _ _ _ P), !cj_zero. ring.
    + rewrite !div_inv. unfold LinearSESpec.abs2. rewrite !(se_conj_mul _ _ _ _ _ P), !(se_conj_conj _ _ _ _ _ P), cj_one, (cj_inv v V), (se_nonneg_real _ _ _ _ _ P v (proj1 (residual_kind u f v Hr))), !cj_sub. ring.
Qed.

(** ** Two solutions estimate the same *)
Lemma nonneg_sum_zero {A} (f : A -> C) l : (forall i, In i l -> nonneg (f i)) -> sum f l = zero -> forall i, In i l -> f i = zero.
Proof.
  unfold nsum. induction l as [|j l IH]; intros H E i Hi; [contradiction|]. cbn [map fold_right] in E. fold (sum f l) in E.
  assert (Hs : nonneg (sum f l)) by (apply nonneg_sum; intros k Hk; apply H; right; exact Hk).
  assert (Hj : f j = zero).
  { apply (se_nonneg_anti _ _ _ _ _ P); [apply H; left; reflexivity|]. replace (- f j) with (sum f l); [exact Hs|]. transitivity (f j + sum f l - f j); [ring|]. rewrite E. ring. }
  destruct Hi as [->|Hi]; [exact Hj|]. apply IH; [intros k Hk; apply H; right; exact Hk| |exact Hi]. fold (sum f l). rewrite Hj in E. rewrite <- E. ring.
Qed.
Lemma abs2_zero a : a * cj a = zero -> a = zero.
Proof.
  intros H. destruct (se_zero _ _ _ _ _ P a) as [E|E]; [exact E|]. elim E. rewrite <- (se_conj_conj _ _ _ _ _ P a). transitivity (cj zero); [|apply cj_zero]. f_equal.
  transitivity (a * cj a / a); [field; exact E|]. rewrite H. field. exact E.
Qed.
Theorem solutions_agree u x phi y psi : solution u x phi -> solution u y psi -> forall f v, In (f, v) (residuals u) -> f x = f y.
Proof.
  intros H1 H2. pose proof (solution_exact u x phi H1) as E1. pose proof (solution_exact u y psi H2) as E2. pose proof (solution_change u x phi y H1 E2) as Z1. pose proof (solution_change u y psi x H2 E1) as Z2.
  assert (S : sum (fun r => LinearSESpec.abs2 o cj (fst r y - fst r x) / snd r) (residuals u) = zero).
  { transitivity (- (change_sum u x y + change_sum u y x)); [|rewrite Z1, Z2; ring]. unfold change_sum. rewrite <- (nsum_add o L).
    match goal with |- _ = - sum ?F ?l => transitivity (sum (fun _ => zero) l - sum F l); [|rewrite sum_none; ring] end. rewrite <- (nsum_sub o L). apply nsum_ext. intros r _. rewrite !div_inv.
    unfold LinearSESpec.abs2. rewrite !cj_sub. ring. }
  intros f v Hf. pose proof (residual_kind u f v Hf) as [K _]. destruct (se_zero _ _ _ _ _ P v) as [V|V].
  - rewrite (E1 f v Hf V), (E2 f v Hf V). reflexivity.
  - assert (T : LinearSESpec.abs2 o cj (f y - f x) / v = zero).
    { apply (nonneg_sum_zero (fun r => LinearSESpec.abs2 o cj (fst r y - fst r x) / snd r) (residuals u)) with (i := (f, v)); [|exact S|exact Hf]. intros [f' v'] Hr. cbn [fst snd]. rewrite div_inv.
      destruct (se_zero _ _ _ _ _ P v') as [V'|V'].
      - rewrite (E1 f' v' Hr V'), (E2 f' v' Hr V'). replace (LinearSESpec.abs2 o cj (zero - zero) * n_inv o v') with zero; [apply nonneg_zero|]. unfold LinearSESpec.abs2. ring.
      - apply (se_nonneg_mul _ _ _ _ _ P); [apply (se_nonneg_square _ _ _ _ _ P)|]. apply nonneg_inv; [|exact V']. exact (proj1 (residual_kind u f' v' Hr)). }
    assert (Z : f y - f x = zero). { apply abs2_zero. transitivity (LinearSESpec.abs2 o cj (f y - f x) / v * v); [unfold LinearSESpec.abs2; field; exact V|]. rewrite T. ring. }
    transitivity (f y - (f y - f x)); [ring|]. rewrite Z. ring.
Qed.

(** ** Measurements without errors *)
Definition unit_at (b p : nat) : volts := fun i q => if (b =? i) && (p =? q) then one else zero.
Lemma inner_unit b p (v : volts) : b < n -> p < np -> sum (fun i => inner (unit_at b p i) (v i)) (seq 0 n) = v b p.
Proof.
  intros Hb Hp. unfold inner, unit_at. rewrite (nsum_ext o _ (fun i => if b =? i then v i p else zero)); [apply (sum_pick (fun i => v i p)); exact Hb|].
  intros i _. destruct (b =? i); cbn [andb].
  - rewrite (nsum_ext o _ (fun q => if p =? q then v i q else zero)); [apply (sum_pick (fun q => v i q)); exact Hp|]. intros q _. destruct (p =? q); [rewrite cj_one|rewrite cj_zero]; ring.
  - apply (nsum_zero o L). intros q _. rewrite cj_zero. ring.
Qed.
Lemma minus_plus d x b p : minus (fun b p => d b p + x b p) x b p = d b p.
Proof. unfold minus. ring. Qed.
Theorem exact_solution u : (forall f v, In (f, v) (residuals u) -> f u = zero) -> solution u u (fun _ _ => zero).
Proof.
  intros H b p Hb Hp. split.
  - pose (d := unit_at b p). pose (z := fun b p => d b p + u b p).
    assert (E : change_sum u u z = zero). { apply (nsum_zero o L). intros [f v] Hr. cbn [fst snd]. rewrite (H f v Hr). ring. }
    rewrite change_sum_parts in E.
    assert (I : injection_part u u (minus z u) = zero).
    { apply (nsum_zero o L). intros c Hc. apply in_seq in Hc. destruct (bus_injection c) as [m|] eqn:Em; [|reflexivity]. apply (nsum_zero o L). intros q Hq. apply in_seq in Hq.
      rewrite (H _ _ (in_injection u c m q ltac:(lia) ltac:(lia) Em)). ring. }
    rewrite I in E. pose proof (row1_total (minus z u) u (fun _ _ => zero)) as R1. pose proof (eta_total u (minus z u)) as R2.
    assert (K : forall v : volts, sum (fun i => inner (minus z u i) (v i)) (seq 0 n) = v b p).
    { intros v. rewrite <- (inner_unit b p v Hb Hp). apply nsum_ext. intros i _. apply inner_ext_left. intros q _. apply minus_plus. }
    rewrite K in R1. rewrite (K (fun b => eta (rhs_block u b))) in R2. change (row1 u (fun _ _ => zero) b p = eta (rhs_block u b) p). rewrite R1, R2.
    assert (Z : sum (fun c => inner (injected_at (minus z u) c) (fun _ => zero)) (seq 0 n) = zero) by (apply (nsum_zero o L); intros c _; apply inner_zero; reflexivity).
    rewrite Z.
    transitivity (voltage_part (minus z u) u - voltage_part (minus z u) (linearize u) + (branch_part (minus z u) u - branch_rhs u (minus z u)) + (shunt_part (minus z u) u - shunt_rhs u (minus z u)) + zero +
      (voltage_part (minus z u) (linearize u) + (shunt_rhs u (minus z u) + branch_rhs u (minus z u)))); [ring|]. rewrite E. ring.
  - rewrite (row2 u (fun _ _ => zero) b p Hb Hp). unfold injected_at. cbn [tau LinearSE.rhs_block]. destruct (bus_injection b) as [m|] eqn:E.
    + pose proof (H _ _ (in_injection u b m p Hb Hp E)) as X. cbv beta in X. cbn [value LinearSE.power_to_current]. rewrite linearize_seen.
      transitivity (injected u b p - cj (value m p / seen u b p) + cj (value m p / seen u b p)); [ring|]. rewrite X. ring.
    + unfold vzero. ring.
Qed.
End Facts.
