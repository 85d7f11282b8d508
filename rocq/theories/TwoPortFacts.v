(** Proofs for C26. *)
From Coq Require Import Field.
From Verif Require Import Common TwoPort TwoPortSpec.

Section Facts.
Context {C : Type} (o : cx_ops C) (L : cx_laws o).
Local Notation "a + b" := (c_add o a b). Local Notation "a - b" := (c_sub o a b). Local Notation "a * b" := (c_mul o a b).
Local Notation "a / b" := (c_div o a b). Local Notation "- a" := (c_neg o a).
Local Notation one := (c_1 o). Local Notation zero := (c_0 o). Local Notation bar := (c_conj o).
Lemma cring : ring_theory zero one (c_add o) (c_mul o) (c_sub o) (c_neg o) eq. Proof. exact (F_R (cl_field o L)). Qed.
Add Field Cfield : (cl_field o L).

Lemma one_nz : one <> zero. Proof. exact (F_1_neq_0 (cl_field o L)). Qed.
Lemma mul_nz a b : a <> zero -> b <> zero -> a * b <> zero.
Proof.
  intros Ha Hb E. apply Hb. assert (X : b = (a * b) / a) by (field; auto). rewrite E in X. rewrite X. field. auto.
Qed.
Lemma mul_cancel a b c : a <> zero -> a * b = a * c -> b = c.
Proof. intros Ha E. assert (X : b = (a * b) / a) by (field; auto). rewrite X, E. field. auto. Qed.
Lemma sub_eq a b : a - b = zero -> a = b.
Proof. intros H. replace a with ((a - b) + b) by ring. rewrite H. ring. Qed.
Lemma conj0 : bar zero = zero.
Proof.
  apply sub_eq. assert (X : bar zero = bar zero + bar zero) by (rewrite <- (cl_conj_add o L); f_equal; ring).
  replace (bar zero - zero) with ((bar zero + bar zero) - bar zero) by ring. rewrite <- X. ring.
Qed.
Lemma conj_nz a : a <> zero -> bar a <> zero.
Proof. intros H E. apply H. rewrite <- (cl_conj_conj o L a), E. apply conj0. Qed.
Lemma abs_nz n : ratio_ok o n -> c_abs o n <> zero.
Proof.
  intros [Hn E] H. rewrite H in E. assert (X : n * bar n = zero) by (rewrite <- E; ring).
  revert X. apply mul_nz; auto. now apply conj_nz.
Qed.
Lemma inv_abs2 n y : ratio_ok o n -> (one / c_abs o n / c_abs o n) * y = y / (n * bar n).
Proof.
  intros H. pose proof (abs_nz n H). destruct H as [Hn E]. rewrite <- E. field. auto.
Qed.
Lemma two_nz : two o <> zero. Proof. exact (cl_two o L). Qed.
Lemma three_nz : three o <> zero. Proof. exact (cl_three o L). Qed.
Lemma three_nz' : one + (one + one) <> zero. Proof. intros E. apply three_nz. rewrite <- E. unfold three, two. ring. Qed.

(** the circuit, solved *)
Lemma closed_both ys ysh n uf ut i_f i_t : ratio_ok o n ->
  pi_circuit o true true ys ysh n uf ut i_f i_t <->
  i_f = (ys + half o * ysh) / (n * bar n) * uf + (- one / bar n) * ys * ut /\ i_t = (- one / n) * ys * uf + (ys + half o * ysh) * ut.
Proof.
  intros [Hn _]. pose proof (conj_nz n Hn) as Hc. pose proof two_nz as H2. unfold half. split.
  - intros (w & v & i1 & i2 & E1 & E2 & [-> Ew] & [-> ->]). split.
    + apply (mul_cancel (bar n * two o)); [now apply mul_nz|]. transitivity (two o * i1); [rewrite Ew; ring|]. rewrite E1. field. auto.
    + apply (mul_cancel (two o)); auto. rewrite E2. field. auto.
  - intros [-> ->]. exists (uf / n), ut, ((ys + (one / two o) * ysh) * (uf / n) - ys * ut), ((ys + (one / two o) * ysh) * ut - ys * (uf / n)).
    refine (conj _ (conj _ (conj (conj _ _) (conj eq_refl _)))); field; auto.
Qed.
Definition open_end (ys ysh : C) : C := half o * ysh + one / (one / ys + two o / ysh).
Lemma open_end_eq ys ysh : ys <> zero -> ysh <> zero -> ysh + two o * ys <> zero -> two o * open_end ys ysh * (ysh + two o * ys) = ysh * (ysh + two o * ys) + two o * ys * ysh.
Proof.
  intros H1 H2 H3. unfold open_end, half. pose proof two_nz. field. repeat split; auto.
Qed.
(** one end of the line carries no current *)
Lemma end_open ys ysh w v i : ys <> zero -> ysh + two o * ys <> zero -> zero = ysh * v + two o * ys * (v - w) -> two o * i = ysh * w + two o * ys * (w - v) ->
  i = if c_eq0 o ysh then zero else open_end ys ysh * w.
Proof.
  intros H1 H2 E1 E2. pose proof two_nz as Htwo. destruct (c_eq0 o ysh) eqn:Ez.
  - apply (cl_eq0 o L) in Ez. subst ysh. assert (Ev : v - w = zero).
    { apply (mul_cancel (two o * ys)); [now apply mul_nz|]. transitivity (zero * v + two o * ys * (v - w)); [ring|]. rewrite <- E1. ring. }
    apply sub_eq in Ev. subst v. apply (mul_cancel (two o)); auto. rewrite E2. ring.
  - assert (Hsh : ysh <> zero) by (intros E; apply (cl_eq0 o L) in E; congruence).
    apply (mul_cancel (two o * (ysh + two o * ys))); [now apply mul_nz|].
    transitivity ((two o * open_end ys ysh * (ysh + two o * ys)) * w); [|ring].
    rewrite (open_end_eq ys ysh H1 Hsh H2).
    assert (Ev : (ysh + two o * ys) * v = two o * ys * w).
    { apply sub_eq. transitivity (ysh * v + two o * ys * (v - w)); [ring|]. now symmetry. }
    transitivity ((ysh + two o * ys) * (two o * i)); [ring|]. rewrite E2.
    transitivity (ysh * (ysh + two o * ys) * w + two o * ys * ((ysh + two o * ys) * w - (ysh + two o * ys) * v)); [ring|]. rewrite Ev. ring.
Qed.
Lemma end_open_exists ys ysh w : ys <> zero -> ysh + two o * ys <> zero -> exists v, zero = ysh * v + two o * ys * (v - w) /\
  two o * (if c_eq0 o ysh then zero else open_end ys ysh * w) = ysh * w + two o * ys * (w - v).
Proof.
  intros H1 H2. exists (two o * ys * w / (ysh + two o * ys)).
  assert (E1 : zero = ysh * (two o * ys * w / (ysh + two o * ys)) + two o * ys * (two o * ys * w / (ysh + two o * ys) - w)) by (field; auto).
  refine (conj E1 _). set (v := two o * ys * w / (ysh + two o * ys)) in *.
  pose (i := (ysh * w + two o * ys * (w - v)) / two o). pose proof two_nz as Htwo.
  assert (E2 : two o * i = ysh * w + two o * ys * (w - v)) by (unfold i; field; auto).
  rewrite <- (end_open ys ysh w v i); auto.
Qed.
Lemma closed_from ys ysh n uf ut i_f i_t : ys <> zero -> ysh + two o * ys <> zero -> ratio_ok o n ->
  pi_circuit o true false ys ysh n uf ut i_f i_t <-> i_f = (if c_eq0 o ysh then zero else open_end ys ysh) / (n * bar n) * uf /\ i_t = zero.
Proof.
  intros H1 H2 [Hn _]. pose proof (conj_nz n Hn) as Hc. pose proof two_nz as Htwo. split.
  - intros (w & v & i1 & i2 & E1 & E2 & [-> Ew] & [-> ->]). split; auto.
    assert (E2' : zero = ysh * v + two o * ys * (v - w)) by (rewrite <- E2; ring).
    pose proof (end_open ys ysh w v i1 H1 H2 E2' E1) as X. apply (mul_cancel (bar n)); auto. rewrite <- Ew, X. destruct (c_eq0 o ysh); field; auto.
  - intros [-> ->]. destruct (end_open_exists ys ysh (uf / n) H1 H2) as (v & E1 & E2).
    exists (uf / n), v, (if c_eq0 o ysh then zero else open_end ys ysh * (uf / n)), zero.
    refine (conj E2 (conj _ (conj (conj _ _) (conj eq_refl eq_refl)))).
    + rewrite <- E1. ring.
    + field. auto.
    + destruct (c_eq0 o ysh); field; auto.
Qed.
Lemma closed_to ys ysh n uf ut i_f i_t : ys <> zero -> ysh + two o * ys <> zero ->
  pi_circuit o false true ys ysh n uf ut i_f i_t <-> i_f = zero /\ i_t = (if c_eq0 o ysh then zero else open_end ys ysh) * ut.
Proof.
  intros H1 H2. split.
  - intros (w & v & i1 & i2 & E1 & E2 & [-> ->] & [-> ->]). split; auto.
    assert (E1' : zero = ysh * w + two o * ys * (w - v)) by (rewrite <- E1; ring).
    rewrite (end_open ys ysh v w i2 H1 H2 E1' E2). destruct (c_eq0 o ysh); ring.
  - intros [-> ->]. destruct (end_open_exists ys ysh ut H1 H2) as (w & E1 & E2).
    exists w, ut, zero, (if c_eq0 o ysh then zero else open_end ys ysh * ut).
    refine (conj _ (conj E2 (conj (conj eq_refl eq_refl) (conj eq_refl _)))).
    + rewrite <- E1. ring.
    + destruct (c_eq0 o ysh); ring.
Qed.
Lemma open_both ys ysh n uf ut i_f i_t : pi_circuit o false false ys ysh n uf ut i_f i_t <-> i_f = zero /\ i_t = zero.
Proof.
  split.
  - intros (w & v & i1 & i2 & _ & _ & [_ ->] & [_ ->]). auto.
  - intros [-> ->]. exists zero, zero, zero, zero. repeat split; ring.
Qed.

(** the code's admittances *)
Lemma small_eq0 y : y = zero \/ c_small o y = false -> c_small o y = c_eq0 o y.
Proof.
  intros [->|H].
  - rewrite (cl_small0 o L). symmetry. now apply (cl_eq0 o L).
  - rewrite H. destruct (c_eq0 o y) eqn:E; auto. apply (cl_eq0 o L) in E. subst y. rewrite (cl_small0 o L) in H. discriminate.
Qed.
Theorem sym_two_port fs ts ys ysh n uf ut i_f i_t : regular o ys ysh n ->
  injects o (calc_param_y_sym o fs ts ys ysh n) uf ut i_f i_t <-> pi_circuit o fs ts ys ysh n uf ut i_f i_t.
Proof.
  intros (H1 & H2 & H3 & H4). unfold calc_param_y_sym, injects. rewrite (small_eq0 ysh H3). fold (open_end ys ysh).
  destruct fs, ts; simpl; rewrite ?(inv_abs2 n _ H4).
  - rewrite (closed_both ys ysh n uf ut i_f i_t H4). reflexivity.
  - rewrite (closed_from ys ysh n uf ut i_f i_t H1 H2 H4).
    replace (zero * uf + zero * ut) with zero by ring.
    match goal with |- context [?a * uf + zero * ut] => replace (a * uf + zero * ut) with (a * uf) by ring end. reflexivity.
  - rewrite (closed_to ys ysh n uf ut i_f i_t H1 H2).
    replace (zero * uf + zero * ut) with zero by ring.
    match goal with |- context [zero * uf + ?a * ut] => replace (zero * uf + a * ut) with (a * ut) by ring end. reflexivity.
  - rewrite open_both. replace (zero * uf + zero * ut) with zero by ring. reflexivity.
Qed.
Lemma seq1_transposed m : rot_laws o -> transposed m -> seq1 o m = average_of_diagonal_of_matrix o m - average_of_off_diagonal_of_matrix o m.
Proof.
  intros R (s & c & H). unfold seq1, average_of_diagonal_of_matrix, average_of_off_diagonal_of_matrix, dotv, positive. rewrite !H. simpl phase_eqb. cbn iota.
  pose proof two_nz as H2. pose proof three_nz as H3.
  assert (X4 : c_rot o 4 * c_rot o 8 = one) by (rewrite <- (rl_add o R); exact (rl_period o R)).
  assert (X44 : c_rot o 4 * c_rot o 4 = c_rot o 8) by (rewrite <- (rl_add o R); reflexivity).
  assert (X88 : c_rot o 8 * c_rot o 8 = c_rot o 4) by (rewrite <- (rl_add o R); change (8 + 8)%Z with (12 + 4)%Z; rewrite (rl_add o R), (rl_period o R); ring).
  assert (X8 : c_rot o 8 = zero - one - c_rot o 4) by (rewrite <- (rl_three o R); ring).
  transitivity (((c_rot o 4 * c_rot o 8 + c_rot o 4 * c_rot o 8 + one) * s + (c_rot o 4 + c_rot o 8 + c_rot o 4 + c_rot o 4 * c_rot o 4 + c_rot o 8 + c_rot o 8 * c_rot o 8) * c) / three o); [field; auto|].
  rewrite X4, X44, X88, X8.
  assert (H3' : one + (one + one) <> zero) by (intros E; apply H3; rewrite <- E; unfold three, two; ring).
  assert (H6 : (one + one) * (one + (one + one)) <> zero) by (apply mul_nz; auto; exact H2).
  unfold three, two in *. field. split; [exact H6|exact H3'].
Qed.
Theorem two_port_ok fs ts b uf ut i_f i_t : rot_laws o -> transposed_line b ->
  (let '(ys, ysh, n) := positive_sequence o b in regular o ys ysh n) ->
  injects o (calc_param_sym o fs ts true b) uf ut i_f i_t <->
  (let '(ys, ysh, n) := positive_sequence o b in pi_circuit o fs ts ys ysh n uf ut i_f i_t).
Proof.
  intros R Ht Hr. unfold calc_param_sym, energized. destruct (fs || ts) eqn:Ef.
  - destruct b as [y1 ysh1 y0 ysh0|y|y ysh n|ys ysh|t]; simpl in *; try (apply sym_two_port; exact Hr).
    destruct Ht as [Hs Hsh]. unfold asym_line_sym. rewrite <- (seq1_transposed ys R Hs), <- (seq1_transposed ysh R Hsh). apply sym_two_port; exact Hr.
  - apply orb_false_iff in Ef as [-> ->]. simpl. destruct (positive_sequence o b) as [[ys ysh] n]. rewrite open_both. unfold injects. simpl.
    replace (zero * uf + zero * ut) with zero by ring. reflexivity.
Qed.
Lemma no_source fs ts b uf ut i_f i_t : injects o (calc_param_sym o fs ts false b) uf ut i_f i_t <-> i_f = zero /\ i_t = zero.
Proof. unfold calc_param_sym, injects. simpl. replace (zero * uf + zero * ut) with zero by ring. reflexivity. Qed.
Lemma reciprocal fs ts ys ysh n : bar n = n -> yft (calc_param_y_sym o fs ts ys ysh n) = ytf (calc_param_y_sym o fs ts ys ysh n).
Proof. intros H. unfold calc_param_y_sym. destruct fs, ts; simpl; auto. now rewrite H. Qed.

(** ** three phases *)
Lemma tensor_pos y1 y0 u : rot_laws o -> veq (dotv o (tensor2 ((two o * y1 + y0) / three o) ((y0 - y1) / three o)) (vscale o u (positive o))) (vscale o (y1 * u) (positive o)).
Proof.
  intros R p. pose proof three_nz as H3. assert (X8 : c_rot o 8 = zero - one - c_rot o 4) by (rewrite <- (rl_three o R); ring).
  destruct p; unfold dotv, vscale, positive, tensor2; simpl; rewrite X8; unfold three, two in *; field; exact three_nz'.
Qed.
Lemma tensor_neg y1 y0 u : rot_laws o -> veq (dotv o (tensor2 ((two o * y1 + y0) / three o) ((y0 - y1) / three o)) (vscale o u (negative o))) (vscale o (y1 * u) (negative o)).
Proof.
  intros R p. pose proof three_nz as H3. assert (X8 : c_rot o 8 = zero - one - c_rot o 4) by (rewrite <- (rl_three o R); ring).
  destruct p; unfold dotv, vscale, negative, tensor2; simpl; rewrite X8; unfold three, two in *; field; exact three_nz'.
Qed.
Lemma tensor_equal y1 y0 u : veq (dotv o (tensor2 ((two o * y1 + y0) / three o) ((y0 - y1) / three o)) (vscale o u (equal_phases o))) (vscale o (y0 * u) (equal_phases o)).
Proof. intros p. pose proof three_nz as H3. destruct p; unfold dotv, vscale, equal_phases, tensor2; simpl; unfold three, two in *; field; exact three_nz'. Qed.
Lemma line_sequences fs ts y1 ysh1 y0 ysh0 n : rot_laws o ->
  acts_as o (calc_param_y_asym o fs ts y1 ysh1 y0 ysh0 n) (positive o) (calc_param_y_sym o fs ts y1 ysh1 n) /\
  acts_as o (calc_param_y_asym o fs ts y1 ysh1 y0 ysh0 n) (negative o) (calc_param_y_sym o fs ts y1 ysh1 n) /\
  acts_as o (calc_param_y_asym o fs ts y1 ysh1 y0 ysh0 n) (equal_phases o) (calc_param_y_sym o fs ts y0 ysh0 n).
Proof.
  intros R. split; [|split]; intros u; unfold calc_param_y_asym; cbn [yff yft ytf ytt].
  - repeat split; apply tensor_pos; auto.
  - repeat split; apply tensor_neg; auto.
  - repeat split; apply tensor_equal.
Qed.
Definition diag3 (y0 y1 y2 : C) : @mat C := fun p q => match p, q with PhA, PhA => y0 | PhB, PhB => y1 | PhC, PhC => y2 | _, _ => zero end.
Lemma seq_matrix y0 y1 y2 u : rot_laws o ->
  veq (dotv o (dotm o (dotm o (get_sym_matrix o) (diag3 y0 y1 y2)) (get_sym_matrix_inv o)) (vscale o u (positive o))) (vscale o (y1 * u) (positive o)) /\
  veq (dotv o (dotm o (dotm o (get_sym_matrix o) (diag3 y0 y1 y2)) (get_sym_matrix_inv o)) (vscale o u (negative o))) (vscale o (y2 * u) (negative o)) /\
  veq (dotv o (dotm o (dotm o (get_sym_matrix o) (diag3 y0 y1 y2)) (get_sym_matrix_inv o)) (vscale o u (equal_phases o))) (vscale o (y0 * u) (equal_phases o)).
Proof.
  intros R. pose proof three_nz as H3.
  assert (X4 : c_rot o 8 * c_rot o 4 = one) by (rewrite <- (rl_add o R); exact (rl_period o R)).
  assert (X8 : c_rot o 8 = zero - one - c_rot o 4) by (rewrite <- (rl_three o R); ring).
  set (a := c_rot o 4) in *.
  assert (Xa : a * a = zero - one - a).
  { apply sub_eq. transitivity (one - (zero - one - a) * a); [ring|]. rewrite <- X8, X4. ring. }
  assert (Xaa : a * (zero - one - a) = one) by (rewrite <- X8, <- X4; ring).
  assert (Xbb : (zero - one - a) * (zero - one - a) = a) by (transitivity (one + (a + a) + a * a); [ring|rewrite Xa; ring]).
  assert (Xab : (zero - one - a) * a = one) by (transitivity (a * (zero - one - a)); [ring|exact Xaa]).
  unfold get_sym_matrix, get_sym_matrix_inv, a120, a240, positive, negative, equal_phases, diag3. fold a. rewrite X8.
  set (b := zero - one - a) in *. assert (Es : one + a + b = zero) by (unfold b; ring). assert (Eb : b = zero - one - a) by reflexivity. clearbody b. clear X8.
  (* products of the entries, multiplied by three *)
  assert (Hm : forall x y, three o * x = three o * y -> x = y) by (intros x y; apply mul_cancel; auto).
  split; [|split]; intros p; destruct p; unfold dotv, dotm, vscale; cbn match; apply Hm.
  all: match goal with |- ?l = ?r => idtac end.
  - transitivity ((y0 * (one + b + a) + y1 * (one + a * b + b * a) + y2 * (one + b * b + a * a)) * u); [field; auto|].
    rewrite Xab, Xaa, Xbb, Xa. unfold three, two. rewrite <- ?Eb. transitivity ((y0 * (one + a + b) + y1 * (one + one + one) + y2 * (one + a + b)) * u); [ring|]. rewrite Es. ring.
  - transitivity ((y0 * (one + b + a) + y1 * b * (one + a * b + b * a) + y2 * a * (one + b * b + a * a)) * u); [field; auto|].
    rewrite Xab, Xaa, Xbb, Xa. unfold three, two. rewrite <- ?Eb. transitivity ((y0 * (one + a + b) + y1 * b * (one + one + one) + y2 * a * (one + a + b)) * u); [ring|]. rewrite Es. ring.
  - transitivity ((y0 * (one + b + a) + y1 * a * (one + a * b + b * a) + y2 * b * (one + b * b + a * a)) * u); [field; auto|].
    rewrite Xab, Xaa, Xbb, Xa. unfold three, two. rewrite <- ?Eb. transitivity ((y0 * (one + a + b) + y1 * a * (one + one + one) + y2 * b * (one + a + b)) * u); [ring|]. rewrite Es. ring.
  - transitivity ((y0 * (one + a + b) + y1 * (one + a * a + b * b) + y2 * (one + b * a + a * b)) * u); [field; auto|].
    rewrite Xab, Xaa, Xbb, Xa. unfold three, two. rewrite <- ?Eb. transitivity ((y0 * (one + a + b) + y1 * (one + a + b) + y2 * (one + one + one)) * u); [ring|]. rewrite Es. ring.
  - transitivity ((y0 * (one + a + b) + y1 * b * (one + a * a + b * b) + y2 * a * (one + b * a + a * b)) * u); [field; auto|].
    rewrite Xab, Xaa, Xbb, Xa. unfold three, two. rewrite <- ?Eb. transitivity ((y0 * (one + a + b) + y1 * b * (one + a + b) + y2 * a * (one + one + one)) * u); [ring|]. rewrite Es. ring.
  - transitivity ((y0 * (one + a + b) + y1 * a * (one + a * a + b * b) + y2 * b * (one + b * a + a * b)) * u); [field; auto|].
    rewrite Xab, Xaa, Xbb, Xa. unfold three, two. rewrite <- ?Eb. transitivity ((y0 * (one + a + b) + y1 * a * (one + a + b) + y2 * b * (one + one + one)) * u); [ring|]. rewrite Es. ring.
  - transitivity ((y0 * (one + one + one) + (y1 + y2) * (one + a + b)) * u); [field; auto|]. rewrite Es. unfold three, two. ring.
  - transitivity ((y0 * (one + one + one) + (y1 * b + y2 * a) * (one + a + b)) * u); [field; auto|]. rewrite Es. unfold three, two. ring.
  - transitivity ((y0 * (one + one + one) + (y1 * a + y2 * b) * (one + a + b)) * u); [field; auto|]. rewrite Es. unfold three, two. ring.
Qed.
Lemma transformer_sequences fs ts t : rot_laws o ->
  acts_as o (transformer_asym o fs ts t) (positive o) (transformer_sym o fs ts t) /\
  acts_as o (transformer_asym o fs ts t) (negative o) (calc_param_y_sym o fs ts (tp_y_series t) (tp_y_shunt t) (tp_k t * c_rot o (- tp_clock t))) /\
  acts_as o (transformer_asym o fs ts t) (equal_phases o) (transformer_param0 o fs ts t).
Proof.
  intros R. split; [|split]; intros u; unfold transformer_asym; cbn [yff yft ytf ytt];
    repeat match goal with |- _ /\ _ => split end; apply seq_matrix; auto.
Qed.

(** ** a line with coupled phases *)
Lemma dot_ext m u v : veq u v -> veq (dotv o m u) (dotv o m v).
Proof. intros H p. unfold dotv. now rewrite !H. Qed.
Lemma dot_sub m u v : veq (dotv o m (vsub o u v)) (vsub o (dotv o m u) (dotv o m v)).
Proof. intros p. unfold dotv, vsub. ring. Qed.
Lemma dot_scale m c u : veq (dotv o m (vscale o c u)) (vscale o c (dotv o m u)).
Proof. intros p. unfold dotv, vscale. ring. Qed.
Lemma dot_add m m' u : veq (dotv o (addm o m m') u) (vadd o (dotv o m u) (dotv o m' u)).
Proof. intros p. unfold dotv, vadd, addm. ring. Qed.
Lemma dot_scalem c m u : veq (dotv o (scale o c m) u) (vscale o c (dotv o m u)).
Proof. intros p. unfold dotv, vscale, scale. ring. Qed.
Lemma inv_dot m u : det o m <> zero -> veq (dotv o (inv o m) (dotv o m u)) u.
Proof.
  intros H p. unfold inv. apply (mul_cancel (det o m)); auto.
  transitivity (dotv o (cofactor_t o m) (dotv o m u) p); [unfold dotv; field; auto|].
  destruct p; unfold dotv, det; simpl; ring.
Qed.
Lemma dot_inv m u : det o m <> zero -> veq (dotv o m (dotv o (inv o m) u)) u.
Proof.
  intros H p. unfold inv. apply (mul_cancel (det o m)); auto.
  transitivity (dotv o m (dotv o (cofactor_t o m) u) p); [unfold dotv; field; auto|].
  destruct p; unfold dotv, det; simpl; ring.
Qed.
Lemma vcancel c u v : c <> zero -> veq (vscale o c u) (vscale o c v) -> veq u v.
Proof. intros H E p. apply (mul_cancel c); auto. exact (E p). Qed.
Definition no_shunt (m : @mat C) : Prop := forall p q, m p q = zero.
Definition open_end3 (ys ysh : @mat C) : @mat C := addm o (scale o (half o) ysh) (inv o (addm o (inv o ys) (scale o (two o) (inv o ysh)))).
Definition regular3 (ys ysh : @mat C) : Prop := det o ys <> zero /\ det o ysh <> zero /\ det o (addm o (inv o ys) (scale o (two o) (inv o ysh))) <> zero.

Lemma end_open3 ys ysh w v i : regular3 ys ysh -> veq (vzero o) (vadd o (dotv o ysh v) (vscale o (two o) (dotv o ys (vsub o v w)))) ->
  veq (vscale o (two o) i) (vadd o (dotv o ysh w) (vscale o (two o) (dotv o ys (vsub o w v)))) -> veq i (dotv o (open_end3 ys ysh) w).
Proof.
  intros (Hs & Hsh & Hz) E1 E2. pose proof two_nz as H2. set (z := addm o (inv o ys) (scale o (two o) (inv o ysh))) in *.
  set (j := dotv o ys (vsub o w v)).
  assert (J1 : veq (dotv o (inv o ys) j) (vsub o w v)) by (apply inv_dot; auto).
  assert (J2 : veq (dotv o ysh v) (vscale o (two o) j)).
  { intros p. specialize (E1 p). unfold vzero, vadd, vscale in *. apply sub_eq. rewrite E1. unfold j. rewrite !(dot_sub ys _ _ p). unfold vsub. ring. }
  assert (J3 : veq (vscale o (two o) (dotv o (inv o ysh) j)) v).
  { intros p. rewrite <- (dot_scale (inv o ysh) (two o) j p). rewrite <- (inv_dot ysh v Hsh p). apply dot_ext. intros q. now rewrite (J2 q). }
  assert (J4 : veq (dotv o z j) w).
  { intros p. unfold z. rewrite dot_add. unfold vadd. rewrite dot_scalem. rewrite (J1 p), (J3 p). unfold vsub. ring. }
  assert (J5 : veq j (dotv o (inv o z) w)).
  { intros p. rewrite <- (inv_dot z j Hz p). apply dot_ext. exact J4. }
  intros p. unfold open_end3. fold z. rewrite dot_add. unfold vadd. rewrite dot_scalem. rewrite <- (J5 p).
  apply (mul_cancel (two o)); auto. pose proof (E2 p) as E. unfold vscale at 1 in E. rewrite E. unfold vadd, vscale. fold j. unfold half. field. auto.
Qed.
Lemma end_open3_exists ys ysh w : regular3 ys ysh -> exists v, veq (vzero o) (vadd o (dotv o ysh v) (vscale o (two o) (dotv o ys (vsub o v w)))) /\
  veq (vscale o (two o) (dotv o (open_end3 ys ysh) w)) (vadd o (dotv o ysh w) (vscale o (two o) (dotv o ys (vsub o w v)))).
Proof.
  intros (Hs & Hsh & Hz). pose proof two_nz as H2. set (z := addm o (inv o ys) (scale o (two o) (inv o ysh))) in *.
  set (j := dotv o (inv o z) w). set (v := vscale o (two o) (dotv o (inv o ysh) j)).
  assert (J2 : veq (dotv o ysh v) (vscale o (two o) j)).
  { intros p. unfold v. rewrite dot_scale. unfold vscale. now rewrite (dot_inv ysh j Hsh p). }
  assert (J4 : veq (dotv o z j) w) by (intros p; apply (dot_inv z w Hz p)).
  assert (J1 : veq (dotv o ys (vsub o w v)) j).
  { intros p. rewrite <- (dot_inv ys j Hs p). apply dot_ext. intros q. unfold vsub. rewrite <- (J4 q). unfold z.
    rewrite (dot_add (inv o ys) (scale o (two o) (inv o ysh)) j q). unfold vadd. rewrite dot_scalem. fold v. ring. }
  assert (J1' : forall p, dotv o ys (vsub o v w) p = - j p).
  { intros p. rewrite <- (J1 p). unfold dotv, vsub. ring. }
  exists v. split; intros p.
  - unfold vzero, vadd, vscale. rewrite (J2 p), (J1' p). unfold vscale. ring.
  - unfold vscale, vadd. rewrite (J1 p). unfold open_end3. fold z. rewrite dot_add. unfold vadd. rewrite dot_scalem. fold j. unfold vscale, half. field. auto.
Qed.
Lemma end_open3_0 ys ysh w v i : det o ys <> zero -> no_shunt ysh -> veq (vzero o) (vadd o (dotv o ysh v) (vscale o (two o) (dotv o ys (vsub o v w)))) ->
  veq (vscale o (two o) i) (vadd o (dotv o ysh w) (vscale o (two o) (dotv o ys (vsub o w v)))) -> veq i (vzero o).
Proof.
  intros Hs H0 E1 E2 p. pose proof two_nz as H2.
  assert (Z : forall u q, dotv o ysh u q = zero) by (intros u q; unfold dotv; rewrite !H0; ring).
  apply (mul_cancel (two o)); auto. pose proof (E2 p) as E. unfold vscale at 1 in E. rewrite E. unfold vadd. rewrite Z.
  pose proof (E1 p) as E'. unfold vadd, vzero in E'. rewrite Z in E'. unfold vscale, vzero in *.
  rewrite (dot_sub ys _ _ p) in E'. rewrite (dot_sub ys _ _ p). unfold vsub in *.
  transitivity (zero - (zero + two o * (dotv o ys v p - dotv o ys w p))); [ring|]. rewrite <- E'. ring.
Qed.
Lemma all_not_small m : all_phases (fun p => all_phases (fun q => negb (c_small o (m p q)))) = true <-> forall p q, c_small o (m p q) = false.
Proof.
  unfold all_phases. rewrite !andb_true_iff, !negb_true_iff. split.
  - intros H p q. destruct p, q; tauto.
  - intros H. rewrite !H. auto 10.
Qed.
Theorem asym_line_circuit fs ts ys ysh uf ut i_f i_t : det o ys <> zero -> no_shunt ysh \/ (regular3 ys ysh /\ forall p q, c_small o (ysh p q) = false) ->
  injects3 o (asym_line_asym o fs ts ys ysh) uf ut i_f i_t <-> pi_circuit3 o fs ts ys ysh uf ut i_f i_t.
Proof.
  intros Hs Hsh. pose proof two_nz as H2. unfold asym_line_asym, injects3.
  assert (Zm : forall u, veq (dotv o (mat0 o) u) (vzero o)) by (intros u p; unfold dotv, mat0, vzero; ring).
  destruct fs, ts; simpl.
  - split.
    + intros [E1 E2]. exists uf, ut, i_f, i_t. refine (conj _ (conj _ (conj (conj _ _) (conj _ _)))); intros p; auto; unfold vscale at 1.
      * rewrite (E1 p). unfold vadd, vscale, dotv, addm, scale, negm, vsub, half. field. auto.
      * rewrite (E2 p). unfold vadd, vscale, dotv, addm, scale, negm, vsub, half. field. auto.
    + intros (w & v & i1 & i2 & E1 & E2 & [Ef Ei] & [Et Ej]). split; intros p; apply (mul_cancel (two o)); auto.
      * rewrite (Ei p). pose proof (E1 p) as E. unfold vscale at 1 in E. rewrite E. unfold vadd, vscale, dotv, addm, scale, negm, vsub, half. rewrite !Ef, !Et. field. auto.
      * rewrite (Ej p). pose proof (E2 p) as E. unfold vscale at 1 in E. rewrite E. unfold vadd, vscale, dotv, addm, scale, negm, vsub, half. rewrite !Ef, !Et. field. auto.
  - match goal with |- context [if ?c then _ else _] => destruct c eqn:Eall end.
    + assert (Hr : regular3 ys ysh).
      { destruct Hsh as [H0|[Hr _]]; auto. exfalso. apply all_not_small with (p := PhA) (q := PhA) in Eall. rewrite H0, (cl_small0 o L) in Eall. discriminate. }
      fold (open_end3 ys ysh). split.
      * intros [E1 E2]. destruct (end_open3_exists ys ysh uf Hr) as (v & X1 & X2).
        exists uf, v, i_f, (vzero o). refine (conj _ (conj _ (conj (conj _ _) (conj _ _)))); intros p; auto.
        -- rewrite <- (X2 p). unfold vscale. rewrite (E1 p). unfold vadd. rewrite Zm. unfold vzero. ring.
        -- rewrite <- (X1 p). unfold vscale, vzero. ring.
        -- rewrite (E2 p). unfold vadd. rewrite !Zm. unfold vzero. ring.
      * intros (w & v & i1 & i2 & E1 & E2 & [Ef Ei] & [Et Ej]).
        assert (E2' : veq (vzero o) (vadd o (dotv o ysh v) (vscale o (two o) (dotv o ys (vsub o v w))))).
        { intros p. rewrite <- (E2 p). unfold vscale. rewrite (Et p). unfold vzero. ring. }
        pose proof (end_open3 ys ysh w v i1 Hr E2' E1) as X. split; intros p.
        -- rewrite (Ei p), (X p). unfold vadd. rewrite (Zm ut p), (dot_ext _ _ _ Ef p). unfold vzero. ring.
        -- rewrite (Ej p). unfold vadd. rewrite !Zm. unfold vzero. ring.
    + assert (H0 : no_shunt ysh).
      { destruct Hsh as [H0|[_ Hn]]; auto. exfalso. apply all_not_small in Hn. congruence. }
      split.
      * intros [E1 E2]. exists uf, uf, (vzero o), (vzero o). refine (conj _ (conj _ (conj (conj _ _) (conj _ _)))); intros p; auto.
        -- unfold vscale, vadd, vsub, dotv, vzero. rewrite !H0. ring.
        -- unfold vscale, vadd, vsub, dotv, vzero. rewrite !H0. ring.
        -- rewrite (E1 p). unfold vadd. rewrite !Zm. unfold vzero. ring.
        -- rewrite (E2 p). unfold vadd. rewrite !Zm. unfold vzero. ring.
      * intros (w & v & i1 & i2 & E1 & E2 & [Ef Ei] & [Et Ej]).
        assert (E2' : veq (vzero o) (vadd o (dotv o ysh v) (vscale o (two o) (dotv o ys (vsub o v w))))).
        { intros p. rewrite <- (E2 p). unfold vscale. rewrite (Et p). unfold vzero. ring. }
        pose proof (end_open3_0 ys ysh w v i1 Hs H0 E2' E1) as X. split; intros p.
        -- rewrite (Ei p), (X p). unfold vadd. rewrite !Zm. unfold vzero. ring.
        -- rewrite (Ej p). unfold vadd. rewrite !Zm. unfold vzero. ring.
  - match goal with |- context [if ?c then _ else _] => destruct c eqn:Eall end.
    + assert (Hr : regular3 ys ysh).
      { destruct Hsh as [H0|[Hr _]]; auto. exfalso. apply all_not_small with (p := PhA) (q := PhA) in Eall. rewrite H0, (cl_small0 o L) in Eall. discriminate. }
      fold (open_end3 ys ysh). split.
      * intros [E1 E2]. destruct (end_open3_exists ys ysh ut Hr) as (w & X1 & X2).
        exists w, ut, (vzero o), i_t. refine (conj _ (conj _ (conj (conj _ _) (conj _ _)))); intros p; auto.
        -- rewrite <- (X1 p). unfold vscale, vzero. ring.
        -- rewrite <- (X2 p). unfold vscale. rewrite (E2 p). unfold vadd. rewrite Zm. unfold vzero. ring.
        -- rewrite (E1 p). unfold vadd. rewrite !Zm. unfold vzero. ring.
      * intros (w & v & i1 & i2 & E1 & E2 & [Ef Ei] & [Et Ej]).
        assert (E1' : veq (vzero o) (vadd o (dotv o ysh w) (vscale o (two o) (dotv o ys (vsub o w v))))).
        { intros p. rewrite <- (E1 p). unfold vscale. rewrite (Ef p). unfold vzero. ring. }
        pose proof (end_open3 ys ysh v w i2 Hr E1' E2) as X. split; intros p.
        -- rewrite (Ei p). unfold vadd. rewrite !Zm. unfold vzero. ring.
        -- rewrite (Ej p), (X p). unfold vadd. rewrite (Zm uf p), (dot_ext _ _ _ Et p). unfold vzero. ring.
    + assert (H0 : no_shunt ysh).
      { destruct Hsh as [H0|[_ Hn]]; auto. exfalso. apply all_not_small in Hn. congruence. }
      split.
      * intros [E1 E2]. exists ut, ut, (vzero o), (vzero o). refine (conj _ (conj _ (conj (conj _ _) (conj _ _)))); intros p; auto.
        -- unfold vscale, vadd, vsub, dotv, vzero. rewrite !H0. ring.
        -- unfold vscale, vadd, vsub, dotv, vzero. rewrite !H0. ring.
        -- rewrite (E1 p). unfold vadd. rewrite !Zm. unfold vzero. ring.
        -- rewrite (E2 p). unfold vadd. rewrite !Zm. unfold vzero. ring.
      * intros (w & v & i1 & i2 & E1 & E2 & [Ef Ei] & [Et Ej]).
        assert (E1' : veq (vzero o) (vadd o (dotv o ysh w) (vscale o (two o) (dotv o ys (vsub o w v))))).
        { intros p. rewrite <- (E1 p). unfold vscale. rewrite (Ef p). unfold vzero. ring. }
        pose proof (end_open3_0 ys ysh v w i2 Hs H0 E1' E2) as X. split; intros p.
        -- rewrite (Ei p). unfold vadd. rewrite !Zm. unfold vzero. ring.
        -- rewrite (Ej p), (X p). unfold vadd. rewrite !Zm. unfold vzero. ring.
  - split.
    + intros [E1 E2]. exists (vzero o), (vzero o), (vzero o), (vzero o).
      refine (conj _ (conj _ (conj (conj _ _) (conj _ _)))); intros p; auto.
      * unfold vscale, vadd, vsub, dotv, vzero. ring.
      * unfold vscale, vadd, vsub, dotv, vzero. ring.
      * rewrite (E1 p). unfold vadd. rewrite !Zm. unfold vzero. ring.
      * rewrite (E2 p). unfold vadd. rewrite !Zm. unfold vzero. ring.
    + intros (w & v & i1 & i2 & _ & _ & [_ Ei] & [_ Ej]). split; intros p.
      * rewrite (Ei p). unfold vadd. rewrite !Zm. unfold vzero. ring.
      * rewrite (Ej p). unfold vadd. rewrite !Zm. unfold vzero. ring.
Qed.

(** the phases of a transposed line do not mix sequences: the three-phase circuit on a balanced voltage is the single-phase circuit *)
Lemma transposed_pos m u : rot_laws o -> transposed m -> veq (dotv o m (vscale o u (positive o))) (vscale o (seq1 o m * u) (positive o)).
Proof.
  intros R Ht. rewrite (seq1_transposed m R Ht). destruct Ht as (s & c & H).
  assert (E : average_of_diagonal_of_matrix o m - average_of_off_diagonal_of_matrix o m = s - c).
  { unfold average_of_diagonal_of_matrix, average_of_off_diagonal_of_matrix. rewrite !H. simpl phase_eqb. cbn iota.
    assert (H6 : (one + one) * (one + (one + one)) <> zero) by (apply mul_nz; [exact two_nz|exact three_nz']).
    unfold three, two. field. split; [exact H6|exact three_nz']. }
  rewrite E. assert (X8 : c_rot o 8 = zero - one - c_rot o 4) by (rewrite <- (rl_three o R); ring).
  intros p. destruct p; unfold dotv, vscale, positive; rewrite !H; simpl phase_eqb; cbn iota; rewrite X8; ring.
Qed.
Lemma eigen_inv m s l : det o m <> zero -> l <> zero -> (forall u, veq (dotv o m (vscale o u s)) (vscale o (l * u) s)) ->
  forall u, veq (dotv o (inv o m) (vscale o u s)) (vscale o (one / l * u) s).
Proof.
  intros Hd Hl H u p. rewrite <- (inv_dot m (vscale o (one / l * u) s) Hd p). apply dot_ext. intros q. rewrite (H (one / l * u) q). unfold vscale.
  field. auto.
Qed.
Lemma eigen_nz m s l : det o m <> zero -> s PhA = one -> (forall u, veq (dotv o m (vscale o u s)) (vscale o (l * u) s)) -> l <> zero.
Proof.
  intros Hd Hs H E. subst l. pose proof (inv_dot m (vscale o one s) Hd PhA) as X. unfold vscale at 2 in X. rewrite Hs in X.
  rewrite (dot_ext (inv o m) _ (vzero o)) in X.
  - unfold dotv, vzero in X. apply one_nz. transitivity (one * one); [ring|]. rewrite <- X. ring.
  - intros p. rewrite (H one p). unfold vscale, vzero. ring.
Qed.
Lemma conj1 : bar one = one.
Proof.
  apply (mul_cancel (bar one)); [apply conj_nz, one_nz|]. rewrite <- (cl_conj_mul o L). transitivity (bar one); [f_equal; ring|ring].
Qed.
Theorem asym_line_balanced fs ts ys ysh : rot_laws o -> ratio_ok o one -> transposed ys -> transposed ysh -> det o ys <> zero ->
  no_shunt ysh \/ (regular3 ys ysh /\ (forall p q, c_small o (ysh p q) = false) /\ seq1 o ysh + two o * seq1 o ys <> zero /\ c_small o (seq1 o ysh) = false) ->
  acts_as o (asym_line_asym o fs ts ys ysh) (positive o) (asym_line_sym o fs ts ys ysh).
Proof.
  intros R H1 Ts Tsh Hs Hsh. pose proof two_nz as H2. pose proof one_nz as H1z. unfold asym_line_sym. rewrite <- (seq1_transposed ys R Ts), <- (seq1_transposed ysh R Tsh).
  pose proof (fun u => transposed_pos ys u R Ts) as Es. pose proof (fun u => transposed_pos ysh u R Tsh) as Esh.
  assert (Zm : forall u, veq (dotv o (mat0 o) (vscale o u (positive o))) (vscale o (zero * u) (positive o))) by (intros u p; unfold dotv, mat0, vscale; ring).
  assert (S1 : seq1 o ys <> zero) by (apply (eigen_nz ys (positive o)); auto).
  assert (Half : forall u, veq (dotv o (open_end3 ys ysh) (vscale o u (positive o))) (vscale o (open_end (seq1 o ys) (seq1 o ysh) * u) (positive o)) \/ no_shunt ysh).
  { intros u. destruct Hsh as [H0|((_ & Hd & Hz) & _ & Hn & _)]; [now right|left].
    assert (S2 : seq1 o ysh <> zero) by (apply (eigen_nz ysh (positive o)); auto).
    set (y := seq1 o ys) in *. set (g := seq1 o ysh) in *.
    assert (Lz : one / y + two o / g <> zero).
    { intros E. apply Hn. transitivity ((one / y + two o / g) * (y * g)); [field; auto|]. rewrite E. ring. }
    pose proof (eigen_inv ys (positive o) y Hs S1 Es) as I1. pose proof (eigen_inv ysh (positive o) g Hd S2 Esh) as I2.
    set (z := addm o (inv o ys) (scale o (two o) (inv o ysh))) in *.
    assert (I3 : forall u, veq (dotv o z (vscale o u (positive o))) (vscale o ((one / y + two o / g) * u) (positive o))).
    { intros u' p. unfold z. rewrite dot_add. unfold vadd. rewrite dot_scalem. unfold vscale at 2. rewrite (I1 u' p), (I2 u' p). unfold vscale. field. auto. }
    pose proof (eigen_inv z (positive o) _ Hz Lz I3) as I4.
    intros p. unfold open_end3. fold z. rewrite dot_add. unfold vadd. rewrite dot_scalem. unfold vscale at 1. rewrite (Esh u p), (I4 u p). unfold open_end. unfold vscale. ring. }
  assert (Z1 : no_shunt ysh -> seq1 o ysh = zero).
  { intros H0. unfold seq1, dotv. rewrite !H0. pose proof three_nz. field. auto. }
  intros u. unfold asym_line_asym, calc_param_y_sym. set (y := seq1 o ys) in *. set (g := seq1 o ysh) in *.
  rewrite !(inv_abs2 one _ H1), conj1. fold (open_end y g). fold (open_end3 ys ysh).
  assert (Both : veq (dotv o (addm o ys (scale o (half o) ysh)) (vscale o u (positive o))) (vscale o ((y + half o * g) * u) (positive o))).
  { intros p. rewrite dot_add. unfold vadd. rewrite dot_scalem. unfold vscale at 2. rewrite (Es u p), (Esh u p). unfold vscale. ring. }
  assert (Neg : veq (dotv o (negm o ys) (vscale o u (positive o))) (vscale o ((- one / one) * y * u) (positive o))).
  { intros p. transitivity (- dotv o ys (vscale o u (positive o)) p); [unfold dotv, negm; ring|]. rewrite (Es u p). unfold vscale. field. auto. }
  assert (D : forall x, x / (one * one) = x) by (intros x; field; auto). rewrite !D.
  assert (Hq : forall q : bool, veq (dotv o (if q then (if all_phases (fun p => all_phases (fun q0 => negb (c_small o (ysh p q0)))) then open_end3 ys ysh else mat0 o) else mat0 o) (vscale o u (positive o)))
     (vscale o ((if q then (if c_small o g then zero else open_end y g) else zero) * u) (positive o))).
  { intros [|]; [|apply Zm]. destruct Hsh as [H0|(_ & Ha & _ & Hg)].
    - assert (Ef : all_phases (fun p => all_phases (fun q0 => negb (c_small o (ysh p q0)))) = false).
      { unfold all_phases. rewrite !H0, (cl_small0 o L). reflexivity. }
      rewrite Ef, (Z1 H0), (cl_small0 o L). apply Zm.
    - rewrite (proj2 (all_not_small ysh) Ha), Hg. destruct (Half u) as [X|H0]; auto.
      exfalso. rewrite (Z1 H0), (cl_small0 o L) in Hg. discriminate. }
  destruct fs, ts; cbn [negb andb orb yff yft ytf ytt two_port0]; repeat match goal with |- _ /\ _ => split end; auto.
  - exact (Hq true).
  - exact (Hq true).
Qed.
End Facts.
