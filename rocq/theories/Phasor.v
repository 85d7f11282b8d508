(** Exact arithmetic of admittances, voltages and currents: the laws used by the theorems about electrical quantities,
    and that the complex numbers over any commutative ring, with one phase or three, satisfy them. *)
From Coq Require Import Permutation Ring.
From Verif Require Import Common.

(** Y: admittances (a number, or a matrix over the phases); U: voltages, currents and powers (a number, or one per phase) *)
Record phasor_ops (Y U : Type) : Type := mkOps {
  o_yadd : Y -> Y -> Y; o_y0 : Y; o_u0 : U; o_uadd : U -> U -> U; o_uneg : U -> U; o_umul : U -> U -> U; o_conj : U -> U; o_dot : Y -> U -> U }.
Arguments mkOps {Y U}. Arguments o_yadd {Y U}. Arguments o_y0 {Y U}. Arguments o_u0 {Y U}. Arguments o_uadd {Y U}. Arguments o_uneg {Y U}.
Arguments o_umul {Y U}. Arguments o_conj {Y U}. Arguments o_dot {Y U}.
Record phasor_laws {Y U : Type} (o : phasor_ops Y U) : Prop := {
  pl_comm : forall a b, o_uadd o a b = o_uadd o b a;
  pl_assoc : forall a b c, o_uadd o a (o_uadd o b c) = o_uadd o (o_uadd o a b) c;
  pl_zero : forall a, o_uadd o (o_u0 o) a = a;
  pl_neg : forall a, o_uadd o a (o_uneg o a) = o_u0 o;
  pl_mul_comm : forall a b, o_umul o a b = o_umul o b a;
  pl_mul_add : forall a b c, o_umul o a (o_uadd o b c) = o_uadd o (o_umul o a b) (o_umul o a c);
  pl_conj_add : forall a b, o_conj o (o_uadd o a b) = o_uadd o (o_conj o a) (o_conj o b);
  pl_dot_add : forall a b u, o_dot o (o_yadd o a b) u = o_uadd o (o_dot o a u) (o_dot o b u);
  pl_dot_zero : forall u, o_dot o (o_y0 o) u = o_u0 o;
  pl_dot_lin : forall y u v, o_dot o y (o_uadd o u v) = o_uadd o (o_dot o y u) (o_dot o y v) }.

(** sums *)
Definition usum {Y U} (o : phasor_ops Y U) (l : list U) : U := fold_right (o_uadd o) (o_u0 o) l.

Section Laws.
Context {Y U : Type} (o : phasor_ops Y U) (L : phasor_laws o).
Notation "a + b" := (o_uadd o a b). Notation "0" := (o_u0 o). Notation "- a" := (o_uneg o a). Notation sum := (usum o).
Lemma ua0 a : a + 0 = a. Proof. rewrite (pl_comm o L). apply (pl_zero o L). Qed.
Lemma ucancel a b c : a + b = a + c -> b = c.
Proof.
  intros H. assert (E : -a + (a + b) = -a + (a + c)) by now rewrite H.
  rewrite !(pl_assoc o L), !(pl_comm o L (-a) a), !(pl_neg o L), !(pl_zero o L) in E. exact E.
Qed.
Lemma uneg_unique a b : a + b = 0 -> b = - a. Proof. intros H. apply (ucancel a). now rewrite H, (pl_neg o L). Qed.
Lemma uneg0 : - 0 = 0. Proof. symmetry. apply uneg_unique. apply (pl_zero o L). Qed.
Lemma uneg_neg a : - - a = a. Proof. symmetry. apply uneg_unique. rewrite (pl_comm o L). apply (pl_neg o L). Qed.
Lemma uneg_add a b : - (a + b) = - a + - b.
Proof.
  symmetry. apply uneg_unique. rewrite <- !(pl_assoc o L). rewrite (pl_assoc o L b), (pl_comm o L b), <- (pl_assoc o L (-a)), (pl_neg o L), ua0. apply (pl_neg o L).
Qed.
Lemma umul0 a : o_umul o a 0 = 0. Proof. apply (ucancel (o_umul o a 0)). rewrite <- (pl_mul_add o L), ua0, ua0. reflexivity. Qed.
Lemma umul_neg a b : o_umul o a (- b) = - o_umul o a b. Proof. apply uneg_unique. rewrite <- (pl_mul_add o L), (pl_neg o L). apply umul0. Qed.
Lemma conj0 : o_conj o 0 = 0. Proof. apply (ucancel (o_conj o 0)). rewrite <- (pl_conj_add o L), ua0, ua0. reflexivity. Qed.
Lemma conj_neg a : o_conj o (- a) = - o_conj o a. Proof. apply uneg_unique. rewrite <- (pl_conj_add o L), (pl_neg o L). apply conj0. Qed.
Lemma dot0 y : o_dot o y 0 = 0. Proof. apply (ucancel (o_dot o y 0)). rewrite <- (pl_dot_lin o L), ua0, ua0. reflexivity. Qed.
Lemma uswap a b c d : (a + b) + (c + d) = (a + c) + (b + d).
Proof. rewrite <- !(pl_assoc o L). f_equal. rewrite !(pl_assoc o L). f_equal. apply (pl_comm o L). Qed.

Lemma sum_app l l' : sum (l ++ l') = sum l + sum l'.
Proof. induction l as [|a l IH]; simpl; [now rewrite (pl_zero o L)|]. rewrite IH. apply (pl_assoc o L). Qed.
Lemma sum_flat_map {A} (f : A -> list U) l : sum (flat_map f l) = sum (map (fun x => sum (f x)) l).
Proof. induction l as [|a l IH]; simpl; auto. now rewrite sum_app, IH. Qed.
Lemma sum_add {A} (f g : A -> U) l : sum (map (fun x => f x + g x) l) = sum (map f l) + sum (map g l).
Proof. induction l as [|a l IH]; simpl; [now rewrite ua0|]. rewrite IH. apply uswap. Qed.
Lemma sum_zero {A} (f : A -> U) l : (forall x, In x l -> f x = 0) -> sum (map f l) = 0.
Proof. induction l as [|a l IH]; intros H; simpl; auto. rewrite (H a), IH by (simpl; auto; intros; apply H; simpl; auto). apply ua0. Qed.
Lemma sum_ext {A} (f g : A -> U) l : (forall x, In x l -> f x = g x) -> sum (map f l) = sum (map g l).
Proof. intros H. f_equal. now apply map_ext_in. Qed.
Lemma sum_swap {A B} (f : A -> B -> U) l l' : sum (map (fun a => sum (map (f a) l')) l) = sum (map (fun b => sum (map (fun a => f a b) l)) l').
Proof.
  induction l as [|a l IH]; simpl; [symmetry; apply sum_zero; auto|]. rewrite IH, <- sum_add. reflexivity.
Qed.
Lemma fold_left_sum l a : fold_left (o_uadd o) l a = a + sum l.
Proof. revert a. induction l as [|x l IH]; intros a; simpl; [now rewrite ua0|]. rewrite IH. symmetry. apply (pl_assoc o L). Qed.
Lemma sum_neg {A} (f : A -> U) l : sum (map (fun x => - f x) l) = - sum (map f l).
Proof. induction l as [|a l IH]; simpl; [now rewrite uneg0|]. now rewrite IH, uneg_add. Qed.
Lemma sum_mul {A} c (f : A -> U) l : sum (map (fun x => o_umul o c (f x)) l) = o_umul o c (sum (map f l)).
Proof. induction l as [|a l IH]; simpl; [now rewrite umul0|]. now rewrite IH, (pl_mul_add o L). Qed.
Lemma sum_conj {A} (f : A -> U) l : sum (map (fun x => o_conj o (f x)) l) = o_conj o (sum (map f l)).
Proof. induction l as [|a l IH]; simpl; [now rewrite conj0|]. now rewrite IH, (pl_conj_add o L). Qed.
Lemma dot_sum ys u : o_dot o (fold_left (o_yadd o) ys (o_y0 o)) u = sum (map (fun y => o_dot o y u) ys).
Proof.
  assert (X : forall a, o_dot o (fold_left (o_yadd o) ys a) u = o_dot o a u + sum (map (fun y => o_dot o y u) ys)).
  { induction ys as [|y ys IH]; intros a; simpl; [now rewrite ua0|]. rewrite IH, (pl_dot_add o L). symmetry. apply (pl_assoc o L). }
  rewrite X, (pl_dot_zero o L). apply (pl_zero o L).
Qed.
Lemma sum_filter {A} (f : A -> bool) (g : A -> U) l : sum (map g (filter f l)) = sum (map (fun x => if f x then g x else 0) l).
Proof. induction l as [|a l IH]; simpl; auto. destruct (f a); simpl; rewrite IH; auto. now rewrite (pl_zero o L). Qed.
Lemma sum_perm l l' : Permutation l l' -> sum l = sum l'.
Proof. induction 1; simpl; try congruence. rewrite !(pl_assoc o L). f_equal. apply (pl_comm o L). Qed.
Lemma sum_delta (g : nat -> U) a n : (a < n)%nat -> sum (map (fun j => if a =? j then g j else 0) (seq O n)) = g a.
Proof.
  intros H. rewrite (sum_perm _ (map (fun j => if a =? j then g j else 0) (a :: filter (fun j => negb (a =? j)) (seq O n)))).
  - cbn [map usum fold_right]. rewrite Nat.eqb_refl. fold (sum (map (fun j => if a =? j then g j else 0) (filter (fun j => negb (a =? j)) (seq O n)))).
    rewrite sum_zero; [apply ua0|]. intros x Hx. apply filter_In in Hx as [_ Hx]. apply negb_true_iff in Hx. now rewrite Hx.
  - apply Permutation_map. apply NoDup_Permutation; [apply seq_NoDup| |].
    + constructor; [|apply NoDup_filter, seq_NoDup]. intros Hin. apply filter_In in Hin as [_ Hin]. now rewrite Nat.eqb_refl in Hin.
    + intros x. simpl. rewrite filter_In, in_seq, negb_true_iff. destruct (Nat.eqb_spec a x); intuition lia.
Qed.
(** a sum over the indices below n needs only those where something is *)
Lemma sum_support (T : nat -> U) seg n : NoDup seg -> (forall j, In j seg -> (j < n)%nat) -> (forall j, (j < n)%nat -> ~ In j seg -> T j = 0) ->
  sum (map T seg) = sum (map T (seq O n)).
Proof.
  intros HN HR HT. rewrite (sum_perm (map T (seq O n)) (map T (seg ++ filter (fun j => negb (existsb (Nat.eqb j) seg)) (seq O n)))).
  - rewrite map_app, sum_app. rewrite (sum_zero T (filter _ _)); [now rewrite ua0|]. intros x Hx. apply filter_In in Hx as [Hx Hn]. apply in_seq in Hx. apply HT; [lia|].
    intros Hin. apply negb_true_iff in Hn. assert (existsb (Nat.eqb x) seg = true) by (apply existsb_exists; exists x; split; auto; apply Nat.eqb_refl). congruence.
  - apply Permutation_map. apply NoDup_Permutation; [apply seq_NoDup| |].
    + assert (X : forall l : list nat, NoDup seg -> NoDup l -> (forall x, In x l -> ~ In x seg) -> NoDup (seg ++ l)).
      { clear. induction seg as [|a seg IH]; intros l HN Hl H; simpl; auto. apply NoDup_cons_iff in HN as [H1 H2]. constructor.
        - rewrite in_app_iff. intros [?|Hx]; auto. apply (H a Hx). simpl. auto.
        - apply IH; auto. intros x Hx Hs. apply (H x Hx). simpl. auto. }
      apply X; auto; [apply NoDup_filter, seq_NoDup|]. intros x Hx Hs. apply filter_In in Hx as [_ Hn]. apply negb_true_iff in Hn.
      assert (existsb (Nat.eqb x) seg = true) by (apply existsb_exists; exists x; split; auto; apply Nat.eqb_refl). congruence.
    + intros x. rewrite in_app_iff, filter_In, in_seq, negb_true_iff. split.
      * intros Hx. destruct (existsb (Nat.eqb x) seg) eqn:E; [|right; split; [lia|auto]]. apply existsb_exists in E as (y & Hy & E). apply Nat.eqb_eq in E. subst y. auto.
      * intros [Hx|[Hx _]]; [specialize (HR x Hx); lia|lia].
Qed.
End Laws.

(** ** the complex numbers over a commutative ring satisfy the laws *)
Section Complex.
Context {R : Type} (rO rI : R) (radd rmul rsub : R -> R -> R) (ropp : R -> R).
Hypothesis RT : ring_theory rO rI radd rmul rsub ropp (@eq R).
Add Ring Rring : RT.
(** real and imaginary part *)
Definition cplx : Type := (R * R)%type.
Definition cadd (a b : cplx) : cplx := (radd (fst a) (fst b), radd (snd a) (snd b)).
Definition cneg (a : cplx) : cplx := (ropp (fst a), ropp (snd a)).
Definition cmul (a b : cplx) : cplx := (rsub (rmul (fst a) (fst b)) (rmul (snd a) (snd b)), radd (rmul (fst a) (snd b)) (rmul (snd a) (fst b))).
Definition cconj (a : cplx) : cplx := (fst a, ropp (snd a)).
Definition c0 : cplx := (rO, rO).
(** symmetric calculation *)
Definition sym_ops : phasor_ops cplx cplx := mkOps cadd c0 c0 cadd cneg cmul cconj cmul.
Lemma sym_laws : phasor_laws sym_ops.
Proof.
  constructor; simpl; unfold cadd, cneg, cmul, cconj, c0; intros; repeat match goal with a : cplx |- _ => destruct a end; cbn [fst snd]; apply (f_equal2 pair); ring.
Qed.
(** asymmetric calculation: three phases, 3x3 matrices by rows *)
Definition three (A : Type) : Type := (A * A * A)%type.
Definition map3 {A B} (f : A -> B) (a : three A) : three B := let '(x, y, z) := a in (f x, f y, f z).
Definition zip3 {A B C} (f : A -> B -> C) (a : three A) (b : three B) : three C := let '(x, y, z) := a in let '(x', y', z') := b in (f x x', f y y', f z z').
Definition dot3 (r u : three cplx) : cplx := let '(x, y, z) := zip3 cmul r u in cadd (cadd x y) z.
Definition asym_ops : phasor_ops (three (three cplx)) (three cplx) :=
  mkOps (zip3 (zip3 cadd)) ((c0, c0, c0), (c0, c0, c0), (c0, c0, c0)) (c0, c0, c0) (zip3 cadd) (map3 cneg) (zip3 cmul) (map3 cconj) (fun y u => map3 (fun r => dot3 r u) y).
Lemma asym_laws : phasor_laws asym_ops.
Proof.
  constructor; simpl; unfold dot3, zip3, map3, cadd, cneg, cmul, cconj, c0, three, cplx; intros;
    repeat match goal with a : (_ * _)%type |- _ => destruct a end; cbn [fst snd]; repeat apply (f_equal2 pair); ring.
Qed.
End Complex.
