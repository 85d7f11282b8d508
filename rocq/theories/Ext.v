(** Numbers with infinities and not-a-number, as doubles have them, over the exact rationals: the model of double where rounding, overflow, subnormal numbers and the sign of
    zero are left out. Qc has Leibniz equality. *)
From Coq Require Import QArith Qcanon Permutation.
From Verif Require Import Common.
Local Open Scope Qc_scope.

Inductive ext : Type := Fin (q : Qc) | PInf | NInf | NaN.
Definition eneg (x : ext) : ext := match x with Fin q => Fin (- q) | PInf => NInf | NInf => PInf | NaN => NaN end.
Definition eadd (x y : ext) : ext :=
  match x, y with
  | Fin a, Fin b => Fin (a + b)
  | NaN, _ | _, NaN | PInf, NInf | NInf, PInf => NaN
  | PInf, _ | _, PInf => PInf
  | NInf, _ | _, NInf => NInf
  end.
Definition esub (x y : ext) : ext := eadd x (eneg y).
(** the sign of a number: None for zero *)
Definition qsign (q : Qc) : option bool := match q ?= 0 with Eq => None | Lt => Some false | Gt => Some true end.
Definition einf (s : option bool) : ext := match s with Some true => PInf | Some false => NInf | None => NaN end.
Definition flip (s : option bool) : option bool := option_map negb s.
Definition emul (x y : ext) : ext :=
  match x, y with
  | Fin a, Fin b => Fin (a * b)
  | NaN, _ | _, NaN => NaN
  | PInf, PInf | NInf, NInf => PInf
  | PInf, NInf | NInf, PInf => NInf
  | PInf, Fin q | Fin q, PInf => einf (qsign q)
  | NInf, Fin q | Fin q, NInf => einf (flip (qsign q))
  end.
(** division by zero is by +0 *)
Definition ediv (x y : ext) : ext :=
  match x, y with
  | Fin a, Fin b => match qsign b with Some _ => Fin (a / b) | None => einf (qsign a) end
  | NaN, _ | _, NaN => NaN
  | Fin _, _ => Fin 0
  | PInf, Fin b => match qsign b with Some false => NInf | _ => PInf end
  | NInf, Fin b => match qsign b with Some false => PInf | _ => NInf end
  | _, _ => NaN
  end.
(** std::isnormal, std::isinf, std::isnan, == 0.0 *)
Definition normal (x : ext) : bool := match x with Fin q => match qsign q with None => false | _ => true end | _ => false end.
Definition isinf (x : ext) : bool := match x with PInf | NInf => true | _ => false end.
Definition isnan (x : ext) : bool := match x with NaN => true | _ => false end.
Definition iszero (x : ext) : bool := match x with Fin q => match qsign q with None => true | _ => false end | _ => false end.
(** std::min a b: b < a ? b : a *)
Definition elt (x y : ext) : bool :=
  match x, y with
  | Fin a, Fin b => match a ?= b with Lt => true | _ => false end
  | NInf, Fin _ | NInf, PInf | Fin _, PInf => true
  | _, _ => false
  end.
Definition emin (x y : ext) : ext := if elt y x then y else x.

Lemma qsign_none q : qsign q = None <-> q = 0.
Proof. unfold qsign. destruct (q ?= 0) eqn:E; [apply Qceq_alt in E; split; auto|apply Qclt_alt in E; split; [discriminate|]; intros ->; now apply Qclt_not_eq in E|apply Qcgt_alt in E; split; [discriminate|]; intros ->; now apply Qclt_not_eq in E]. Qed.
Lemma qsign_pos q : 0 < q -> qsign q = Some true.
Proof. intros H. unfold qsign. apply Qcgt_alt in H. now rewrite H. Qed.
Lemma ediv_fin a b : b <> 0 -> ediv (Fin a) (Fin b) = Fin (a / b).
Proof. intros H. cbn. destruct (qsign b) eqn:E; [reflexivity|]. apply qsign_none in E. contradiction. Qed.
Lemma normal_fin q : normal (Fin q) = true <-> q <> 0.
Proof. cbn. destruct (qsign q) eqn:E; (split; [try discriminate|try reflexivity]). - intros _ ->. now rewrite (proj2 (qsign_none 0) eq_refl) in E. - intros N. apply qsign_none in E. contradiction. Qed.
Lemma normal_zero : normal (Fin 0) = false.
Proof. reflexivity. Qed.

(** ** Order of Qc *)
Lemma Qc_pos_ne q : 0 < q -> q <> 0.
Proof. intros H ->. now apply Qclt_not_eq in H. Qed.
Lemma Qc_inv_pos q : 0 < q -> 0 < / q.
Proof. intros H. unfold Qclt in *. change (0 < Qred (/ this q))%Q. change (0 < this q)%Q in H. rewrite Qred_correct. now apply Qinv_lt_0_compat. Qed.
Lemma Qc_add_pos a b : 0 < a -> 0 <= b -> 0 < a + b.
Proof. intros Ha Hb. apply Qclt_le_trans with (a + 0); [now rewrite Qcplus_0_r|]. apply Qcplus_le_compat; [apply Qcle_refl|assumption]. Qed.
Lemma Qc_add_nonneg a b : 0 <= a -> 0 <= b -> 0 <= a + b.
Proof. intros Ha Hb. apply Qcle_trans with (0 + 0); [rewrite Qcplus_0_l; apply Qcle_refl|]. now apply Qcplus_le_compat. Qed.
Lemma Qc_mul_nonneg a b : 0 <= a -> 0 <= b -> 0 <= a * b.
Proof. intros Ha Hb. apply Qcle_trans with (0 * b); [rewrite Qcmult_0_l; apply Qcle_refl|]. now apply Qcmult_le_compat_r. Qed.
Lemma Qc_square_nonneg a : 0 <= a * a.
Proof.
  destruct (Qclt_le_dec a 0) as [H|H]; [|now apply Qc_mul_nonneg]. replace (a * a) with ((- a) * (- a)) by ring. assert (0 <= - a) by (apply Qcopp_le_compat in H || (apply Qclt_le_weak in H; apply Qcopp_le_compat in H); replace (-0) with 0 in H by reflexivity; assumption).
  now apply Qc_mul_nonneg.
Qed.
Lemma Qc_sub_nonneg a b : a <= b <-> 0 <= b - a.
Proof. split; [apply Qcle_minus_iff|]. intros H. now apply Qcle_minus_iff. Qed.

(** ** Sums *)
Definition qsum (l : list Qc) : Qc := fold_right Qcplus 0 l.
Lemma qsum_app a b : qsum (a ++ b) = qsum a + qsum b.
Proof. induction a as [|x a IH]; cbn; [now rewrite Qcplus_0_l|]. fold (qsum (a ++ b)) (qsum a). rewrite IH. ring. Qed.
Lemma qsum_perm a b : Permutation a b -> qsum a = qsum b.
Proof. induction 1 as [|x a b H IH|x y a|a b c H1 IH1 H2 IH2]; [reflexivity|change (x + qsum a = x + qsum b); now rewrite IH|change (y + (x + qsum a) = x + (y + qsum a)); ring|congruence]. Qed.
Lemma qsum_cons x l : qsum (x :: l) = x + qsum l.
Proof. reflexivity. Qed.
Lemma qsum_ext {A} (f g : A -> Qc) l : (forall x, In x l -> f x = g x) -> qsum (map f l) = qsum (map g l).
Proof. induction l as [|x l IH]; intros H; [reflexivity|]. cbn [map]. rewrite !qsum_cons, (H x (or_introl eq_refl)), IH; [reflexivity|]. intros. apply H. now right. Qed.
Lemma qsum_add {A} (f g : A -> Qc) l : qsum (map (fun x => f x + g x) l) = qsum (map f l) + qsum (map g l).
Proof. induction l as [|x l IH]; [reflexivity|]. cbn [map]. rewrite !qsum_cons, IH. ring. Qed.
Lemma qsum_scale {A} (f : A -> Qc) c l : qsum (map (fun x => c * f x) l) = c * qsum (map f l).
Proof. induction l as [|x l IH]; cbn [map]; [cbn; ring|]. rewrite !qsum_cons, IH. ring. Qed.
Lemma qsum_zero {A} (f : A -> Qc) l : (forall x, In x l -> f x = 0) -> qsum (map f l) = 0.
Proof. intros H. induction l as [|x l IH]; [reflexivity|]. cbn [map]. rewrite qsum_cons, H by now left. rewrite IH; [ring|]. intros. apply H. now right. Qed.
Lemma qsum_nonneg l : (forall x, In x l -> 0 <= x) -> 0 <= qsum l.
Proof. induction l as [|x l IH]; intros H; [apply Qcle_refl|]. rewrite qsum_cons. apply Qc_add_nonneg; [apply H; now left|]. apply IH. intros. apply H. now right. Qed.
Lemma qsum_pos l x : (forall x, In x l -> 0 <= x) -> In x l -> 0 < x -> 0 < qsum l.
Proof.
  induction l as [|y l IH]; intros H Hx P; [destruct Hx|]. rewrite qsum_cons. destruct Hx as [->|Hx]; [apply Qc_add_pos; [assumption|]; apply qsum_nonneg; intros; apply H; now right|].
  rewrite Qcplus_comm. apply Qc_add_pos; [|apply H; now left]. apply IH; [intros; apply H; now right|assumption..].
Qed.
