(** The real numbers as numbers of the Newton-Raphson power flow, and the derivatives of complex functions of a real parameter. *)
From Coq Require Import Reals Lra Field.
From Verif Require Import Common Numbers NumbersPair NewtonSpec.
Local Open Scope R_scope.

Definition real_num : num_ops R := mkNum 0 1 Rplus Rmult Rminus Ropp Rdiv Rinv.
Lemma real_num_laws : num_laws real_num.
Proof. constructor. exact Rfield. Qed.
Definition real_abs (z : R * R) : R := sqrt (fst z * fst z + snd z * snd z).
Definition real_arg (z : R * R) : R :=
  if Rlt_dec 0 (fst z) then atan (snd z / fst z)
  else if Rlt_dec (fst z) 0 then atan (snd z / fst z) + PI
  else if Rlt_dec 0 (snd z) then PI / 2 else - (PI / 2).
Definition real_gtb (x y : R) : bool := if Rlt_dec y x then true else false.
Definition real_root : R * R := (- (1 / 2), sqrt 3 / 2).
Lemma sqrt_ratio x y : x <> 0 -> sqrt (1 + Rsqr (y / x)) = sqrt (x * x + y * y) / Rabs x.
Proof.
  intros Hx. assert (H : 1 + Rsqr (y / x) = (x * x + y * y) / (Rsqr x)) by (unfold Rsqr; field; exact Hx). rewrite H.
  rewrite sqrt_div_alt by (apply Rlt_0_sqr; exact Hx). rewrite sqrt_Rsqr_abs. reflexivity.
Qed.
Lemma real_polar z : (real_abs z * cos (real_arg z), real_abs z * sin (real_arg z)) = z.
Proof.
  destruct z as [x y]. unfold real_abs, real_arg. cbn [fst snd].
  assert (N : x <> 0 -> sqrt (x * x + y * y) <> 0).
  { intros Hx E. apply sqrt_eq_0 in E; [|nra]. apply Hx. nra. }
  destruct (Rlt_dec 0 x) as [H|H]; [|destruct (Rlt_dec x 0) as [H'|H']].
  - rewrite cos_atan, sin_atan, sqrt_ratio by lra. rewrite Rabs_right by lra. specialize (N ltac:(lra)). f_equal; field; lra.
  - rewrite neg_cos, neg_sin, cos_atan, sin_atan, sqrt_ratio by lra. rewrite Rabs_left by lra. specialize (N ltac:(lra)). f_equal; field; repeat split; lra.
  - assert (x = 0) by lra. subst x. replace (0 * 0 + y * y) with (Rsqr y) by (unfold Rsqr; ring). rewrite sqrt_Rsqr_abs. destruct (Rlt_dec 0 y) as [Hy|Hy].
    + rewrite cos_PI2, sin_PI2, Rabs_right by lra. f_equal; ring.
    + rewrite cos_neg, sin_neg, cos_PI2, sin_PI2. f_equal; [ring|]. destruct (Req_dec y 0) as [->|Hn]; [rewrite Rabs_R0; ring|]. rewrite Rabs_left by lra. ring.
Qed.
Lemma real_newton_laws tol : 0 <= tol -> newton_laws real_num real_abs real_arg cos sin real_gtb Rabs tol real_root.
Proof.
  intros Ht. constructor.
  - exact real_num_laws.
  - cbn. intros x y H. split; nra.
  - cbn. lra.
  - assert (H : sqrt 3 * sqrt 3 = 3) by (apply sqrt_sqrt; lra). unfold real_root, cadd, cmul. cbn. apply f_equal2; nra.
  - cbn. intros t. pose proof (sin2_cos2 t) as H. unfold Rsqr in H. lra.
  - exact real_polar.
  - intros t. unfold real_gtb. cbn. destruct (Rlt_dec 0 t); [lra|discriminate].
  - intros t. unfold real_gtb. cbn. destruct (Rlt_dec tol (Rabs t)) as [H|]; [|discriminate]. intros _ ->. rewrite Rabs_R0 in H. lra.
Qed.

(** ** Derivatives at 0 *)
Local Notation cxo := (pair_num real_num).
Definition cderiv (f : R -> R * R) (d : R * R) : Prop := derivable_pt_lim (fun t => fst (f t)) 0 (fst d) /\ derivable_pt_lim (fun t => snd (f t)) 0 (snd d).
Lemma deriv_is f x l l' : derivable_pt_lim f x l -> l = l' -> derivable_pt_lim f x l'. Proof. intros H <-. exact H. Qed.
Lemma cderiv_is f d d' : cderiv f d -> d = d' -> cderiv f d'. Proof. intros H <-. exact H. Qed.
Lemma cderiv_const z : cderiv (fun _ => z) (0, 0).
Proof. split; apply derivable_pt_lim_const. Qed.
Lemma cderiv_add f g d e : cderiv f d -> cderiv g e -> cderiv (fun t => cadd real_num (f t) (g t)) (cadd real_num d e).
Proof. intros [F1 F2] [G1 G2]. split; [exact (derivable_pt_lim_plus _ _ _ _ _ F1 G1)|exact (derivable_pt_lim_plus _ _ _ _ _ F2 G2)]. Qed.
Lemma cderiv_sub f g d e : cderiv f d -> cderiv g e -> cderiv (fun t => csub real_num (f t) (g t)) (csub real_num d e).
Proof. intros [F1 F2] [G1 G2]. split; [exact (derivable_pt_lim_minus _ _ _ _ _ F1 G1)|exact (derivable_pt_lim_minus _ _ _ _ _ F2 G2)]. Qed.
Lemma cderiv_conj f d : cderiv f d -> cderiv (fun t => cconj real_num (f t)) (cconj real_num d).
Proof. intros [F1 F2]. split; [exact F1|exact (derivable_pt_lim_opp _ _ _ F2)]. Qed.
Lemma cderiv_mul f g d e : cderiv f d -> cderiv g e -> cderiv (fun t => cmul real_num (f t) (g t)) (cadd real_num (cmul real_num d (g 0)) (cmul real_num (f 0) e)).
Proof.
  intros [F1 F2] [G1 G2]. split; cbn.
  - eapply deriv_is; [exact (derivable_pt_lim_minus _ _ _ _ _ (derivable_pt_lim_mult _ _ _ _ _ F1 G1) (derivable_pt_lim_mult _ _ _ _ _ F2 G2))|]. cbn. unfold re, im. ring.
  - eapply deriv_is; [exact (derivable_pt_lim_plus _ _ _ _ _ (derivable_pt_lim_mult _ _ _ _ _ F1 G2) (derivable_pt_lim_mult _ _ _ _ _ F2 G1))|]. cbn. unfold re, im. ring.
Qed.
Lemma cderiv_sum {A} (f : A -> R -> R * R) (d : A -> R * R) l : (forall i, In i l -> cderiv (f i) (d i)) ->
  cderiv (fun t => nsum cxo (map (fun i => f i t) l)) (nsum cxo (map d l)).
Proof.
  induction l as [|i l IH]; intros H; [exact (cderiv_const (0, 0))|]. apply (cderiv_add (f i) (fun t => nsum cxo (map (fun i => f i t) l))); [apply H; left; reflexivity|].
  apply IH. intros j Hj. apply H. right. exact Hj.
Qed.
Lemma deriv_line a b : derivable_pt_lim (fun t => a + t * b) 0 b.
Proof.
  eapply deriv_is; [exact (derivable_pt_lim_plus _ _ _ _ _ (derivable_pt_lim_const a 0) (derivable_pt_lim_mult _ _ _ _ _ (derivable_pt_lim_id 0) (derivable_pt_lim_const b 0)))|].
  cbn. unfold fct_cte, id. ring.
Qed.
(** a voltage that turns by [dth] and grows by the part [dv] *)
Lemma cderiv_phasor th dth V dv :
  cderiv (fun t => ((V + t * (V * dv)) * cos (th + t * dth), (V + t * (V * dv)) * sin (th + t * dth))) (cmul real_num (V * cos th, V * sin th) (dv, dth)).
Proof.
  assert (E : th + 0 * dth = th) by ring.
  assert (Hc : derivable_pt_lim (fun t => cos (th + t * dth)) 0 (- sin th * dth)).
  { eapply deriv_is; [exact (derivable_pt_lim_comp (fun t => th + t * dth) cos 0 _ _ (deriv_line th dth) (derivable_pt_lim_cos _))|]. cbn. rewrite E. reflexivity. }
  assert (Hs : derivable_pt_lim (fun t => sin (th + t * dth)) 0 (cos th * dth)).
  { eapply deriv_is; [exact (derivable_pt_lim_comp (fun t => th + t * dth) sin 0 _ _ (deriv_line th dth) (derivable_pt_lim_sin _))|]. cbn. rewrite E. reflexivity. }
  split; cbn [fst snd].
  - eapply deriv_is; [exact (derivable_pt_lim_mult _ _ _ _ _ (deriv_line V (V * dv)) Hc)|]. cbn. unfold re, im. cbn. rewrite E. ring.
  - eapply deriv_is; [exact (derivable_pt_lim_mult _ _ _ _ _ (deriv_line V (V * dv)) Hs)|]. cbn. unfold re, im. cbn. rewrite E. ring.
Qed.
