(** C57: the derivatives of the measured quantities, and the rows of the Newton-Raphson state estimation in a symmetric calculation. *)
From Coq Require Import Reals Lra Field.
From Verif Require Import Common Numbers NumbersPair LinearSE NewtonReals NewtonSE NewtonSESpec.
Local Open Scope R_scope.

Local Notation cxo := (pair_num real_num). Local Notation conj := (cconj real_num). Local Notation ctimes := (cmul real_num). Local Notation cplus := (cadd real_num).
Local Notation sum f l := (nsum real_num (map f l)).
Definition Lr : num_laws real_num := real_num_laws.

(** ** Sums *)
Lemma sum_cons {A} (f : A -> R) i l : sum f (i :: l) = f i + sum f l. Proof. reflexivity. Qed.
Lemma sum_nil {A} (f : A -> R) : sum f (@nil A) = 0. Proof. reflexivity. Qed.
Lemma sum_app {A} (f : A -> R) l l' : sum f (l ++ l') = sum f l + sum f l'. Proof. rewrite map_app. apply (nsum_app real_num Lr). Qed.
Lemma sum_flat {A B} (F : B -> R) (h : A -> list B) l : sum F (flat_map h l) = sum (fun i => sum F (h i)) l.
Proof. induction l as [|i l IH]; [reflexivity|]. cbn [flat_map]. rewrite sum_app, IH. reflexivity. Qed.
Lemma sum_pick (f : nat -> R) n b : (b < n)%nat -> sum (fun j => if (b =? j)%nat then f j else 0) (seq 0 n) = f b.
Proof.
  intros Hb. assert (G : forall l, NoDup l -> In b l -> sum (fun j => if (b =? j)%nat then f j else 0) l = f b).
  { induction l as [|j l IH]; intros N I; [contradiction|]. inversion N as [|? ? N1 N2]; subst. rewrite sum_cons. destruct (b =? j)%nat eqn:E.
    - apply Nat.eqb_eq in E. subst j. rewrite (nsum_zero real_num Lr); [cbn; ring|]. intros j Hj. destruct (b =? j)%nat eqn:E; [apply Nat.eqb_eq in E; subst; contradiction|reflexivity].
    - rewrite IH; [ring|exact N2|]. destruct I as [->|I]; [rewrite Nat.eqb_refl in E; discriminate|exact I]. }
  apply G; [apply seq_NoDup|apply in_seq; lia].
Qed.
Lemma sum_none {A} (l : list A) : sum (fun _ => 0) l = 0. Proof. apply (nsum_zero real_num Lr). reflexivity. Qed.
Lemma sum_ext {A} (f g : A -> R) l : (forall i, In i l -> f i = g i) -> sum f l = sum g l. Proof. apply nsum_ext. Qed.
Lemma sum_plus {A} (f g : A -> R) l : sum (fun i => f i + g i) l = sum f l + sum g l. Proof. apply (nsum_add real_num Lr). Qed.
Lemma sum_minus {A} (f g : A -> R) l : sum (fun i => f i - g i) l = sum f l - sum g l. Proof. apply (nsum_sub real_num Lr). Qed.
Lemma sum_times {A} (f : A -> R) k l : sum (fun i => k * f i) l = k * sum f l. Proof. apply (nsum_scale real_num Lr). Qed.
Lemma sum_swap {A B} (f : A -> B -> R) l l' : sum (fun a => sum (f a) l') l = sum (fun b => sum (fun a => f a b) l) l'. Proof. apply (nsum_swap real_num Lr). Qed.
Lemma sum_zero {A} (f : A -> R) l : (forall i, In i l -> f i = 0) -> sum f l = 0. Proof. apply (nsum_zero real_num Lr). Qed.
(** a sum in which the term at [c] is changed *)
Lemma sum_change {A} (F : nat -> A -> R) (k : nat -> A) (h : A -> A) n c : (c < n)%nat ->
  sum (fun j => F j (if (j =? c)%nat then h (k j) else k j)) (seq 0 n) = sum (fun j => F j (k j)) (seq 0 n) + (F c (h (k c)) - F c (k c)).
Proof.
  intros Hc. rewrite <- (sum_pick (fun j => F j (h (k j)) - F j (k j)) n c Hc), <- sum_plus. apply sum_ext. intros j _. rewrite (Nat.eqb_sym c j). destruct (j =? c)%nat; ring.
Qed.

(** ** The derivatives *)
Section Slopes.
Variables (np n n_branch : nat) (branch_bus : nat -> bool -> option nat) (shunts : nat -> list nat).
Variables (branch_param : nat -> bool -> bool -> nat -> nat -> R * R) (shunt_param : nat -> nat -> nat -> R * R) (ybus : nat -> nat -> nat -> nat -> R * R).
Local Notation flow_at := (NewtonSESpec.flow_at np branch_bus branch_param). Local Notation injected := (NewtonSESpec.injected np n ybus).
Local Notation at_side := (NewtonSESpec.at_side branch_bus). Local Notation through := (NewtonSESpec.through np).
Local Notation quantity_at := (NewtonSESpec.quantity_at np n branch_bus branch_param shunt_param ybus).
Definition dphasor (x e : volts) (b p : nat) : R * R :=
  (mag e b p * cos (ang x b p) - mag x b p * sin (ang x b p) * ang e b p, mag e b p * sin (ang x b p) + mag x b p * cos (ang x b p) * ang e b p).
Definition ddirection (x e : volts) (b p : nat) : R * R := (- sin (ang x b p) * ang e b p, cos (ang x b p) * ang e b p).
Definition dproduct (a da i di : R * R) : R * R := cplus (ctimes da (conj i)) (ctimes a (conj di)).
Definition D (x : volts) (q : quantity) (e : volts) : R :=
  match q with
  | magnitude b p => mag e b p
  | angle b p => ang e b p
  | branch_power_of k side c p => take c (dproduct (at_side (phasor_of x) k side p) (at_side (dphasor x e) k side p) (flow_at (phasor_of x) k side p) (flow_at (dphasor x e) k side p))
  | local_current_of k side c p => take c (dproduct (at_side (direction_of x) k side p) (at_side (ddirection x e) k side p) (flow_at (phasor_of x) k side p) (flow_at (dphasor x e) k side p))
  | global_current_of k side c p => take c (flow_at (dphasor x e) k side p)
  | shunt_power_of b k c p => - take c (dproduct (phasor_of x b p) (dphasor x e b p) (through (shunt_param k) (phasor_of x b) p) (through (shunt_param k) (dphasor x e b) p))
  | injection_of b c p => take c (dproduct (phasor_of x b p) (dphasor x e b p) (injected (phasor_of x) b p) (injected (dphasor x e) b p))
  end.
Lemma along_0 x e b p : ang (along x e 0) b p = ang x b p /\ mag (along x e 0) b p = mag x b p.
Proof. cbn. split; ring. Qed.
Lemma cderiv_direction x e b p : cderiv (fun t => direction_of (along x e t) b p) (ddirection x e b p).
Proof.
  assert (E : ang x b p + 0 * ang e b p = ang x b p) by ring. split; cbn [fst snd direction_of ddirection along ang].
  - eapply deriv_is; [exact (derivable_pt_lim_comp (fun t => ang x b p + t * ang e b p) cos 0 _ _ (deriv_line _ _) (derivable_pt_lim_cos _))|]. cbv beta. rewrite E. reflexivity.
  - eapply deriv_is; [exact (derivable_pt_lim_comp (fun t => ang x b p + t * ang e b p) sin 0 _ _ (deriv_line _ _) (derivable_pt_lim_sin _))|]. cbv beta. rewrite E. reflexivity.
Qed.
Lemma cderiv_phasor_of x e b p : cderiv (fun t => phasor_of (along x e t) b p) (dphasor x e b p).
Proof.
  destruct (cderiv_direction x e b p) as [H1 H2]. cbn [direction_of fst snd] in H1, H2.
  destruct (along_0 x e b p) as [A M]. split; unfold phasor_of; cbn [fst snd].
  - eapply deriv_is; [exact (derivable_pt_lim_mult _ _ _ _ _ (deriv_line (mag x b p) (mag e b p)) H1)|]. cbv beta. rewrite A. unfold dphasor, ddirection. cbn [fst snd]. ring.
  - eapply deriv_is; [exact (derivable_pt_lim_mult _ _ _ _ _ (deriv_line (mag x b p) (mag e b p)) H2)|]. cbv beta. rewrite A. unfold dphasor, ddirection. cbn [fst snd]. ring.
Qed.
Lemma cderiv_through y (f : nat -> R -> R * R) d p : (forall q, cderiv (f q) (d q)) -> cderiv (fun t => through y (fun q => f q t) p) (through y d p).
Proof.
  intros H. apply (cderiv_sum (fun q t => ctimes (y p q) (f q t)) (fun q => ctimes (y p q) (d q))). intros q _.
  eapply cderiv_is; [exact (cderiv_mul _ _ _ _ (cderiv_const (y p q)) (H q))|]. apply pair_eq; cbn; ring.
Qed.
Lemma cderiv_flow (f : nat -> nat -> R -> R * R) d k side p : (forall b q, cderiv (f b q) (d b q)) -> cderiv (fun t => flow_at (fun b q => f b q t) k side p) (flow_at d k side p).
Proof.
  intros H. unfold NewtonSESpec.flow_at. apply (cderiv_add (fun t => match branch_bus k side with Some j => through (branch_param k side side) (fun q => f j q t) p | None => (0, 0) end)
    (fun t => match branch_bus k (negb side) with Some j => through (branch_param k side (negb side)) (fun q => f j q t) p | None => (0, 0) end)).
  - destruct (branch_bus k side); [apply cderiv_through; apply H|apply cderiv_const].
  - destruct (branch_bus k (negb side)); [apply cderiv_through; apply H|apply cderiv_const].
Qed.
Lemma cderiv_side (f : nat -> nat -> R -> R * R) d k side p : (forall b q, cderiv (f b q) (d b q)) -> cderiv (fun t => at_side (fun b q => f b q t) k side p) (at_side d k side p).
Proof. intros H. unfold NewtonSESpec.at_side. destruct (branch_bus k side); [apply H|apply cderiv_const]. Qed.
Lemma cderiv_injected (f : nat -> nat -> R -> R * R) d b p : (forall b q, cderiv (f b q) (d b q)) -> cderiv (fun t => injected (fun b q => f b q t) b p) (injected d b p).
Proof. intros H. apply (cderiv_sum (fun j t => through (ybus b j) (fun q => f j q t) p)). intros j _. apply cderiv_through. apply H. Qed.
Lemma cderiv_product f g d e : cderiv f d -> cderiv g e -> cderiv (fun t => ctimes (f t) (conj (g t))) (dproduct (f 0) d (g 0) e).
Proof. intros F G. exact (cderiv_mul _ _ _ _ F (cderiv_conj _ _ G)). Qed.
Lemma cderiv_take c f d : cderiv f d -> derivable_pt_lim (fun t => take c (f t)) 0 (take c d).
Proof. intros [H1 H2]. destruct c; [exact H1|exact H2]. Qed.
Lemma phasor_0 x e b p : phasor_of (along x e 0) b p = phasor_of x b p.
Proof. unfold phasor_of. destruct (along_0 x e b p) as [-> ->]. reflexivity. Qed.
Lemma direction_0 x e b p : direction_of (along x e 0) b p = direction_of x b p.
Proof. unfold direction_of. destruct (along_0 x e b p) as [-> _]. reflexivity. Qed.
Lemma through_ext y f g p : (forall q, f q = g q) -> through y f p = through y g p.
Proof. intros H. apply nsum_ext. intros q _. rewrite H. reflexivity. Qed.
Lemma flow_ext f g k side p : (forall b q, f b q = g b q) -> flow_at f k side p = flow_at g k side p.
Proof.
  intros H. unfold NewtonSESpec.flow_at. f_equal; [destruct (branch_bus k side)|destruct (branch_bus k (negb side))]; try reflexivity; apply through_ext; intros q; apply H.
Qed.
Lemma side_ext f g k side p : (forall b q, f b q = g b q) -> at_side f k side p = at_side g k side p.
Proof. intros H. unfold NewtonSESpec.at_side. destruct (branch_bus k side); [apply H|reflexivity]. Qed.
Lemma injected_ext f g b p : (forall b q, f b q = g b q) -> injected f b p = injected g b p.
Proof. intros H. apply nsum_ext. intros j _. apply through_ext. intros q. apply H. Qed.
Theorem slope_D q x e : NewtonSESpec.slope np n branch_bus branch_param shunt_param ybus q x e (D x q e).
Proof.
  unfold NewtonSESpec.slope. destruct q as [b p|b p|k side c p|k side c p|k side c p|b k c p|b c p]; cbn [quantity_at D].
  - apply deriv_line.
  - apply deriv_line.
  - apply (cderiv_take c (fun t => ctimes (at_side (phasor_of (along x e t)) k side p) (conj (flow_at (phasor_of (along x e t)) k side p)))).
    eapply cderiv_is; [apply cderiv_product; [apply (cderiv_side (fun b q t => phasor_of (along x e t) b q)); apply cderiv_phasor_of|
      apply (cderiv_flow (fun b q t => phasor_of (along x e t) b q)); apply cderiv_phasor_of]|].
    cbv beta. rewrite (side_ext _ (phasor_of x)), (flow_ext _ (phasor_of x)) by (intros; apply phasor_0). reflexivity.
  - apply (cderiv_take c (fun t => ctimes (at_side (direction_of (along x e t)) k side p) (conj (flow_at (phasor_of (along x e t)) k side p)))).
    eapply cderiv_is; [apply cderiv_product; [apply (cderiv_side (fun b q t => direction_of (along x e t) b q)); apply cderiv_direction|
      apply (cderiv_flow (fun b q t => phasor_of (along x e t) b q)); apply cderiv_phasor_of]|].
    cbv beta. rewrite (side_ext _ (direction_of x)) by (intros; apply direction_0). rewrite (flow_ext _ (phasor_of x)) by (intros; apply phasor_0). reflexivity.
  - apply (cderiv_take c (fun t => flow_at (phasor_of (along x e t)) k side p)). apply (cderiv_flow (fun b q t => phasor_of (along x e t) b q)). apply cderiv_phasor_of.
  - apply derivable_pt_lim_opp. apply (cderiv_take c (fun t => ctimes (phasor_of (along x e t) b p) (conj (through (shunt_param k) (phasor_of (along x e t) b) p)))).
    eapply cderiv_is; [apply cderiv_product; [apply cderiv_phasor_of|apply (cderiv_through (shunt_param k) (fun q t => phasor_of (along x e t) b q)); intros q; apply cderiv_phasor_of]|].
    cbv beta. rewrite phasor_0, (through_ext _ _ (phasor_of x b)) by (intros; apply phasor_0). reflexivity.
  - apply (cderiv_take c (fun t => ctimes (phasor_of (along x e t) b p) (conj (injected (phasor_of (along x e t)) b p)))).
    eapply cderiv_is; [apply cderiv_product; [apply cderiv_phasor_of|apply (cderiv_injected (fun b q t => phasor_of (along x e t) b q)); apply cderiv_phasor_of]|].
    cbv beta. rewrite phasor_0, (injected_ext _ (phasor_of x)) by (intros; apply phasor_0). reflexivity.
Qed.
End Slopes.
