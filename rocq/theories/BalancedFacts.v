(** Lifting a symmetric power flow to three phases. *)
From Coq Require Import Field.
From Verif Require Import Common Numbers ShortCircuit ShortCircuitFacts PowerFlow PowerFlowSpec PowerFlowFacts BalancedSpec.

Section Facts.
Context {C : Type} (o : num_ops C) (cj cabs : C -> C) (a : C).
Hypothesis B : balanced_laws o cj cabs a.
Let P : pf_laws o cj cabs a := ba_pf o cj cabs a B.
Let L : num_laws o := pf_num o cj cabs a P.
Add Field NumFieldB : (nl_field o L).
Local Notation "a + b" := (n_add o a b) : num_scope. Local Notation "a * b" := (n_mul o a b) : num_scope. Local Notation "a - b" := (n_sub o a b) : num_scope.
Local Notation "a / b" := (n_div o a b) : num_scope. Local Notation "- a" := (n_opp o a) : num_scope.
Local Notation zero := (n_zero o). Local Notation one := (n_one o). Local Notation three := (n_add o (n_add o one one) one).
Local Open Scope num_scope.
Local Notation rot := (rotated o a).

Definition unit (p : nat) : C := rot p one.
Lemma rot_unit p x : rot p x = unit p * x.
Proof. unfold unit. destruct p as [|[|p]]; cbn [rotated]; ring. Qed.
Lemma unit_circle p : unit p * cj (unit p) = one.
Proof.
  unfold unit. pose proof (a_cube o cj cabs a P) as K. assert (K' : cj a = a * a) by apply (ba_conj o cj cabs a B).
  destruct p as [|[|p]]; cbn [rotated]; rewrite ?(pf_conj_mul o cj cabs a P), ?(conj_one o cj cabs a P), ?K'.
  - ring.
  - transitivity ((a * a * a) * (a * a * a)); [ring|]. rewrite K. ring.
  - transitivity (a * a * a); [ring|exact K].
Qed.
Lemma unit_nz p : unit p <> zero.
Proof. intros E. pose proof (unit_circle p) as H. rewrite E in H. apply (F_1_neq_0 (nl_field o L)). rewrite <- H. ring. Qed.
Lemma conj_unit p : cj (unit p) = one / unit p.
Proof. rewrite <- (unit_circle p). field. apply unit_nz. Qed.
Lemma abs_unit p x : cabs (unit p * x) = cabs x.
Proof.
  unfold unit. destruct p as [|[|p]]; cbn [rotated].
  - f_equal. ring.
  - replace (a * a * one * x) with (x * a * a) by ring. now rewrite !(ba_abs o cj cabs a B).
  - replace (a * one * x) with (x * a) by ring. apply (ba_abs o cj cabs a B).
Qed.
Lemma abs_rot p x : cabs (rot p x) = cabs x. Proof. rewrite rot_unit. apply abs_unit. Qed.
Lemma rot_zero p : rot p zero = zero. Proof. rewrite rot_unit. ring. Qed.
Lemma rot_add p x y : rot p (x + y) = rot p x + rot p y. Proof. rewrite !rot_unit. ring. Qed.
Lemma rot_sub p x y : rot p (x - y) = rot p x - rot p y. Proof. rewrite !rot_unit. ring. Qed.
Lemma rot_opp p x : rot p (- x) = - rot p x. Proof. rewrite !rot_unit. ring. Qed.
Lemma rot_mul p x y : rot p (x * y) = x * rot p y. Proof. rewrite !rot_unit. ring. Qed.
Lemma rot_nz p x : x <> zero -> rot p x <> zero.
Proof. rewrite rot_unit. intros H E. apply H. transitivity (unit p * x / unit p); [field; apply unit_nz|]. rewrite E. field. apply unit_nz. Qed.
Lemma rot_sum {A} p (f : A -> C) l : nsum o (map (fun s => rot p (f s)) l) = rot p (nsum o (map f l)).
Proof. rewrite (nsum_ext o _ (fun s => unit p * f s)) by (intros; apply rot_unit). rewrite (nsum_scale o L). symmetry. apply rot_unit. Qed.
Lemma rot_power p x y : rot p x * cj (rot p y) = x * cj y.
Proof. rewrite !rot_unit, (pf_conj_mul o cj cabs a P). transitivity ((unit p * cj (unit p)) * (x * cj y)); [ring|]. rewrite unit_circle. ring. Qed.
Lemma rot_conj_div p s u : u <> zero -> cj (s / rot p u) = rot p (cj (s / u)).
Proof.
  intros H. rewrite (conj_div o cj cabs a P) by (apply rot_nz; exact H). rewrite (conj_div o cj cabs a P) by exact H.
  rewrite !rot_unit, (pf_conj_mul o cj cabs a P). rewrite conj_unit. pose proof (conj_nz o cj cabs a P u H). field. repeat split; auto; try apply unit_nz.
Qed.
Lemma rot_phasor p x : phasor o a x p = rot p x.
Proof. destruct p as [|[|p]]; cbn [phasor rotated]; ring. Qed.

(** ** blocks *)
Local Notation acts := (acts_balanced o a).
Lemma dot3_balanced m y x p : acts m y -> p < 3 -> dot o 3 m (fun q => rot q x) p = rot p (y * x).
Proof. intros H Hp. unfold dot. apply H. exact Hp. Qed.
Lemma dot_ext np m v w p : (forall q, q < np -> v q = w q) -> dot o np m v p = dot o np m w p.
Proof. intros H. unfold dot. apply nsum_ext. intros q Hq. apply in_seq in Hq. rewrite H by lia. reflexivity. Qed.
Lemma dot1 m v : dot o 1 m v 0 = m 0 0 * v 0.
Proof. unfold dot, nsum. cbn. ring. Qed.
Lemma acts_zero : acts (fun _ _ => zero) zero.
Proof. intros x p Hp. rewrite (nsum_zero o L); [|intros; ring]. rewrite rot_unit. ring. Qed.
Lemma acts_add m m' y y' : acts m y -> acts m' y' -> acts (fun p q => m p q + m' p q) (y + y').
Proof.
  intros H H' x p Hp. rewrite (nsum_ext o _ (fun q => m p q * rot q x + m' p q * rot q x)) by (intros; ring).
  rewrite (nsum_add o L), (H x p Hp), (H' x p Hp), <- rot_add. f_equal. ring.
Qed.
Lemma acts_ext m m' y : (forall p q, m p q = m' p q) -> acts m y -> acts m' y.
Proof. intros E H x p Hp. rewrite <- (H x p Hp). apply nsum_ext. intros q _. now rewrite E. Qed.
(** a tensor of one number on the diagonal and one off it, from the numbers of the positive and the zero sequence *)
Lemma acts_tensor w1 w0 : acts (fun p q => if p =? q then ((one + one) * w1 + w0) / three else (w0 - w1) / three) w1.
Proof.
  intros x p Hp. pose proof (pf_three o cj cabs a P) as T. pose proof (a_square o cj cabs a P) as S2.
  assert (T' : one + (one + one) <> zero) by (intros E; apply T; rewrite <- E; ring).
  destruct p as [|[|[|p]]]; [| | |lia]; cbn [seq map Nat.eqb rotated nsum fold_right]; rewrite !S2; field; try exact T'; exact T.
Qed.
Lemma acts_source y1 y0 : acts (y_ref o 3 y1 y0) y1.
Proof. apply acts_tensor. Qed.

Section Grid.
Variables (n : nat) (ybus1 ybus3 : nat -> nat -> tensor (C := C)) (sources loads : nat -> list nat) (y1 y0 u_ref : nat -> C).
Variables (s1 s3 : nat -> vec (C := C)).
Hypothesis Hy : forall i j, i < n -> j < n -> acts (ybus3 i j) (ybus1 i j 0 0).
Hypothesis Hs : forall l p, p < 3 -> s3 l p = s1 l 0.
Local Notation same := (balanced_for o a n).

Lemma network_balanced u v b p : same u v -> b < n -> p < 3 -> network_current o 3 n ybus3 v b p = rot p (network_current o 1 n ybus1 u b 0).
Proof.
  intros Hv Hb Hp. unfold network_current. rewrite <- rot_sum. apply nsum_ext. intros j Hj. apply in_seq in Hj.
  rewrite (dot_ext 3 _ (v j) (fun q => rot q (u j 0))) by (intros; apply Hv; lia).
  rewrite (dot3_balanced _ (ybus1 b j 0 0)) by (auto; apply Hy; lia). f_equal. symmetry. apply dot1.
Qed.
Local Notation inject np u b p := (nsum o (map (fun s => dot o np (source_y o np y1 y0 s) (source_u o a u_ref s) p - dot o np (source_y o np y1 y0 s) (u b) p) (sources b))).
Lemma inject_balanced u v b p : same u v -> b < n -> p < 3 -> inject 3 v b p = rot p (inject 1 u b 0).
Proof.
  intros Hv Hb Hp. rewrite <- rot_sum. apply nsum_ext. intros s _. rewrite rot_sub. unfold source_y. f_equal.
  - rewrite (dot_ext 3 _ (source_u o a u_ref s) (fun q => rot q (u_ref s))) by (intros; unfold source_u; apply rot_phasor).
    rewrite (dot3_balanced _ (y1 s)) by (auto; apply acts_source). rewrite dot1. reflexivity.
  - rewrite (dot_ext 3 _ (v b) (fun q => rot q (u b 0))) by (intros; apply Hv; lia).
    rewrite (dot3_balanced _ (y1 s)) by (auto; apply acts_source). rewrite dot1. reflexivity.
Qed.

(** the linear method *)
Local Notation eqs np ybus s := (prepare_linear o cj a np n ybus sources loads y1 y0 u_ref s).
Lemma solves_residual np ybus s u : solves o np n (eqs np ybus s) u <-> forall b p, b < n -> p < np ->
  network_current o np n ybus u b p - nsum o (map (fun l => cj (s l p) * u b p) (loads b)) - inject np u b p = zero.
Proof.
  split.
  - intros H b p Hb Hp. rewrite <- (prepare_residual o cj cabs a P np n ybus sources loads y1 y0 u_ref s u b p Hb Hp). unfold residual. rewrite (H b p Hb Hp). ring.
  - intros H b p Hb Hp. apply (eq_sub o cj cabs a P). specialize (H b p Hb Hp).
    rewrite <- (prepare_residual o cj cabs a P np n ybus sources loads y1 y0 u_ref s u b p Hb Hp) in H. exact H.
Qed.
Lemma linear_balanced u v : same u v -> (solves o 1 n (eqs 1 ybus1 s1) u <-> solves o 3 n (eqs 3 ybus3 s3) v).
Proof.
  intros Hv.
  assert (E : forall b p, b < n -> p < 3 ->
    network_current o 3 n ybus3 v b p - nsum o (map (fun l => cj (s3 l p) * v b p) (loads b)) - inject 3 v b p =
    rot p (network_current o 1 n ybus1 u b 0 - nsum o (map (fun l => cj (s1 l 0) * u b 0) (loads b)) - inject 1 u b 0)).
  { intros b p Hb Hp. rewrite (network_balanced u), (inject_balanced u), !rot_sub by auto. f_equal. f_equal. rewrite <- rot_sum. apply nsum_ext. intros l _.
    rewrite Hs, Hv by auto. now rewrite rot_mul. }
  rewrite !solves_residual. split; intros H b p Hb Hp.
  - rewrite E by auto. rewrite (H b 0) by (auto; lia). apply rot_zero.
  - assert (p = 0) by lia. subst p. specialize (H b 0 Hb ltac:(lia)). rewrite E in H by (auto; lia). exact H.
Qed.

(** the iterative current method *)
Lemma load_current_balanced ty l u v b p : same u v -> (ty <> const_y -> u b 0 <> zero) -> b < n -> p < 3 ->
  load_current o cj cabs s3 ty l (v b) p = rot p (load_current o cj cabs s1 ty l (u b) 0).
Proof.
  intros Hv Hu Hb Hp. unfold load_current. rewrite Hs, Hv by auto. destruct ty.
  - rewrite rot_conj_div by (apply Hu; discriminate). reflexivity.
  - now rewrite rot_mul.
  - rewrite rot_conj_div by (apply Hu; discriminate). now rewrite abs_rot.
Qed.
Lemma iteration_balanced ty u v u' v' : same u v -> same u' v' -> (forall b l, b < n -> In l (loads b) -> ty l <> const_y -> u b 0 <> zero) ->
  (iteration o cj cabs a 1 n ybus1 sources loads y1 y0 u_ref s1 ty u u' <-> iteration o cj cabs a 3 n ybus3 sources loads y1 y0 u_ref s3 ty v v').
Proof.
  intros Hv Hv' Hu.
  assert (E : forall b p, b < n -> p < 3 -> nsum o (map (fun l => load_current o cj cabs s3 (ty l) l (v b) p) (loads b)) = rot p (nsum o (map (fun l => load_current o cj cabs s1 (ty l) l (u b) 0) (loads b)))).
  { intros b p Hb Hp. rewrite <- rot_sum. apply nsum_ext. intros l Hl. apply load_current_balanced; auto. intros Ht. exact (Hu b l Hb Hl Ht). }
  split; intros H; apply (balance_iteration o cj cabs a P); intros b p Hb Hp.
  - rewrite (network_balanced u'), (inject_balanced u'), E by auto.
    rewrite (iteration_balance o cj cabs a P 1 n ybus1 sources loads y1 y0 u_ref s1 ty u u' b 0 H Hb ltac:(lia)). now rewrite rot_add.
  - assert (p = 0) by lia. subst p. pose proof (iteration_balance o cj cabs a P 3 n ybus3 sources loads y1 y0 u_ref s3 ty v v' b 0 H Hb ltac:(lia)) as Q.
    rewrite (network_balanced u'), (inject_balanced u'), E in Q by (auto; lia). exact Q.
Qed.

(** results *)
Variable ty : nat -> load_type.
Variables u v : nat -> vec (C := C).
Hypothesis Hv : same u v.
Lemma load_s_balanced b l p : b < n -> p < 3 -> load_gen_s o cj cabs s3 ty v b l p = load_gen_s o cj cabs s1 ty u b l 0.
Proof.
  intros Hb Hp. unfold load_gen_s. rewrite Hs, Hv by auto. destruct (ty l); auto.
  - now rewrite rot_power.
  - now rewrite abs_rot.
Qed.
Lemma load_i_balanced b l p : b < n -> u b 0 <> zero -> p < 3 -> load_gen_i o cj cabs s3 ty v b l p = rot p (load_gen_i o cj cabs s1 ty u b l 0).
Proof. intros Hb Hu Hp. unfold load_gen_i. rewrite load_s_balanced, Hv by auto. now rewrite rot_conj_div. Qed.
Lemma inj_t_balanced b p : b < n -> u b 0 <> zero -> p < 3 ->
  i_inj_t o cj cabs 3 n ybus3 loads s3 ty v b p = rot p (i_inj_t o cj cabs 1 n ybus1 loads s1 ty u b 0).
Proof.
  intros Hb Hu Hp. rewrite !(inj_t_network o cj cabs a P) by (auto; rewrite Hv by auto; now apply rot_nz).
  rewrite (network_balanced u), rot_sub, <- rot_sum by auto. f_equal. apply nsum_ext. intros l _. now apply load_i_balanced.
Qed.
Lemma div_mul x y : x / y = x * (one / y).
Proof. rewrite !(Fdiv_def (nl_field o L)). ring. Qed.
Lemma source_i_balanced b s p : b < n -> u b 0 <> zero -> p < 3 ->
  source_i o cj cabs a 3 n ybus3 sources loads y1 y0 u_ref s3 ty v b s p = rot p (source_i o cj cabs a 1 n ybus1 sources loads y1 y0 u_ref s1 ty u b s 0).
Proof.
  intros Hb Hu Hp. unfold source_i. destruct (length (sources b) =? 1); [now apply inj_t_balanced|]. cbn [Nat.eqb].
  unfold multiple_source_asym, multiple_source_sym. set (i3 := i_inj_t o cj cabs 3 n ybus3 loads s3 ty v b). set (i1 := i_inj_t o cj cabs 1 n ybus1 loads s1 ty u b 0).
  assert (E : forall k, k < 3 -> dot o 3 (sym_matrix_inv o a) i3 k = match k with 1 => i1 | _ => zero end).
  { intros k Hk. rewrite (inv_sequence o cj cabs a P ybus1 sources loads y1 y0 u_ref s1 ty ty) by auto.
    rewrite (sequence_ext o a ybus1 sources loads y1 y0 u_ref s1 ty ty k i3 (phasor o a i1)) by (intros q Hq; unfold i3, i1; rewrite inj_t_balanced by auto; symmetry; apply rot_phasor).
    destruct (sequence_phasor o cj cabs a P i1) as (E0 & E1 & E2). destruct k as [|[|[|k]]]; auto; lia. }
  rewrite !E by lia. set (y1t := nsum o (map y1 (sources b))). set (it := nsum o (map (fun s => u_ref s * y1 s) (sources b))).
  rewrite (div_mul (y1 s) y1t). set (w := y1 s * (one / y1t)). set (z := y0 s / nsum o (map y0 (sources b))).
  unfold dot, nsum. destruct p as [|[|[|p]]]; [| | |lia]; cbn [seq map fold_right sym_matrix rotated]; ring.
Qed.
Lemma source_s_balanced b s p : b < n -> u b 0 <> zero -> p < 3 ->
  source_s o cj cabs a 3 n ybus3 sources loads y1 y0 u_ref s3 ty v b s p = source_s o cj cabs a 1 n ybus1 sources loads y1 y0 u_ref s1 ty u b s 0.
Proof. intros Hb Hu Hp. unfold source_s. rewrite source_i_balanced, Hv by auto. apply rot_power. Qed.
Lemma injection_balanced b p : b < n -> p < 3 -> bus_injection o cj 3 n ybus3 v b p = bus_injection o cj 1 n ybus1 u b 0.
Proof.
  intros Hb Hp. unfold bus_injection. rewrite (network_balanced u), Hv by auto. set (i := network_current o 1 n ybus1 u b 0).
  transitivity (rot p (u b 0) * cj (rot p i)); [ring|]. rewrite rot_power. ring.
Qed.
End Grid.
End Facts.
