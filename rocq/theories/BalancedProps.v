(** C61: for a grid of symmetric components with balanced loads the asymmetric power flow finds what the symmetric one finds: balanced voltages and currents,
    the same power in every phase. *)
From Coq Require Import Field.
From Verif Require Import Common NatMap GroupedIdx Numbers NumbersComplex ShortCircuit ShortCircuitFacts PowerFlow PowerFlowSpec PowerFlowFacts Balanced BalancedSpec BalancedFacts BalancedGrid YBus YBusSpec.
From Verif Require TwoPort TwoPortSpec TwoPortFacts TwoPortComplex.

(** A grid of symmetric components, given by its buses, its branches and its shunts with admittances for the positive and the zero sequence (zero if switched off),
    and its parameters in a symmetric and in an asymmetric calculation. *)
Definition grid_params {C S' S''} (o : TwoPort.cx_ops C) (branches : list (@branch C)) (shunts : list (C * C))
  (p1 : @model_param C S') (p3 : @model_param (nat -> nat -> C) S'') : Prop :=
  length (p_branch p1) = length branches /\ length (p_branch p3) = length branches /\
  (forall k b q1 q3, nth_error branches k = Some b -> nth_error (p_branch p1) k = Some q1 -> nth_error (p_branch p3) k = Some q3 -> symmetric_branch o b /\ branch_params o b q1 q3) /\
  p_shunt p1 = map fst shunts /\ p_shunt p3 = map (fun y => shunt_tensor o (fst y) (snd y)) shunts.

Section Props.
Context {C : Type} (o : TwoPort.cx_ops C).
Hypothesis L : TwoPortSpec.cx_laws o.
Hypothesis R : TwoPortSpec.rot_laws o.
Local Notation cj := (TwoPort.c_conj o). Local Notation cabs := (TwoPort.c_abs o). Local Notation a := (a120 o). Local Notation N := (num_of o).
Hypothesis abs_square : forall x, n_mul N (cabs x) (cabs x) = n_mul N x (cj x).
Hypothesis abs_rot : forall x, cabs (n_mul N x a) = cabs x.
Let B : balanced_laws N cj cabs a := grid_laws o L R abs_square abs_rot.
Local Notation zero := (n_zero N).
Local Notation rot := (rotated N a).

Variables (t : math_topo) (branches : list (@branch C)) (shunts : list (C * C)).
Context {S' S'' : Type} (p1 : @model_param C S') (p3 : @model_param (nat -> nat -> C) S'').
Hypothesis params : grid_params o branches shunts p1 p3.
Variables (sources loads : nat -> list nat) (y1 y0 u_ref : nat -> C) (s : nat -> C) (ty : nat -> load_type).
Local Notation n := (mt_n_bus t). Local Notation Y1 := (matrix1 o t p1). Local Notation Y3 := (matrix3 o t p3).
(** the power of a load, the same in every phase, in per unit of that phase *)
Local Notation power := (fun (l _ : nat) => s l).
Local Notation matches := (balanced_for N a n).

Lemma Forall2_nth {A A'} (P : A -> A' -> Prop) l l' : length l = length l' -> (forall k x x', nth_error l k = Some x -> nth_error l' k = Some x' -> P x x') -> Forall2 P l l'.
Proof.
  revert l'. induction l as [|x l IH]; intros [|x' l'] E H; try discriminate; constructor; [exact (H 0 _ _ eq_refl eq_refl)|].
  apply IH; [now injection E|]. intros k y y' H1 H2. exact (H (S k) _ _ H1 H2).
Qed.
Lemma branches_alike : Forall2 (alike o) (p_branch p1) (p_branch p3).
Proof.
  destruct params as (E1 & E3 & H & _). apply Forall2_nth; [congruence|]. intros k q1 q3 H1 H3.
  destruct (nth_error branches k) as [b|] eqn:Eb.
  - destruct (H k b q1 q3 Eb H1 H3) as [F1 F2]. exact (branch_alike o L R abs_square abs_rot b q1 q3 F1 F2).
  - apply nth_error_None in Eb. assert (k < length (p_branch p1)) by (apply nth_error_Some; congruence). lia.
Qed.
Lemma shunts_alike : Forall2 (fun y m => acts_balanced N a m y) (p_shunt p1) (p_shunt p3).
Proof.
  destruct params as (_ & _ & _ & -> & ->). generalize shunts as ss. induction ss as [|x l IH]; cbn [map]; constructor; auto. apply (shunt_alike o L R abs_square abs_rot).
Qed.

(** ** The admittance matrix acts on balanced voltages as the one of the symmetric calculation *)
Theorem C61_admittance : forall i j, acts_balanced N a (Y3 i j) (Y1 i j 0 0).
Proof. intros i j. apply (matrix_alike o L R abs_square abs_rot); [exact branches_alike|exact shunts_alike]. Qed.
Local Notation Hy := (fun i j (_ : i < n) (_ : j < n) => C61_admittance i j).
Local Notation Hs := (fun (l p : nat) (_ : p < 3) => eq_refl (s l)).

(** ** The linear method *)
Local Notation equations1 := (prepare_linear N cj a 1 n Y1 sources loads y1 y0 u_ref power).
Local Notation equations3 := (prepare_linear N cj a 3 n Y3 sources loads y1 y0 u_ref power).
(** the equations with this matrix have at most one solution *)
Definition at_most_one (np : nat) (m : nat -> nat -> tensor (C := C)) : Prop :=
  forall x x', (forall b p, b < n -> p < np -> nsum N (map (fun j => dot N np (m b j) (x j) p) (seq 0 n)) = nsum N (map (fun j => dot N np (m b j) (x' j) p) (seq 0 n))) ->
    forall b p, b < n -> p < np -> x b p = x' b p.
Theorem C61_linear : forall u,
  (solves N 1 n equations1 u <-> solves N 3 n equations3 (balanced N a u)) /\
  (solves N 1 n equations1 u -> at_most_one 3 (e_mat equations3) -> forall v, solves N 3 n equations3 v -> matches u v).
Proof.
  intros u. assert (E : solves N 1 n equations1 u <-> solves N 3 n equations3 (balanced N a u)).
  { apply (linear_balanced N cj cabs a B n Y1 Y3 sources loads y1 y0 u_ref power power Hy Hs). intros b p Hb Hp. reflexivity. }
  split; [exact E|]. intros H U v Hv. apply E in H. intros b p Hb Hp. change (v b p = balanced N a u b p).
  apply (U v (balanced N a u)); auto. intros b' p' Hb' Hp'. rewrite (Hv b' p' Hb' Hp'), (H b' p' Hb' Hp'). reflexivity.
Qed.

(** ** The iterative current method *)
Variables (cmax : C -> C -> C) (back forth : nat -> C).
Hypothesis cmax_same : forall x, cmax x x = x.
Local Notation iterates1 := (iterates N cj cabs a 1 n Y1 sources loads y1 y0 u_ref power ty back forth).
Local Notation iterates3 := (iterates N cj cabs a 3 n Y3 sources loads y1 y0 u_ref power ty back forth).
Local Notation iteration1 := (iteration N cj cabs a 1 n Y1 sources loads y1 y0 u_ref power ty).
Local Notation iteration3 := (iteration N cj cabs a 3 n Y3 sources loads y1 y0 u_ref power ty).
(** the currents of the loads exist: where there is a load other than of constant impedance the voltage is not zero *)
Definition load_currents_exist (u : nat -> nat -> C) : Prop := forall b l, b < n -> In l (loads b) -> ty l <> const_y -> u b 0 <> zero.
Lemma start_balanced : matches (flat_start N a 1 n sources u_ref back forth) (flat_start N a 3 n sources u_ref back forth).
Proof. intros b p Hb Hp. unfold flat_start. cbn [Nat.eqb]. apply (rot_phasor N cj cabs a B). Qed.
Lemma step_balanced : at_most_one 3 (iterative_matrix N 3 n Y3 sources y1 y0) -> forall u v u' v', matches u v -> load_currents_exist u -> iteration1 u u' -> iteration3 v v' -> matches u' v'.
Proof.
  intros U u v u' v' Hm Hu H1 H3. assert (M : matches u' (balanced N a u')) by (intros b p Hb Hp; reflexivity).
  assert (H1' : iteration3 v (balanced N a u')) by (apply (iteration_balanced N cj cabs a B n Y1 Y3 sources loads y1 y0 u_ref power power Hy Hs ty u v u' (balanced N a u') Hm M Hu); exact H1).
  intros b p Hb Hp. change (v' b p = balanced N a u' b p). apply (U v' (balanced N a u')); auto. intros b' p' Hb' Hp'.
  exact (eq_trans (H3 b' p' Hb' Hp') (eq_sym (H1' b' p' Hb' Hp'))).
Qed.
Theorem C61_iterative : forall k u, iterates1 k u -> (forall j w, j < k -> iterates1 j w -> load_currents_exist w) ->
  (exists v, iterates3 k v /\ matches u v) /\
  (at_most_one 3 (iterative_matrix N 3 n Y3 sources y1 y0) -> forall v, iterates3 k v -> matches u v).
Proof.
  intros k u Hu Hn. split.
  - induction Hu as [|k u u' Hu IH Hi].
    + exists (flat_start N a 3 n sources u_ref back forth). split; [constructor|apply start_balanced].
    + destruct IH as (v & Hv & Hm); [intros j w Hj; apply Hn; lia|]. exists (balanced N a u').
      assert (M : matches u' (balanced N a u')) by (intros b p Hb Hp; reflexivity). split; [|exact M].
      apply (it_next N cj cabs a 3 n Y3 sources loads y1 y0 u_ref power ty back forth k v); [exact Hv|].
      apply (iteration_balanced N cj cabs a B n Y1 Y3 sources loads y1 y0 u_ref power power Hy Hs ty u v u' (balanced N a u') Hm M); [|exact Hi]. apply (Hn k); [lia|exact Hu].
  - intros U v Hv. revert u Hu Hn. induction Hv as [|k v v' Hv IH Hi]; intros u Hu Hn.
    + inversion Hu; subst. apply start_balanced.
    + inversion Hu as [|k0 u0 u1 Hu0 Hi0]; subst. apply (step_balanced U u0 v u v'); auto; [|apply (Hn k); auto].
      apply IH; auto. intros j w Hj Hw. apply (Hn j w); [lia|exact Hw].
Qed.
(** the deviation that decides about another iteration is the same *)
Theorem C61_deviation : forall u v u' v', matches u v -> matches u' v' -> max_dev N cabs cmax 3 n v v' = max_dev N cabs cmax 1 n u u'.
Proof.
  intros u v u' v' H H'. unfold max_dev, max_val. cbn [Nat.eqb].
  assert (E : forall l m, (forall b, In b l -> b < n) ->
    fold_left (fun m b => cmax (cmax (cmax (cabs (n_sub N (v' b 0) (v b 0))) (cabs (n_sub N (v' b 1) (v b 1)))) (cabs (n_sub N (v' b 2) (v b 2)))) m) l m =
    fold_left (fun m b => cmax (cabs (n_sub N (u' b 0) (u b 0))) m) l m).
  { induction l as [|b l IH]; intros m Hl; cbn [fold_left]; [reflexivity|].
    assert (Hb : b < n) by (apply Hl; now left).
    rewrite (H b 0 Hb), (H b 1 Hb), (H b 2 Hb), (H' b 0 Hb), (H' b 1 Hb), (H' b 2 Hb) by lia.
    rewrite <- !(rot_sub N cj cabs a B), !(BalancedFacts.abs_rot N cj cabs a B), !cmax_same. apply IH. intros c Hc. apply Hl. now right. }
  apply E. intros b Hb. apply in_seq in Hb. lia.
Qed.
(** the voltages that do not change any more are the same *)
Theorem C61_fixed_point : forall u v, matches u v -> load_currents_exist u -> (iteration1 u u <-> iteration3 v v).
Proof. intros u v H Hu. exact (iteration_balanced N cj cabs a B n Y1 Y3 sources loads y1 y0 u_ref power power Hy Hs ty u v u v H H Hu). Qed.

(** ** The results: currents are balanced, the power is the same in every phase *)
Theorem C61_results : forall u v b p, matches u v -> b < n -> u b 0 <> zero -> p < 3 ->
  (forall l, load_gen_i N cj cabs power ty v b l p = rot p (load_gen_i N cj cabs power ty u b l 0) /\ load_gen_s N cj cabs power ty v b l p = load_gen_s N cj cabs power ty u b l 0) /\
  (forall i, source_i N cj cabs a 3 n Y3 sources loads y1 y0 u_ref power ty v b i p = rot p (source_i N cj cabs a 1 n Y1 sources loads y1 y0 u_ref power ty u b i 0) /\
             source_s N cj cabs a 3 n Y3 sources loads y1 y0 u_ref power ty v b i p = source_s N cj cabs a 1 n Y1 sources loads y1 y0 u_ref power ty u b i 0) /\
  bus_injection N cj 3 n Y3 v b p = bus_injection N cj 1 n Y1 u b 0.
Proof.
  intros u v b p H Hb Hu Hp. refine (conj _ (conj _ _)).
  - intros l. split.
    + exact (load_i_balanced N cj cabs a B n power power Hs ty u v H b l p Hb Hu Hp).
    + exact (load_s_balanced N cj cabs a B n power power Hs ty u v H b l p Hb Hp).
  - intros i. split.
    + exact (source_i_balanced N cj cabs a B n Y1 Y3 sources loads y1 y0 u_ref power power Hy Hs ty u v H b i p Hb Hu Hp).
    + exact (source_s_balanced N cj cabs a B n Y1 Y3 sources loads y1 y0 u_ref power power Hy Hs ty u v H b i p Hb Hu Hp).
  - exact (injection_balanced N cj cabs a B n Y1 Y3 sources loads y1 y0 u_ref power power Hy Hs u v H b p Hb Hp).
Qed.

(** ** Branches and shunts *)
Local Notation vdot := (dot N 3). Local Notation vmul := (fun (x y : nat -> C) p => n_mul N (x p) (y p)).
Local Notation flows1 y := (calculate_branch_flow (S' := S') zero (n_add N) (n_mul N) cj (n_mul N) t y).
Local Notation flows3 y := (calculate_branch_flow (Y := nat -> nat -> C) (U := nat -> C) (S' := S'') (vzero N) (vadd N) vmul (fun x p => cj (x p)) vdot t y).
Local Notation shunts1 y := (calculate_shunt_flow (S' := S') zero zero (n_opp N) (n_mul N) cj (n_mul N) t y).
Local Notation shunts3 y := (calculate_shunt_flow (Y := nat -> nat -> C) (U := nat -> C) (S' := S'') (fun _ _ => zero) (vzero N) (fun x p => n_opp N (x p)) vmul (fun x p => cj (x p)) vdot t y).
(** a value per phase that is balanced, or the same in every phase *)
Definition balanced_value (x : C) (v : nat -> C) : Prop := forall p, p < 3 -> v p = rot p x.
Definition same_in_all (x : C) (v : nat -> C) : Prop := forall p, p < 3 -> v p = x.
Lemma dot_value m y x v : acts_balanced N a m y -> balanced_value x v -> balanced_value (n_mul N y x) (vdot m v).
Proof.
  intros H Hv p Hp. transitivity (dot N 3 m (fun q => rot q x) p).
  - unfold dot. apply nsum_ext. intros q Hq. apply in_seq in Hq. rewrite Hv by lia. reflexivity.
  - rewrite (dot3_balanced N a m y x p H Hp). reflexivity.
Qed.
Lemma add_value x y v w : balanced_value x v -> balanced_value y w -> balanced_value (n_add N x y) (vadd N v w).
Proof. intros H1 H2 p Hp. unfold vadd. rewrite H1, H2 by exact Hp. symmetry. apply (rot_add N cj cabs a B). Qed.
Lemma power_value x y v w : balanced_value x v -> balanced_value y w -> same_in_all (n_mul N x (cj y)) (vmul v (fun p => cj (w p))).
Proof. intros H1 H2 p Hp. cbn beta. rewrite H1, H2 by exact Hp. apply (rot_power N cj cabs a B). Qed.
Lemma zero_value : balanced_value zero (vzero N).
Proof. intros p Hp. symmetry. apply (rot_zero N cj cabs a B). Qed.
Lemma nth_value u1 u3 b : Forall2 balanced_value u1 u3 -> balanced_value (nth b u1 zero) (nth b u3 (vzero N)).
Proof. intros H. revert b. induction H as [|x v l1 l3 Hx HF IH]; intros [|b]; cbn [nth]; auto using zero_value. Qed.
Lemma side_value u1 u3 b : Forall2 balanced_value u1 u3 -> balanced_value (YBus.voltage zero u1 b) (YBus.voltage (vzero N) u3 b).
Proof. intros H. destruct b as [b|]; cbn [YBus.voltage]; [now apply nth_value|apply zero_value]. Qed.
Theorem C61_branches : forall (b1 : @y_bus C S') (b3 : @y_bus (nat -> nat -> C) S'') u1 u3, yb_param b1 = p1 -> yb_param b3 = p3 -> Forall2 balanced_value u1 u3 ->
  Forall2 (fun f1 f3 => balanced_value (i_f f1) (i_f f3) /\ balanced_value (i_t f1) (i_t f3) /\ same_in_all (s_f f1) (s_f f3) /\ same_in_all (s_t f1) (s_t f3)) (flows1 b1 u1) (flows3 b3 u3).
Proof.
  intros b1 b3 u1 u3 E1 E3 H. unfold calculate_branch_flow. rewrite E1, E3. generalize (mt_branch t). pose proof branches_alike as FB.
  induction FB as [|q1 q3 l1 l3 (A1 & A2 & A3 & A4) F IH]; intros [|[f to] bs]; cbn [combine map]; constructor; [|apply IH].
  cbn [fst snd i_f i_t s_f s_t].
  pose proof (side_value u1 u3 f H) as Vf. pose proof (side_value u1 u3 to H) as Vt.
  refine (conj (add_value _ _ _ _ (dot_value _ _ _ _ A1 Vf) (dot_value _ _ _ _ A2 Vt)) (conj (add_value _ _ _ _ (dot_value _ _ _ _ A3 Vf) (dot_value _ _ _ _ A4 Vt)) (conj _ _))).
  - exact (power_value _ _ _ _ Vf (add_value _ _ _ _ (dot_value _ _ _ _ A1 Vf) (dot_value _ _ _ _ A2 Vt))).
  - exact (power_value _ _ _ _ Vt (add_value _ _ _ _ (dot_value _ _ _ _ A3 Vf) (dot_value _ _ _ _ A4 Vt))).
Qed.
Lemma Forall2_upd {A A'} (P : A -> A' -> Prop) l l' k x x' : Forall2 P l l' -> P x x' -> Forall2 P (upd k x l) (upd k x' l').
Proof. intros H Hx. revert k. induction H; intros [|k]; cbn; constructor; auto. Qed.
Theorem C61_shunts : forall (b1 : @y_bus C S') (b3 : @y_bus (nat -> nat -> C) S'') u1 u3, yb_param b1 = p1 -> yb_param b3 = p3 -> Forall2 balanced_value u1 u3 ->
  Forall2 (fun f1 f3 => balanced_value (fst f1) (fst f3) /\ same_in_all (snd f1) (snd f3)) (shunts1 b1 u1) (shunts3 b3 u3).
Proof.
  intros b1 b3 u1 u3 E1 E3 H. unfold calculate_shunt_flow. rewrite E1, E3.
  set (Q := fun (f1 : C * C) (f3 : (nat -> C) * (nat -> C)) => balanced_value (fst f1) (fst f3) /\ same_in_all (snd f1) (snd f3)).
  assert (A : forall k, acts_balanced N a (nth k (p_shunt p3) (fun _ _ => zero)) (nth k (p_shunt p1) zero)).
  { pose proof shunts_alike as F. induction F as [|y m l1 l3 Hm HF IH]; intros [|k]; cbn [nth]; auto; apply (acts_zero N cj cabs a B). }
  assert (Hneg : forall x v, balanced_value x v -> balanced_value (n_opp N x) (fun p => n_opp N (v p))).
  { intros x v Hv p Hp. rewrite Hv by exact Hp. symmetry. apply (rot_opp N cj cabs a B). }
  assert (Inner : forall bus l out1 out3, Forall2 Q out1 out3 -> Forall2 Q
    (fold_left (fun out sh => let i := n_opp N (n_mul N (nth sh (p_shunt p1) zero) (nth bus u1 zero)) in upd sh (i, n_mul N (nth bus u1 zero) (cj i)) out) l out1)
    (fold_left (fun out sh => let i := (fun p => n_opp N (vdot (nth sh (p_shunt p3) (fun _ _ => zero)) (nth bus u3 (vzero N)) p)) in upd sh (i, (fun p => n_mul N (nth bus u3 (vzero N) p) (cj (i p)))) out) l out3)).
  { intros bus. induction l as [|k l IH]; intros out1 out3 F; cbn [fold_left]; [exact F|]. apply IH. cbv zeta. apply Forall2_upd; [exact F|].
    pose proof (Hneg _ _ (dot_value _ _ _ _ (A k) (nth_value u1 u3 bus H))) as V. split; [exact V|]. exact (power_value _ _ _ _ (nth_value u1 u3 bus H) V). }
  assert (Outer : forall l out1 out3, Forall2 Q out1 out3 -> Forall2 Q
    (fold_left (fun out bus => let (lo, hi) := dense_range (mt_shunt t) bus in
      fold_left (fun out sh => let i := n_opp N (n_mul N (nth sh (p_shunt p1) zero) (nth bus u1 zero)) in upd sh (i, n_mul N (nth bus u1 zero) (cj i)) out) (seq lo (hi - lo)) out) l out1)
    (fold_left (fun out bus => let (lo, hi) := dense_range (mt_shunt t) bus in
      fold_left (fun out sh => let i := (fun p => n_opp N (vdot (nth sh (p_shunt p3) (fun _ _ => zero)) (nth bus u3 (vzero N)) p)) in upd sh (i, (fun p => n_mul N (nth bus u3 (vzero N) p) (cj (i p)))) out) (seq lo (hi - lo)) out) l out3)).
  { induction l as [|bus l IH]; intros out1 out3 F; cbn [fold_left]; [exact F|]. apply IH. destruct (dense_range (mt_shunt t) bus) as [lo hi]. now apply Inner. }
  apply Outer. generalize (dense_element_size (mt_shunt t)) as m. induction m as [|k IH]; cbn [repeat]; constructor; auto. split; cbn [fst snd].
  - apply zero_value.
  - intros p Hp. reflexivity.
Qed.
End Props.

(** numbers for the example *)
Section Solve.
Context {C : Type} (N : num_ops C) (L : num_laws N).
Add Field FieldSolve : (nl_field N L).
Local Notation "a + b" := (n_add N a b) : num_scope. Local Notation "a * b" := (n_mul N a b) : num_scope. Local Notation "a - b" := (n_sub N a b) : num_scope.
Local Notation "a / b" := (n_div N a b) : num_scope. Local Notation "- a" := (n_opp N a) : num_scope.
Local Notation zero := (n_zero N). Local Notation one := (n_one N). Local Notation two := (n_add N one one).
Local Open Scope num_scope.
Lemma third_same x : two + one <> zero -> (two * x + x) / (two + one) = x.
Proof. intros H. assert (H' : one + two <> zero) by (intros E; apply H; transitivity (one + two); [ring|exact E]). field. exact H'. Qed.
Lemma third_none x : two + one <> zero -> (x - x) / (two + one) = zero.
Proof. intros H. assert (H' : one + two <> zero) by (intros E; apply H; transitivity (one + two); [ring|exact E]). field. exact H'. Qed.
(** 3 x - y = c and 3 y - x = d have one solution *)
Lemma pair_unique x y x' y' : two <> zero ->
  one * x + (- one * y + zero) + two * x = one * x' + (- one * y' + zero) + two * x' -> - one * x + (two * y + zero) + one * y = - one * x' + (two * y' + zero) + one * y' -> x = x' /\ y = y'.
Proof.
  intros T H1 H2.
  assert (E0 : forall z w, two * z = two * w -> z = w).
  { intros z w E. transitivity (two * z / two); [field; exact T|]. rewrite E. field. exact T. }
  assert (E : forall z w, two * two * two * z = two * two * two * w -> z = w).
  { intros z w E. apply E0, E0, E0. transitivity (two * two * two * z); [ring|]. rewrite E. ring. }
  split; apply E.
  - transitivity ((two + one) * (one * x + (- one * y + zero) + two * x) + (- one * x + (two * y + zero) + one * y)); [ring|]. rewrite H1, H2. ring.
  - transitivity ((one * x + (- one * y + zero) + two * x) + (two + one) * (- one * x + (two * y + zero) + one * y)); [ring|]. rewrite H1, H2. ring.
Qed.
Lemma half_half : two <> zero -> exists h, two * h = one /\ one / (two * two) = h * h /\ (two + one) / (two * two) = (two + one) * (h * h).
Proof.
  intros T. exists (one / two). assert (T' : two * two <> zero).
  { intros E. apply T. transitivity (two * two / two); [field; exact T|]. rewrite E. field. exact T. }
  assert (K : one / (two * two) = one / two * (one / two)) by (rewrite !(Fdiv_def (nl_field N L)); field; split; [exact T|exact T']).
  split; [field; exact T|]. split; [exact K|]. rewrite <- K. rewrite !(Fdiv_def (nl_field N L)). ring.
Qed.
Lemma bus_values h : two * h = one ->
  let u := (two + one) * (h * h) in let w := h * h in
  one * u + (- one * w + zero) - zero - (two * one - two * u + zero) = zero /\ - one * u + (two * w + zero) - (- one * w + zero) - zero = zero.
Proof.
  intros H u w. subst u w. assert (H4 : two * two * (h * h) = one) by (transitivity (two * h * (two * h)); [ring|rewrite H; ring]). split.
  - transitivity (two * (two * two * (h * h)) - two * one); [ring|]. rewrite H4. ring.
  - ring.
Qed.
Lemma move_across w z w' z' c : w - zero - (c - z + zero) = w' - zero - (c - z' + zero) -> w + z = w' + z'.
Proof. intros H. transitivity (w - zero - (c - z + zero) + c); [ring|]. rewrite H. ring. Qed.
Lemma move_across1 w z w' z' : w - (- one * z + zero) - zero = w' - (- one * z' + zero) - zero -> w + one * z = w' + one * z'.
Proof. intros H. transitivity (w - (- one * z + zero) - zero); [ring|]. rewrite H. ring. Qed.
End Solve.

(** ** An example: two buses and a line between them, a source and a load; the numbers are algebraic complex numbers *)
Section Example.
Context {C : Type} (o : TwoPort.cx_ops C).
Hypothesis L : TwoPortSpec.cx_laws o.
Hypothesis R : TwoPortSpec.rot_laws o.
Local Notation cj := (TwoPort.c_conj o). Local Notation cabs := (TwoPort.c_abs o). Local Notation a := (a120 o). Local Notation N := (num_of o).
Hypothesis abs_square : forall x, n_mul N (cabs x) (cabs x) = n_mul N x (cj x).
Hypothesis abs_rot : forall x, cabs (n_mul N x a) = cabs x.
Local Notation "0" := (n_zero N) : num_scope. Local Notation "1" := (n_one N) : num_scope.
Local Notation "a + b" := (n_add N a b) : num_scope. Local Notation "a * b" := (n_mul N a b) : num_scope. Local Notation "a - b" := (n_sub N a b) : num_scope.
Local Notation "a / b" := (n_div N a b) : num_scope. Local Notation "- a" := (n_opp N a) : num_scope.
Local Notation zero := (n_zero N). Local Notation one := (n_one N).
Local Open Scope num_scope.
Definition ex_line : @branch C := mkBranch true true true (TwoPort.KLine one zero one zero).
Definition ex_topo : math_topo := mkMathTopo 2 [(Some 0%nat, Some 1%nat)] (mkDense 2 [1%nat]) [].
Definition ex_q1 : branch_param (Y := C) := param1 (TwoPort.calc_param_sym o true true true (br_kind ex_line)).
Definition ex_q3 : branch_param (Y := nat -> nat -> C) := param3 (TwoPort.calc_param_y_asym o true true one zero one zero one).
Definition ex_p1 : @model_param C nat := mkParam [ex_q1] [one] [].
Definition ex_p3 : @model_param (nat -> nat -> C) nat := mkParam [ex_q3] [shunt_tensor o one one] [].
Lemma ex_params : grid_params o [ex_line] [(one, one)] ex_p1 ex_p3.
Proof.
  refine (conj eq_refl (conj eq_refl (conj _ (conj eq_refl eq_refl)))).
  intros k b q1 q3 H1 H2 H3. destruct k as [|k]; [|destruct k; discriminate]. injection H1 as <-. injection H2 as <-. injection H3 as <-.
  split; [exact I|]. split; [reflexivity|]. exists (TwoPort.calc_param_y_asym o true true one zero one zero one). split; reflexivity.
Qed.

Let B : balanced_laws N cj cabs a := grid_laws o L R abs_square abs_rot.
Let P : pf_laws N cj cabs a := ba_pf N cj cabs a B.
Add Field FieldExample : (nl_field N (pf_num N cj cabs a P)).
Local Notation two := (one + one). Local Notation four := (two * two).
Lemma two_nz : two <> zero. Proof. exact (TwoPortSpec.cl_two o L). Qed.
Lemma three_nz : two + one <> zero. Proof. exact (pf_three N cj cabs a P). Qed.
Lemma abs_one : cabs one * cabs one = one.
Proof. rewrite abs_square, (conj_one N cj cabs a P). ring. Qed.
Lemma abs_one_nz : cabs one <> zero.
Proof. intros E. pose proof abs_one as H. rewrite E in H. apply (F_1_neq_0 (nl_field N (pf_num N cj cabs a P))). rewrite <- H. ring. Qed.
Definition diagonal (x : C) : nat -> nat -> C := fun p q => if p =? q then x else zero.
(** the admittances between the buses *)
Definition ex_y (i j : nat) : C := match i, j with 0%nat, 0%nat => one | 1%nat, 1%nat => two | _, _ => - one end.
Lemma ex_line_values : TwoPort.calc_param_y_sym o true true one zero one = TwoPort.mkTwoPort one (- one) (- one) one.
Proof.
  pose proof abs_one as A. pose proof abs_one_nz as Z. pose proof two_nz as T. pose proof (F_1_neq_0 (nl_field N (pf_num N cj cabs a P))) as O.
  assert (E : cj one = one) by apply (conj_one N cj cabs a P).
  change (TwoPort.mkTwoPort (one / cabs one / cabs one * (one + one / two * zero)) (- one / cj one * one) (- one / one * one) (one + one / two * zero) = TwoPort.mkTwoPort one (- one) (- one) one).
  f_equal.
  - transitivity (one / (cabs one * cabs one)); [field; split; assumption|]. rewrite A. field. exact O.
  - rewrite E. field. exact O.
  - field. exact O.
  - field. exact T.
Qed.
Lemma ex_same x : (two * x + x) / (two + one) = x. Proof. exact (third_same N (pf_num N cj cabs a P) x three_nz). Qed.
Lemma ex_none x : (x - x) / (two + one) = zero. Proof. exact (third_none N (pf_num N cj cabs a P) x three_nz). Qed.
Lemma ex_matrix1 i j : (i < 2)%nat -> (j < 2)%nat -> matrix1 o ex_topo ex_p1 i j 0%nat 0%nat = ex_y i j.
Proof.
  intros Hi Hj. unfold matrix1, ex_p1.
  assert (E : ex_q1 = mkBranchParam one (- one) (- one) one) by exact (f_equal param1 ex_line_values). rewrite E.
  destruct i as [|[|i]]; [| |lia]; (destruct j as [|[|j]]; [| |lia]); cbn [entry_terms ex_topo mt_branch mt_shunt d_vec p_branch p_shunt combine flat_map param1 TwoPort.yff TwoPort.yft TwoPort.ytf TwoPort.ytt YBus.yff YBus.yft YBus.ytf YBus.ytt Nat.eqb andb app fold_left fst snd ex_y].
  - change (zero + one = one). ring.
  - change (zero + - one = - one). ring.
  - change (zero + - one = - one). ring.
  - change (zero + one + one = two). ring.
Qed.
Lemma ex_matrix3 i j p q : (i < 2)%nat -> (j < 2)%nat -> (p < 3)%nat -> (q < 3)%nat -> matrix3 o ex_topo ex_p3 i j p q = diagonal (ex_y i j) p q.
Proof.
  intros Hi Hj Hp Hq. unfold matrix3, ex_p3.
  set (tensor := fun x : C => TwoPort.tensor2 (TwoPort.c_div o (TwoPort.c_add o (TwoPort.c_mul o (TwoPort.two o) x) x) (TwoPort.three o)) (TwoPort.c_div o (TwoPort.c_sub o x x) (TwoPort.three o))).
  assert (E : ex_q3 = param3 (TwoPort.mkTwoPort (tensor one) (tensor (- one)) (tensor (- one)) (tensor one))).
  { exact (f_equal (fun w => param3 (TwoPort.mkTwoPort (tensor (TwoPort.yff w)) (tensor (TwoPort.yft w)) (tensor (TwoPort.ytf w)) (tensor (TwoPort.ytt w)))) ex_line_values). }
  rewrite E. clear E.
  assert (D : forall x, tensor_of (tensor x) p q = diagonal x p q).
  { intros x. pose proof (ex_same x) as E1. pose proof (ex_none x) as E2. unfold diagonal, tensor, tensor_of.
    destruct p as [|[|[|p]]]; [| | |lia]; (destruct q as [|[|[|q]]]; [| | |lia]); cbn [tensor_of phase_of TwoPort.tensor2 Nat.eqb]; first [exact E1|exact E2]. }
  assert (Ds : shunt_tensor o one one p q = diagonal one p q).
  { unfold shunt_tensor, diagonal. destruct (p =? q); [apply ex_same|apply ex_none]. }
  destruct i as [|[|i]]; [| |lia]; (destruct j as [|[|j]]; [| |lia]);
    cbn [entry_terms ex_topo mt_branch mt_shunt d_vec p_branch p_shunt combine flat_map param3 TwoPort.yff TwoPort.yft TwoPort.ytf TwoPort.ytt YBus.yff YBus.yft YBus.ytf YBus.ytt Nat.eqb andb app fold_left fst snd ex_y];
    unfold tensor_add, tensor_0; rewrite ?D, ?Ds; unfold diagonal; destruct (p =? q).
  all: match goal with |- ?l = ?r => change (l = r :> C) end; cbn [n_zero n_one n_add n_opp num_of].
  all: first [change (zero + one = one); ring|change (zero + - one = - one); ring|change (zero + one + one = two); ring|change (zero + zero = zero); ring|change (zero + zero + zero = zero); ring].
Qed.
Definition ex_sources (b : nat) : list nat := match b with 0%nat => [0%nat] | _ => [] end.
Definition ex_loads (b : nat) : list nat := match b with 1%nat => [0%nat] | _ => [] end.
Definition ex_two (k : nat) : C := two.
Definition ex_one (k : nat) : C := one.
Definition ex_s (l : nat) : C := - one.
(** the voltages 3/4 and 1/4 *)
Definition ex_u (b _ : nat) : C := match b with 0%nat => (two + one) / four | _ => one / four end.
Local Notation eq1 := (prepare_linear N cj a 1 2 (matrix1 o ex_topo ex_p1) ex_sources ex_loads ex_two ex_two ex_one (fun l _ => ex_s l)).
Local Notation eq3 := (prepare_linear N cj a 3 2 (matrix3 o ex_topo ex_p3) ex_sources ex_loads ex_two ex_two ex_one (fun l _ => ex_s l)).
Lemma dot_diagonal m x v p : (p < 3)%nat -> (forall q, (q < 3)%nat -> m p q = diagonal x p q) -> dot N 3 m v p = x * v p.
Proof.
  intros Hp H. unfold dot, nsum. cbn [seq map fold_right]. rewrite !H by lia. unfold diagonal. destruct p as [|[|[|p]]]; [| | |lia]; cbn [Nat.eqb]; ring.
Qed.
Lemma ex_source_y p q k : source_y N 3 ex_two ex_two k p q = diagonal two p q.
Proof. unfold source_y, y_ref, ex_two, diagonal. cbn [Nat.eqb]. destruct (p =? q); [apply ex_same|apply ex_none]. Qed.
Theorem C61_example : grid_params o [ex_line] [(one, one)] ex_p1 ex_p3 /\ solves N 1 2 eq1 ex_u /\ at_most_one o ex_topo 3 (e_mat eq3).
Proof.
  split; [exact ex_params|]. split.
  - apply (solves_residual N cj cabs a B). destruct (half_half N (pf_num N cj cabs a P) two_nz) as (h & Hh & E1 & E3). destruct (bus_values N (pf_num N cj cabs a P) h Hh) as [V0 V1].
    intros b p Hb Hp. assert (p = 0%nat) by lia. subst p. unfold network_current. cbn [seq map]. rewrite !(dot1 N cj cabs a B), !ex_matrix1 by lia.
    destruct b as [|[|b]]; [| |lia]; cbn [ex_loads ex_sources map]; unfold nsum; cbn [fold_right map]; rewrite ?(dot1 N cj cabs a B); unfold ex_u; rewrite E1, E3; [exact V0|].
    unfold ex_s. rewrite (conj_opp N cj cabs a P), (conj_one N cj cabs a P). exact V1.
  - intros x x' H. change (mt_n_bus ex_topo) with 2%nat in *.
    assert (Q : forall b p, (b < 2)%nat -> (p < 3)%nat -> residual N 3 2 eq3 x b p = residual N 3 2 eq3 x' b p).
    { intros b p Hb Hp. unfold residual. rewrite (H b p Hb Hp). reflexivity. }
    intros b p Hb Hp. pose proof (Q 0%nat p Nat.lt_0_2 Hp) as Q0. pose proof (Q 1%nat p Nat.lt_1_2 Hp) as Q1.
    rewrite !(prepare_residual N cj cabs a P) in Q0, Q1 by (auto; lia).
    unfold network_current in Q0, Q1. cbn [seq map ex_loads ex_sources] in Q0, Q1. unfold nsum in Q0, Q1. cbn [fold_right map] in Q0, Q1.
    rewrite !(dot_diagonal (matrix3 o ex_topo ex_p3 0%nat 0%nat) one), !(dot_diagonal (matrix3 o ex_topo ex_p3 0%nat 1%nat) (- one)), !(dot_diagonal (source_y N 3 ex_two ex_two 0%nat) two) in Q0
      by (auto; intros; first [now rewrite ex_matrix3 by lia|apply ex_source_y]).
    rewrite !(dot_diagonal (matrix3 o ex_topo ex_p3 1%nat 0%nat) (- one)), !(dot_diagonal (matrix3 o ex_topo ex_p3 1%nat 1%nat) two) in Q1 by (auto; intros; now rewrite ex_matrix3 by lia).
    unfold ex_s in Q1. rewrite (conj_opp N cj cabs a P), (conj_one N cj cabs a P) in Q1.
    assert (G : x 0%nat p = x' 0%nat p /\ x 1%nat p = x' 1%nat p).
    { apply (pair_unique N (pf_num N cj cabs a P)); [exact two_nz| |].
      - apply (move_across N (pf_num N cj cabs a P) _ _ _ _ _ Q0).
      - apply (move_across1 N (pf_num N cj cabs a P) _ _ _ _ Q1). }
    destruct b as [|[|b]]; [apply G|apply G|cbn in Hb; lia].
Qed.
End Example.
Print Assumptions C61_admittance.
Print Assumptions C61_linear.
Print Assumptions C61_iterative.
Print Assumptions C61_deviation.
Print Assumptions C61_fixed_point.
Print Assumptions C61_results.
Print Assumptions C61_branches.
Print Assumptions C61_shunts.
Print Assumptions C61_example.
