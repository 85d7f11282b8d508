(** The admittances of symmetric components are the same from phase to phase, so that their hermitian transposes act on balanced voltages too. *)
From Coq Require Import Field.
From Verif Require Import Common NatMap GroupedIdx Numbers ShortCircuit PowerFlow PowerFlowSpec PowerFlowFacts BalancedSpec BalancedFacts BalancedGrid BalancedProps YBus YBusSpec LinearSE BalancedSE BalancedSEFacts.
From Verif Require TwoPort TwoPortSpec TwoPortFacts TwoPortProps.

Lemma acts_same {C : Type} (o : num_ops C) (a : C) m m' y : (forall p q, p < 3 -> q < 3 -> m p q = m' p q) -> acts_balanced o a m y -> acts_balanced o a m' y.
Proof. intros E H x p Hp. rewrite <- (H x p Hp). apply nsum_ext. intros q Hq. apply in_seq in Hq. rewrite E by lia. reflexivity. Qed.

Section Grid.
Context {C : Type} (o : TwoPort.cx_ops C).
Hypothesis L : TwoPortSpec.cx_laws o.
Hypothesis R : TwoPortSpec.rot_laws o.
Local Notation cj := (TwoPort.c_conj o). Local Notation cabs := (TwoPort.c_abs o). Local Notation a := (a120 o). Local Notation N := (num_of o).
Hypothesis abs_square : forall x, n_mul N (cabs x) (cabs x) = n_mul N x (cj x).
Hypothesis abs_rot : forall x, cabs (n_mul N x a) = cabs x.
Let B : balanced_laws N cj cabs a := grid_laws o L R abs_square abs_rot.
Add Field FieldSG : (TwoPortSpec.cl_field o L).
Local Notation acts := (acts_balanced N a). Local Notation rot := (rotated N a).
Local Notation like := (BalancedSEFacts.like N cj a).

(** from a phase to the next one *)
Definition next (p : TwoPort.phase) : TwoPort.phase := match p with TwoPort.PhA => TwoPort.PhB | TwoPort.PhB => TwoPort.PhC | TwoPort.PhC => TwoPort.PhA end.
Definition cyclic (m : @TwoPort.mat C) : Prop := forall p q, m (next p) (next q) = m p q.
Lemma cyclic_like m y : cyclic m -> acts (tensor_of m) y -> like (tensor_of m) y.
Proof.
  intros H A. split; [exact A|]. intros x p Hp. assert (K : cj a = n_mul N a a) by apply (ba_conj N cj cabs a B). pose proof (a_square N cj cabs a (ba_pf N cj cabs a B)) as K2.
  pose proof (PowerFlowFacts.conj_one N cj cabs a (ba_pf N cj cabs a B)) as K1.
  pose proof (A (n_one N) 0 ltac:(lia)) as E. unfold nsum, tensor_of in E. cbn [seq map fold_right rotated phase_of] in E.
  pose proof (H TwoPort.PhA TwoPort.PhA) as H1. pose proof (H TwoPort.PhA TwoPort.PhB) as H2. pose proof (H TwoPort.PhA TwoPort.PhC) as H3.
  pose proof (H TwoPort.PhB TwoPort.PhA) as H4. pose proof (H TwoPort.PhB TwoPort.PhB) as H5. pose proof (H TwoPort.PhB TwoPort.PhC) as H6. cbn [next] in *.
  rewrite H1 in H5. rewrite H2 in H6. rewrite H3 in H4.
  assert (Ec : cj y = n_add N (cj (m TwoPort.PhA TwoPort.PhA)) (n_add N (n_mul N (cj (m TwoPort.PhA TwoPort.PhB)) a) (n_mul N (cj (m TwoPort.PhA TwoPort.PhC)) (n_mul N a a)))).
  { transitivity (cj (n_mul N y (n_one N))); [f_equal; cbn; ring|]. rewrite <- E. cbn [n_add n_mul n_zero n_one n_sub n_opp num_of] in *.
    rewrite !(TwoPortSpec.cl_conj_add o L), !(TwoPortSpec.cl_conj_mul o L), K, (TwoPortFacts.conj0 o L), K1. ring [K2]. }
  rewrite Ec. unfold nsum, hermitian, tensor_of. cbn [n_add n_mul n_zero n_one n_sub n_opp num_of] in *.
  destruct p as [|[|[|p]]]; [| | |lia]; cbn [seq map fold_right rotated phase_of n_add n_mul n_zero n_one num_of]; rewrite ?H1, ?H2, ?H3, ?H4, ?H5, ?H6; ring [K2].
Qed.
Lemma cyclic_ext m m' : (forall p q, m p q = m' p q) -> cyclic m -> cyclic m'.
Proof. intros E H p q. rewrite <- !E. apply H. Qed.
Lemma transposed_cyclic m : TwoPortSpec.transposed m -> cyclic m.
Proof. intros (s & c & E) p q. rewrite !E. now destruct p, q. Qed.
Lemma some_same {A} (x y : A) : Some x = Some y -> y = x. Proof. congruence. Qed.
Lemma cyclic_0 : cyclic (TwoPort.mat0 o). Proof. intros p q. reflexivity. Qed.
(** ** the branches *)
Lemma rot4_8 : TwoPort.c_mul o (TwoPort.c_rot o 4) (TwoPort.c_rot o 4) = TwoPort.c_rot o 8. Proof. rewrite <- (TwoPortSpec.rl_add o R). reflexivity. Qed.
Lemma sequences_cyclic y0 y1 y2 : cyclic (TwoPort.dotm o (TwoPort.dotm o (TwoPort.get_sym_matrix o) (fun p q => match p, q with TwoPort.PhA, TwoPort.PhA => y0 | TwoPort.PhB, TwoPort.PhB => y1 | TwoPort.PhC, TwoPort.PhC => y2 | _, _ => TwoPort.c_0 o end)) (TwoPort.get_sym_matrix_inv o)).
Proof.
  intros p q. pose proof (TwoPortFacts.three_nz o L) as H3. pose proof (TwoPortFacts.three_nz' o L) as H3'.
  assert (K2 : TwoPort.c_mul o (TwoPort.c_rot o 4) (TwoPort.c_rot o 4) = TwoPort.c_sub o (TwoPort.c_neg o (TwoPort.c_1 o)) (TwoPort.c_rot o 4)).
  { rewrite rot4_8. transitivity (TwoPort.c_sub o (TwoPort.c_add o (TwoPort.c_add o (TwoPort.c_1 o) (TwoPort.c_rot o 4)) (TwoPort.c_rot o 8)) (TwoPort.c_add o (TwoPort.c_1 o) (TwoPort.c_rot o 4))); [ring|]. rewrite (TwoPortSpec.rl_three o R). ring. }
  unfold TwoPort.dotm, TwoPort.get_sym_matrix, TwoPort.get_sym_matrix_inv, TwoPort.a120, TwoPort.a240, TwoPort.three, TwoPort.two in *. rewrite <- rot4_8.
  destruct p, q; cbn [next]; field [K2]; auto.
Qed.
Lemma tensor2_cyclic s c : cyclic (TwoPort.tensor2 s c). Proof. intros p q. now destruct p, q. Qed.
Lemma transposed_add m m' : TwoPortSpec.transposed m -> TwoPortSpec.transposed m' -> TwoPortSpec.transposed (TwoPort.addm o m m').
Proof. intros (s & c & E) (s' & c' & E'). exists (TwoPort.c_add o s s'), (TwoPort.c_add o c c'). intros p q. unfold TwoPort.addm. rewrite E, E'. now destruct (TwoPort.phase_eqb p q). Qed.
Lemma transposed_scale k m : TwoPortSpec.transposed m -> TwoPortSpec.transposed (TwoPort.scale o k m).
Proof. intros (s & c & E). exists (TwoPort.c_mul o k s), (TwoPort.c_mul o k c). intros p q. unfold TwoPort.scale. rewrite E. now destruct (TwoPort.phase_eqb p q). Qed.
Lemma transposed_neg m : TwoPortSpec.transposed m -> TwoPortSpec.transposed (TwoPort.negm o m).
Proof. intros (s & c & E). exists (TwoPort.c_neg o s), (TwoPort.c_neg o c). intros p q. unfold TwoPort.negm. rewrite E. now destruct (TwoPort.phase_eqb p q). Qed.
Lemma transposed_inv m : TwoPortSpec.transposed m -> TwoPortSpec.transposed (TwoPort.inv o m).
Proof.
  intros (s & c & E). exists (TwoPort.c_div o (TwoPort.c_sub o (TwoPort.c_mul o s s) (TwoPort.c_mul o c c)) (TwoPort.det o m)), (TwoPort.c_div o (TwoPort.c_sub o (TwoPort.c_mul o c c) (TwoPort.c_mul o s c)) (TwoPort.det o m)).
  intros p q. unfold TwoPort.inv, TwoPort.cofactor_t. generalize (TwoPort.det o m). intros d. destruct p, q; rewrite !E; cbn [TwoPort.phase_eqb]; f_equal; ring.
Qed.
Lemma branch_cyclic b m : symmetric_branch o b -> TwoPort.calc_param_asym o (br_from b) (br_to b) (br_connected b) (br_kind b) = Some m ->
  cyclic (TwoPort.yff m) /\ cyclic (TwoPort.yft m) /\ cyclic (TwoPort.ytf m) /\ cyclic (TwoPort.ytt m).
Proof.
  unfold symmetric_branch, TwoPort.calc_param_asym. intros Hb E. destruct (TwoPort.energized _ _ _); [|injection E as <-; cbn; repeat split; apply cyclic_0].
  destruct (br_kind b) as [y1 ysh1 y0 ysh0|yl|yg yshg r|ys ysh|t]; cbn [TwoPort.asym_calc_param] in E; try discriminate; apply some_same in E; subst m.
  - unfold TwoPort.calc_param_y_asym. cbn [TwoPort.yff TwoPort.yft TwoPort.ytf TwoPort.ytt]. repeat split; apply tensor2_cyclic.
  - unfold TwoPort.calc_param_y_asym. cbn [TwoPort.yff TwoPort.yft TwoPort.ytf TwoPort.ytt]. repeat split; apply tensor2_cyclic.
  - destruct Hb as (_ & _ & H1 & H2 & _). unfold TwoPort.asym_line_asym.
    assert (T : TwoPortSpec.transposed (TwoPort.addm o (TwoPort.scale o (TwoPort.half o) ysh) (TwoPort.inv o (TwoPort.addm o (TwoPort.inv o ys) (TwoPort.scale o (TwoPort.two o) (TwoPort.inv o ysh)))))) by
      auto 12 using transposed_add, transposed_scale, transposed_inv.
    assert (T0 : cyclic (if TwoPort.all_phases (fun p => TwoPort.all_phases (fun q => negb (TwoPort.c_small o (ysh p q)))) then
        TwoPort.addm o (TwoPort.scale o (TwoPort.half o) ysh) (TwoPort.inv o (TwoPort.addm o (TwoPort.inv o ys) (TwoPort.scale o (TwoPort.two o) (TwoPort.inv o ysh)))) else TwoPort.mat0 o)).
    { destruct (TwoPort.all_phases _); [now apply transposed_cyclic|apply cyclic_0]. }
    destruct (br_from b), (br_to b); cbn [negb andb orb TwoPort.yff TwoPort.yft TwoPort.ytf TwoPort.ytt]; repeat split; try apply cyclic_0; try exact T0;
      apply transposed_cyclic; auto using transposed_add, transposed_scale, transposed_neg.
  - unfold TwoPort.transformer_asym. cbn [TwoPort.yff TwoPort.yft TwoPort.ytf TwoPort.ytt]. repeat split; apply sequences_cyclic.
Qed.

(** ** the grid *)
Definition branch_same (q1 : branch_param (Y := C)) (q3 : branch_param (Y := nat -> nat -> C)) : Prop :=
  like (yff q3) (yff q1) /\ like (yft q3) (yft q1) /\ like (ytf q3) (ytf q1) /\ like (ytt q3) (ytt q1).
Lemma branch_likeness b q1 q3 : symmetric_branch o b -> branch_params o b q1 q3 -> branch_same q1 q3.
Proof.
  intros Hb Hp. destruct (branch_alike o L R abs_square abs_rot b q1 q3 Hb Hp) as (A1 & A2 & A3 & A4). destruct Hp as [-> (m & E & ->)].
  destruct (branch_cyclic b m Hb E) as (C1 & C2 & C3 & C4). cbn [yff yft ytf ytt param3] in *. repeat split; try assumption; apply cyclic_like; assumption.
Qed.
Lemma shunt_likeness y1 y0 : like (shunt_tensor o y1 y0) y1.
Proof.
  split; [apply (shunt_alike o L R abs_square abs_rot)|].
  set (m := TwoPort.tensor2 (shunt_tensor o y1 y0 0 0) (shunt_tensor o y1 y0 0 1)).
  assert (E : forall p q, p < 3 -> q < 3 -> tensor_of m p q = shunt_tensor o y1 y0 p q).
  { intros p q Hp Hq. destruct p as [|[|[|p]]], q as [|[|[|q]]]; try lia; reflexivity. }
  apply (acts_same N a (hermitian cj (tensor_of m))); [intros p q Hp Hq; unfold hermitian; now rewrite E|].
  apply cyclic_like; [apply tensor2_cyclic|]. apply (acts_same N a (shunt_tensor o y1 y0)); [intros p q Hp Hq; symmetry; now apply E|]. apply (shunt_alike o L R abs_square abs_rot).
Qed.
Lemma like_zero : like (tensor_0 o) (TwoPort.c_0 o).
Proof.
  split; [apply (acts_zero N cj cabs a B)|]. unfold hermitian, tensor_0. rewrite (TwoPortFacts.conj0 o L). apply (acts_zero N cj cabs a B).
Qed.
Lemma like_add m m' y y' : like m y -> like m' y' -> like (tensor_add o m m') (TwoPort.c_add o y y').
Proof.
  intros [H1 H2] [H1' H2']. split; [exact (acts_add N cj cabs a B m m' y y' H1 H1')|]. rewrite (TwoPortSpec.cl_conj_add o L).
  apply (acts_same N a (fun p q => n_add N (hermitian cj m p q) (hermitian cj m' p q))); [|exact (acts_add N cj cabs a B _ _ _ _ H2 H2')].
  intros p q _ _. unfold hermitian, tensor_add. symmetry. apply (TwoPortSpec.cl_conj_add o L).
Qed.
Lemma fold_like l1 l3 : Forall2 (fun y m => like m y) l1 l3 -> forall y m, like m y -> like (fold_left (tensor_add o) l3 m) (fold_left (TwoPort.c_add o) l1 y).
Proof. induction 1 as [|y m l1 l3 H F IH]; intros y' m' H'; cbn [fold_left]; [exact H'|]. apply IH. now apply like_add. Qed.
Lemma terms_like {S' S''} t (p1 : @model_param C S') (p3 : @model_param _ S'') i j : Forall2 branch_same (p_branch p1) (p_branch p3) -> Forall2 (fun y m => like m y) (p_shunt p1) (p_shunt p3) ->
  Forall2 (fun y m => like m y) (entry_terms t p1 i j) (entry_terms t p3 i j).
Proof.
  intros FB FS. unfold entry_terms. apply Forall2_app.
  - generalize (mt_branch t). induction FB as [|q1 q3 l1 l3 (H1 & H2 & H3 & H4) F IH]; intros [|[f to] bs]; cbn [combine flat_map]; try constructor.
    apply Forall2_app; [|apply IH].
    repeat apply Forall2_app; match goal with |- Forall2 _ (if ?c then _ else _) _ => destruct c end; repeat constructor; first [apply H1|apply H2|apply H3|apply H4].
  - generalize (d_vec (mt_shunt t)). induction FS as [|y m l1 l3 H F IH]; intros [|b bs]; cbn [combine flat_map]; try constructor.
    apply Forall2_app; [|apply IH]. cbn [fst snd]. destruct ((i =? j) && (b =? i)); repeat constructor; apply H.
Qed.
Lemma matrix_like {S' S''} t (p1 : @model_param C S') (p3 : @model_param _ S'') i j : Forall2 branch_same (p_branch p1) (p_branch p3) -> Forall2 (fun y m => like m y) (p_shunt p1) (p_shunt p3) ->
  like (matrix3 o t p3 i j) (matrix1 o t p1 i j 0 0).
Proof. intros FB FS. apply fold_like; [now apply terms_like|]. apply like_zero. Qed.

(** the parameters as the state estimation reads them *)
Definition side_of {Y} (q : branch_param (Y := Y)) (s b : bool) : Y := match s, b with false, false => yff q | false, true => yft q | true, false => ytf q | true, true => ytt q end.
Definition branches1 {S'} (p1 : @model_param C S') (k : nat) (s b : bool) : nat -> nat -> C := fun _ _ => match nth_error (p_branch p1) k with Some q => side_of q s b | None => TwoPort.c_0 o end.
Definition branches3 {S'} (p3 : @model_param (nat -> nat -> C) S') (k : nat) (s b : bool) : nat -> nat -> C := match nth_error (p_branch p3) k with Some q => side_of q s b | None => tensor_0 o end.
Definition shunts1 {S'} (p1 : @model_param C S') (k : nat) : nat -> nat -> C := fun _ _ => nth k (p_shunt p1) (TwoPort.c_0 o).
Definition shunts3 {S'} (p3 : @model_param (nat -> nat -> C) S') (k : nat) : nat -> nat -> C := nth k (p_shunt p3) (tensor_0 o).
Section Params.
Variables (branches : list (@branch C)) (shunts : list (C * C)).
Context {S' S'' : Type} (p1 : @model_param C S') (p3 : @model_param (nat -> nat -> C) S'').
Hypothesis params : grid_params o branches shunts p1 p3.
Lemma all_branches_same : Forall2 branch_same (p_branch p1) (p_branch p3).
Proof.
  destruct params as (E1 & E3 & H & _). apply BalancedProps.Forall2_nth; [congruence|]. intros k q1 q3 H1 H3.
  destruct (nth_error branches k) as [b|] eqn:Eb.
  - destruct (H k b q1 q3 Eb H1 H3) as [F1 F2]. now apply (branch_likeness b).
  - apply nth_error_None in Eb. assert (k < length (p_branch p1)) by (apply nth_error_Some; congruence). lia.
Qed.
Lemma all_shunts_same : Forall2 (fun y m => like m y) (p_shunt p1) (p_shunt p3).
Proof. destruct params as (_ & _ & _ & -> & ->). generalize shunts as ss. induction ss as [|x l IH]; cbn [map]; constructor; auto. apply shunt_likeness. Qed.
Lemma branch_param_like k s b : like (branches3 p3 k s b) (branches1 p1 k s b 0 0).
Proof.
  unfold branches1, branches3. pose proof all_branches_same as F. revert k. induction F as [|q1 q3 l1 l3 (H1 & H2 & H3 & H4) F IH]; intros [|k]; cbn [nth_error]; try apply like_zero; [|apply IH].
  destruct s, b; assumption.
Qed.
Lemma shunt_param_like k : like (shunts3 p3 k) (shunts1 p1 k 0 0).
Proof. unfold shunts1, shunts3. pose proof all_shunts_same as F. revert k. induction F as [|y m l1 l3 H F IH]; intros [|k]; cbn [nth]; try apply like_zero; [exact H|apply IH]. Qed.
Lemma ybus_like t i j : like (matrix3 o t p3 i j) (matrix1 o t p1 i j 0 0).
Proof. apply matrix_like; [exact all_branches_same|exact all_shunts_same]. Qed.
End Params.
End Grid.
