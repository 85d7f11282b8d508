(** The admittances of a grid of symmetric components, assembled for one phase and for three phases, act alike on balanced voltages. *)
From Coq Require Import Field.
From Verif Require Import Common NatMap GroupedIdx Numbers ShortCircuit PowerFlow PowerFlowSpec PowerFlowFacts BalancedSpec BalancedFacts YBus YBusSpec.
From Verif Require TwoPort TwoPortSpec TwoPortFacts TwoPortComplex TwoPortProps.

Section Grid.
Context {C : Type} (o : TwoPort.cx_ops C).
(** the numbers of TwoPort.v as those of PowerFlow.v *)
Definition num_of : num_ops C :=
  mkNum (TwoPort.c_0 o) (TwoPort.c_1 o) (TwoPort.c_add o) (TwoPort.c_mul o) (TwoPort.c_sub o) (TwoPort.c_neg o) (TwoPort.c_div o) (TwoPort.c_inv o).
Definition a120 : C := TwoPort.c_rot o 4.
(** phases as numbers *)
Definition phase_of (p : nat) : TwoPort.phase := match p with 0 => TwoPort.PhA | 1 => TwoPort.PhB | _ => TwoPort.PhC end.
Definition tensor_of (m : @TwoPort.mat C) : nat -> nat -> C := fun p q => m (phase_of p) (phase_of q).
Definition param1 (p : TwoPort.two_port C) : branch_param (Y := C) := mkBranchParam (TwoPort.yff p) (TwoPort.yft p) (TwoPort.ytf p) (TwoPort.ytt p).
Definition param3 (p : TwoPort.two_port TwoPort.mat) : branch_param (Y := nat -> nat -> C) :=
  mkBranchParam (tensor_of (TwoPort.yff p)) (tensor_of (TwoPort.yft p)) (tensor_of (TwoPort.ytf p)) (tensor_of (TwoPort.ytt p)).

(** A branch: its switches, whether it is in a part of the grid with a source, and its data. A three-winding transformer is three of them, C26_three_winding. *)
Record branch : Type := mkBranch { br_from : bool; br_to : bool; br_connected : bool; br_kind : @TwoPort.branch_kind C }.
(** its parameters in a symmetric and in an asymmetric calculation *)
Definition branch_params (b : branch) (q1 : branch_param) (q3 : branch_param) : Prop :=
  q1 = param1 (TwoPort.calc_param_sym o (br_from b) (br_to b) (br_connected b) (br_kind b)) /\
  exists m, TwoPort.calc_param_asym o (br_from b) (br_to b) (br_connected b) (br_kind b) = Some m /\ q3 = param3 m.
(** a line given by matrices must be transposed, and have no shunt entry that the code takes for zero (see C26) *)
Definition symmetric_branch (b : branch) : Prop :=
  match br_kind b with
  | TwoPort.KAsymLine ys ysh => br_connected b = true /\ TwoPortSpec.ratio_ok o (TwoPort.c_1 o) /\ TwoPortSpec.transposed ys /\ TwoPortSpec.transposed ysh /\ TwoPort.det o ys <> TwoPort.c_0 o /\
      (TwoPortFacts.no_shunt o ysh \/ (TwoPortFacts.regular3 o ys ysh /\ (forall x y, TwoPort.c_small o (ysh x y) = false) /\
         TwoPort.c_add o (TwoPortSpec.seq1 o ysh) (TwoPort.c_mul o (TwoPort.two o) (TwoPortSpec.seq1 o ys)) <> TwoPort.c_0 o /\ TwoPort.c_small o (TwoPortSpec.seq1 o ysh) = false))
  | _ => True
  end.
(** component/shunt.hpp 37-51 *)
Definition shunt_tensor (y1 y0 : C) : nat -> nat -> C :=
  fun p q => if p =? q then n_div num_of (n_add num_of (n_mul num_of (n_add num_of (n_one num_of) (n_one num_of)) y1) y0) (n_add num_of (n_add num_of (n_one num_of) (n_one num_of)) (n_one num_of))
             else n_div num_of (n_sub num_of y0 y1) (n_add num_of (n_add num_of (n_one num_of) (n_one num_of)) (n_one num_of)).
Definition tensor_add (m m' : nat -> nat -> C) : nat -> nat -> C := fun p q => TwoPort.c_add o (m p q) (m' p q).
Definition tensor_0 : nat -> nat -> C := fun _ _ => TwoPort.c_0 o.
(** the entries of the admittance matrix (C20) *)
Definition matrix1 {S'} (t : math_topo) (p : @model_param C S') (i j : nat) : nat -> nat -> C := fun _ _ => fold_left (TwoPort.c_add o) (entry_terms t p i j) (TwoPort.c_0 o).
Definition matrix3 {S'} (t : math_topo) (p : @model_param (nat -> nat -> C) S') (i j : nat) : nat -> nat -> C := fold_left tensor_add (entry_terms t p i j) tensor_0.

(** ** proofs *)
Hypothesis L : TwoPortSpec.cx_laws o.
Hypothesis R : TwoPortSpec.rot_laws o.
Hypothesis abs_square : forall x, TwoPort.c_mul o (TwoPort.c_abs o x) (TwoPort.c_abs o x) = TwoPort.c_mul o x (TwoPort.c_conj o x).
Hypothesis abs_rot : forall x, TwoPort.c_abs o (TwoPort.c_mul o x a120) = TwoPort.c_abs o x.
Add Field FieldBG : (TwoPortSpec.cl_field o L).
Lemma rot8 : TwoPort.c_mul o a120 a120 = TwoPort.c_rot o 8.
Proof. unfold a120. rewrite <- (TwoPortSpec.rl_add o R). reflexivity. Qed.
Lemma grid_laws : balanced_laws num_of (TwoPort.c_conj o) (TwoPort.c_abs o) a120.
Proof.
  constructor; [constructor| |]; cbn [n_zero n_one n_add n_mul n_sub n_opp n_div num_of].
  - constructor. exact (TwoPortSpec.cl_field o L).
  - exact (TwoPortSpec.cl_conj_add o L).
  - exact (TwoPortSpec.cl_conj_mul o L).
  - exact (TwoPortSpec.cl_conj_conj o L).
  - exact abs_square.
  - exact (TwoPortSpec.cl_three o L).
  - rewrite rot8. exact (TwoPortSpec.rl_three o R).
  - unfold a120 at 1. rewrite (TwoPortSpec.rl_conj o R), rot8.
    transitivity (TwoPort.c_mul o (TwoPort.c_rot o (- (4))) (TwoPort.c_rot o 12)); [rewrite (TwoPortSpec.rl_period o R); ring|]. rewrite <- (TwoPortSpec.rl_add o R). reflexivity.
  - exact abs_rot.
Qed.
Local Notation acts := (acts_balanced num_of a120).
Lemma acts_mat m y : (forall u, TwoPortSpec.veq (TwoPort.dotv o m (TwoPortSpec.vscale o u (TwoPortSpec.positive o))) (TwoPortSpec.vscale o (TwoPort.c_mul o y u) (TwoPortSpec.positive o))) ->
  acts (tensor_of m) y.
Proof.
  intros H x p Hp. specialize (H x (phase_of p)). unfold TwoPort.dotv, TwoPortSpec.vscale, TwoPortSpec.positive in H.
  destruct p as [|[|[|p]]]; [| | |lia]; unfold nsum, tensor_of; cbn [seq map fold_right rotated n_mul n_add n_zero num_of tensor_of phase_of] in *; rewrite ?rot8; fold a120 in H |- *.
  - transitivity (TwoPort.c_mul o (TwoPort.c_mul o y x) (TwoPort.c_1 o)); [rewrite <- H; ring|ring].
  - transitivity (TwoPort.c_mul o (TwoPort.c_mul o y x) (TwoPort.c_rot o 8)); [rewrite <- H; ring|ring].
  - transitivity (TwoPort.c_mul o (TwoPort.c_mul o y x) a120); [rewrite <- H; ring|ring].
Qed.
Definition alike (q1 : branch_param (Y := C)) (q3 : branch_param (Y := nat -> nat -> C)) : Prop :=
  acts (yff q3) (yff q1) /\ acts (yft q3) (yft q1) /\ acts (ytf q3) (ytf q1) /\ acts (ytt q3) (ytt q1).
Lemma branch_alike b q1 q3 : symmetric_branch b -> branch_params b q1 q3 -> alike q1 q3.
Proof.
  intros Hb [-> (m & E & ->)].
  assert (H : TwoPortSpec.acts_as o m (TwoPortSpec.positive o) (TwoPort.calc_param_sym o (br_from b) (br_to b) (br_connected b) (br_kind b))).
  { unfold symmetric_branch in Hb. destruct (br_kind b) as [y1 ysh1 y0 ysh0|yl|yg yshg r|ys ysh|t] eqn:K;
      try (apply (proj1 (TwoPortProps.C26_balanced o L R _ _ _ _ _ E I))).
    destruct Hb as (Hc & H1 & H2 & H3 & H4 & H5). rewrite Hc in *. destruct (TwoPortProps.C26_coupled_balanced_partial o L R (br_from b) (br_to b) ys ysh H1 H2 H3 H4 H5) as (m' & E' & H).
    rewrite E in E'. injection E' as <-. exact H. }
  repeat split; apply acts_mat; intros u; destruct (H u) as (F1 & F2 & F3 & F4); assumption.
Qed.
Lemma shunt_alike y1 y0 : acts (shunt_tensor y1 y0) y1.
Proof. apply (acts_tensor num_of _ _ _ grid_laws). Qed.

Lemma fold_alike l1 l3 : Forall2 (fun y m => acts m y) l1 l3 -> forall y m, acts m y -> acts (fold_left tensor_add l3 m) (fold_left (TwoPort.c_add o) l1 y).
Proof.
  induction 1 as [|y m l1 l3 H F IH]; intros y' m' H'; cbn [fold_left]; [exact H'|]. apply IH. unfold tensor_add.
  apply (acts_add num_of _ _ _ grid_laws m' m y' y H' H).
Qed.
Lemma terms_alike {S' S''} t (p1 : @model_param C S') (p3 : @model_param _ S'') i j : Forall2 alike (p_branch p1) (p_branch p3) -> Forall2 (fun y m => acts m y) (p_shunt p1) (p_shunt p3) ->
  Forall2 (fun y m => acts m y) (entry_terms t p1 i j) (entry_terms t p3 i j).
Proof.
  intros FB FS. unfold entry_terms. apply Forall2_app.
  - generalize (mt_branch t). induction FB as [|q1 q3 l1 l3 (H1 & H2 & H3 & H4) F IH]; intros [|[f to] bs]; cbn [combine flat_map]; try constructor.
    apply Forall2_app; [|apply IH].
    repeat apply Forall2_app; match goal with |- Forall2 _ (if ?c then _ else _) _ => destruct c end; repeat constructor; assumption.
  - generalize (d_vec (mt_shunt t)). induction FS as [|y m l1 l3 H F IH]; intros [|b bs]; cbn [combine flat_map]; try constructor.
    apply Forall2_app; [|apply IH]. cbn [fst snd]. destruct ((i =? j) && (b =? i)); repeat constructor; assumption.
Qed.
Lemma matrix_alike {S' S''} t (p1 : @model_param C S') (p3 : @model_param _ S'') i j : Forall2 alike (p_branch p1) (p_branch p3) -> Forall2 (fun y m => acts m y) (p_shunt p1) (p_shunt p3) ->
  acts (matrix3 t p3 i j) (matrix1 t p1 i j 0 0).
Proof. intros FB FS. apply fold_alike; [now apply terms_alike|]. apply (acts_zero num_of _ _ _ grid_laws). Qed.
End Grid.
