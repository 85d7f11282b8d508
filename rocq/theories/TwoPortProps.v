(** C26: the admittances of a branch are those of its circuit. *)
From Coq Require Import Field.
From Verif Require Import Common TwoPort TwoPortSpec TwoPortFacts TwoPortComplex.

Section Props.
Context {C : Type} (o : cx_ops C) (L : cx_laws o) (R : rot_laws o).
Local Notation "a + b" := (c_add o a b). Local Notation "a - b" := (c_sub o a b). Local Notation "a * b" := (c_mul o a b).
Local Notation "a / b" := (c_div o a b). Local Notation "- a" := (c_neg o a).
Local Notation one := (c_1 o). Local Notation zero := (c_0 o).
Add Field Cfield2 : (cl_field o L).

(** In every switch position, the currents calculated with the admittances of a branch are exactly the currents of its circuit
    (a line with unequal phases is covered by [C26_coupled_phases]). With both switches open the circuit carries no current; with one open it is the circuit with a free end. *)
Theorem C26_two_port : forall (b : branch_kind) (from_closed to_closed : bool) (u_from u_to i_from i_to : C),
  let '(y_series, y_shunt, n) := positive_sequence o b in
  transposed_line b -> regular o y_series y_shunt n ->
  injects o (calc_param_sym o from_closed to_closed true b) u_from u_to i_from i_to <-> pi_circuit o from_closed to_closed y_series y_shunt n u_from u_to i_from i_to.
Proof.
  intros b fs ts uf ut i_f i_t. pose proof (two_port_ok o L fs ts b uf ut i_f i_t R) as X.
  destruct (positive_sequence o b) as [[ys ysh] n]. exact X.
Qed.
(** A branch disconnected at both sides, or in a part of the grid without a source, contributes nothing; nothing is contributed at, or through, an open side. *)
Theorem C26_disconnected : forall (b : branch_kind) (fs ts connected : bool),
  (connected = false \/ (fs = false /\ ts = false) ->
    calc_param_sym o fs ts connected b = mkTwoPort zero zero zero zero /\
    exists p, calc_param_asym o fs ts connected b = Some p /\ forall x y, yff p x y = zero /\ yft p x y = zero /\ ytf p x y = zero /\ ytt p x y = zero) /\
  (fs = false -> let p := calc_param_sym o fs ts connected b in yff p = zero /\ yft p = zero /\ ytf p = zero) /\
  (ts = false -> let p := calc_param_sym o fs ts connected b in ytt p = zero /\ yft p = zero /\ ytf p = zero) /\
  (forall p, calc_param_asym o fs ts connected b = Some p ->
    (fs = false -> forall x y, yff p x y = zero /\ yft p x y = zero /\ ytf p x y = zero) /\ (ts = false -> forall x y, ytt p x y = zero /\ yft p x y = zero /\ ytf p x y = zero)).
Proof.
  intros b fs ts connected. pose proof (three_nz o L) as H3.
  assert (Sf : forall ts' ys ysh n, let p := calc_param_y_sym o false ts' ys ysh n in yff p = zero /\ yft p = zero /\ ytf p = zero) by (intros [|] ys ysh n; simpl; auto).
  assert (St : forall fs' ys ysh n, let p := calc_param_y_sym o fs' false ys ysh n in ytt p = zero /\ yft p = zero /\ ytf p = zero) by (intros [|] ys ysh n; simpl; auto).
  assert (F0 : forall ts' t, let p := transformer_param0 o false ts' t in yff p = zero /\ yft p = zero /\ ytf p = zero).
  { intros ts' t. unfold transformer_param0, transformer_param0_path. rewrite !andb_false_r.
    destruct (is_wye_n (tp_winding_from t) && is_wye_n (tp_winding_to t)), (is_zigzag_n (tp_winding_to t) && ts'); cbn [yff yft ytf ytt]; try apply Sf.
    all: destruct (is_wye_n (tp_winding_to t) && ts'); [destruct (c_eq0 o _)|]; cbn [yff yft ytf ytt two_port0]; auto. }
  assert (T0 : forall fs' t, let p := transformer_param0 o fs' false t in ytt p = zero /\ yft p = zero /\ ytf p = zero).
  { intros fs' t. unfold transformer_param0, transformer_param0_path. rewrite !andb_false_r.
    destruct (is_wye_n (tp_winding_from t) && is_wye_n (tp_winding_to t)), (is_zigzag_n (tp_winding_from t) && fs'); cbn [yff yft ytf ytt]; try apply St.
    all: destruct (is_wye_n (tp_winding_from t) && fs'); [destruct (c_eq0 o _)|]; cbn [yff yft ytf ytt two_port0]; auto. }
  assert (H3' := three_nz' o L).
  assert (Z : zero / three o = zero) by (field; auto).
  assert (Tz : forall x y, tensor2 ((two o * zero + zero) / three o) ((zero - zero) / three o) x y = zero).
  { intros x y. unfold tensor2. destruct (phase_eqb x y); field; auto. }
  assert (Mz : forall x y, dotm o (dotm o (get_sym_matrix o) (fun p q => match p, q with PhA, PhA => zero | PhB, PhB => zero | PhC, PhC => zero | _, _ => zero end)) (get_sym_matrix_inv o) x y = zero).
  { intros x y. unfold dotm. ring. }
  assert (Af : forall ts' p, asym_calc_param o false ts' b = Some p -> forall x y, yff p x y = zero /\ yft p x y = zero /\ ytf p x y = zero).
  { intros ts' p E x y. destruct b as [y1 ysh1 y0 ysh0|yl|yg yshg n|ys ysh|t]; try discriminate E; injection E as <-.
    - unfold calc_param_y_asym. cbn [yff yft ytf ytt]. destruct (Sf ts' y1 ysh1 one) as (-> & -> & ->). destruct (Sf ts' y0 ysh0 one) as (-> & -> & ->). auto.
    - unfold calc_param_y_asym. cbn [yff yft ytf ytt]. destruct (Sf ts' yl zero one) as (-> & -> & ->). auto.
    - unfold asym_line_asym. destruct ts'; simpl; auto.
    - unfold transformer_asym, transformer_sym. cbn [yff yft ytf ytt].
      destruct (Sf ts' (tp_y_series t) (tp_y_shunt t) (tp_k t * c_rot o (tp_clock t))) as (-> & -> & ->).
      destruct (Sf ts' (tp_y_series t) (tp_y_shunt t) (tp_k t * c_rot o (- tp_clock t))) as (-> & -> & ->). destruct (F0 ts' t) as (-> & -> & ->). auto. }
  assert (At : forall fs' p, asym_calc_param o fs' false b = Some p -> forall x y, ytt p x y = zero /\ yft p x y = zero /\ ytf p x y = zero).
  { intros fs' p E x y. destruct b as [y1 ysh1 y0 ysh0|yl|yg yshg n|ys ysh|t]; try discriminate E; injection E as <-.
    - unfold calc_param_y_asym. cbn [yff yft ytf ytt]. destruct (St fs' y1 ysh1 one) as (-> & -> & ->). destruct (St fs' y0 ysh0 one) as (-> & -> & ->). auto.
    - unfold calc_param_y_asym. cbn [yff yft ytf ytt]. destruct (St fs' yl zero one) as (-> & -> & ->). auto.
    - unfold asym_line_asym. destruct fs'; simpl; auto.
    - unfold transformer_asym, transformer_sym. cbn [yff yft ytf ytt].
      destruct (St fs' (tp_y_series t) (tp_y_shunt t) (tp_k t * c_rot o (tp_clock t))) as (-> & -> & ->).
      destruct (St fs' (tp_y_series t) (tp_y_shunt t) (tp_k t * c_rot o (- tp_clock t))) as (-> & -> & ->). destruct (T0 fs' t) as (-> & -> & ->). auto. }
  unfold calc_param_sym, calc_param_asym, energized. refine (conj _ (conj _ (conj _ _))).
  - intros H. assert (E : connected && (fs || ts) = false) by (destruct H as [->|[-> ->]]; auto using andb_false_r). rewrite E. split; auto.
    eexists. split; [reflexivity|]. intros x y. auto.
  - intros ->. destruct (connected && (false || ts)); [|simpl; auto].
    destruct b as [y1 ysh1 y0 ysh0|yl|yg yshg n|ys ysh|t]; unfold sym_calc_param, asym_line_sym, transformer_sym; apply Sf.
  - intros ->. destruct (connected && (fs || false)); [|simpl; auto].
    destruct b as [y1 ysh1 y0 ysh0|yl|yg yshg n|ys ysh|t]; unfold sym_calc_param, asym_line_sym, transformer_sym; apply St.
  - intros p E. destruct (connected && (fs || ts)); [|injection E as <-; simpl; auto].
    split; intros H; subst; [exact (Af _ p E)|exact (At _ p E)].
Qed.
(** Without phase shift the two-port is reciprocal. *)
Theorem C26_reciprocal : forall (b : branch_kind) (fs ts connected : bool),
  (let '(_, _, n) := positive_sequence o b in c_conj o n = n) ->
  yft (calc_param_sym o fs ts connected b) = ytf (calc_param_sym o fs ts connected b).
Proof.
  intros b fs ts connected Hn. unfold calc_param_sym. destruct (energized fs ts connected); auto.
  destruct b as [y1 ysh1 y0 ysh0|yl|yg yshg n|ys ysh|t]; simpl in *; apply reciprocal; auto.
Qed.
(** A line, link or transformer treated per phase acts on a balanced voltage as its positive sequence admittances. On the opposite phase order a line acts as on a balanced voltage,
    a transformer with its phase shift reversed; equal voltages in the three phases stay equal. *)
Theorem C26_balanced : forall (b : branch_kind) (fs ts connected : bool) (p : two_port mat),
  calc_param_asym o fs ts connected b = Some p -> (match b with KAsymLine _ _ => False | _ => True end) ->
  acts_as o p (positive o) (calc_param_sym o fs ts connected b) /\
  acts_as o p (negative o) (calc_param_sym o fs ts connected (match b with KTransformer t =>
     KGeneric (tp_y_series t) (tp_y_shunt t) (tp_k t * c_rot o (- tp_clock t)) | _ => b end)) /\
  exists q, acts_as o p (equal_phases o) q.
Proof.
  intros b fs ts connected p E Hb. unfold calc_param_asym, calc_param_sym in *. destruct (energized fs ts connected).
  - destruct b as [y1 ysh1 y0 ysh0|yl|yg yshg n|ys ysh|t]; try contradiction; try discriminate E; injection E as <-.
    + destruct (line_sequences o L fs ts y1 ysh1 y0 ysh0 one R) as (H1 & H2 & H0). eauto.
    + destruct (line_sequences o L fs ts yl zero yl zero one R) as (H1 & H2 & H0). eauto.
    + destruct (transformer_sequences o L fs ts t R) as (H1 & H2 & H0). eauto.
  - injection E as <-.
    assert (Z : forall s, acts_as o (mkTwoPort (mat0 o) (mat0 o) (mat0 o) (mat0 o)) s (two_port0 o)).
    { intros s u. repeat match goal with |- _ /\ _ => split end; intros x; unfold dotv, mat0, vscale; simpl; ring. }
    eauto.
Qed.
(** A line with coupled, unequal phases: in every switch position the currents are those of its circuit, provided that it has no shunt admittance at all, or none of the nine
    entries is below the tolerance. See [C26_half_open_refuted] for the rest. *)
Theorem C26_coupled_phases_partial : forall (fs ts : bool) (ys ysh : @mat C) (p : two_port mat) (u_from u_to i_from i_to : @vec C),
  calc_param_asym o fs ts true (KAsymLine ys ysh) = Some p ->
  det o ys <> zero -> no_shunt o ysh \/ (regular3 o ys ysh /\ forall x y, c_small o (ysh x y) = false) ->
  injects3 o p u_from u_to i_from i_to <-> pi_circuit3 o fs ts ys ysh u_from u_to i_from i_to.
Proof.
  intros fs ts ys ysh p uf ut i_f i_t E Hd Hs. unfold calc_param_asym, energized in E. simpl in E. destruct (fs || ts) eqn:Ef; injection E as <-.
  - now apply asym_line_circuit.
  - apply orb_false_iff in Ef as [-> ->]. rewrite <- (asym_line_circuit o L false false ys ysh uf ut i_f i_t Hd Hs). reflexivity.
Qed.
(** A transposed line given by matrices acts on a balanced voltage as in a symmetric calculation. *)
Theorem C26_coupled_balanced_partial : forall (fs ts : bool) (ys ysh : @mat C), ratio_ok o one -> transposed ys -> transposed ysh -> det o ys <> zero ->
  no_shunt o ysh \/ (regular3 o ys ysh /\ (forall x y, c_small o (ysh x y) = false) /\ seq1 o ysh + two o * seq1 o ys <> zero /\ c_small o (seq1 o ysh) = false) ->
  exists p, calc_param_asym o fs ts true (KAsymLine ys ysh) = Some p /\ acts_as o p (positive o) (calc_param_sym o fs ts true (KAsymLine ys ysh)).
Proof.
  intros fs ts ys ysh H1 Ts Tsh Hd Hs. unfold calc_param_asym, calc_param_sym, energized. simpl. destruct (fs || ts) eqn:Ef.
  - eexists. split; [reflexivity|]. now apply asym_line_balanced.
  - eexists. split; [reflexivity|]. intros u. repeat match goal with |- _ /\ _ => split end; intros x; unfold dotv, mat0, vscale; simpl; ring.
Qed.

(** The zero sequence of a transformer passes only between two earthed star windings; then it is the circuit with three times the earthing impedances in series, and
    reversed by the clock numbers 2, 6 and 10. *)
Theorem C26_zero_sequence : forall (fs ts : bool) (t : transformer_par), exists q, acts_as o (transformer_asym o fs ts t) (equal_phases o) q /\
  (~ (tp_winding_from t = WyeN /\ tp_winding_to t = WyeN) -> yft q = zero /\ ytf q = zero) /\
  (tp_winding_from t = WyeN -> tp_winding_to t = WyeN ->
    let y0 := one / (one / tp_y_series t + three o * (tp_z_grounding_to t + tp_z_grounding_from t / tp_k t / tp_k t)) in
    let n := if ((tp_clock t =? 2) || (tp_clock t =? 6) || (tp_clock t =? 10))%Z then - tp_k t else tp_k t in
    regular o y0 (tp_y0_shunt t) n -> forall u_from u_to i_from i_to,
    injects o q u_from u_to i_from i_to <-> pi_circuit o fs ts y0 (tp_y0_shunt t) n u_from u_to i_from i_to).
Proof.
  intros fs ts t. exists (transformer_param0 o fs ts t). destruct (transformer_sequences o L fs ts t R) as (_ & _ & H0).
  refine (conj H0 (conj _ _)).
  - intros Hw. unfold transformer_param0, transformer_param0_path. cbn [yft ytf].
    assert (E : is_wye_n (tp_winding_from t) && is_wye_n (tp_winding_to t) = false) by (destruct (tp_winding_from t), (tp_winding_to t); auto; exfalso; apply Hw; auto).
    rewrite E. destruct (is_zigzag_n (tp_winding_from t) && fs), (is_zigzag_n (tp_winding_to t) && ts), (is_wye_n (tp_winding_from t) && fs), (is_wye_n (tp_winding_to t) && ts); cbn [yft ytf];
      repeat match goal with |- context [if ?c then _ else _] => destruct c end; cbn [yff yft ytf ytt two_port0]; auto.
  - intros Ef Et. cbv zeta. unfold transformer_param0, transformer_param0_path. rewrite Ef, Et. cbn [is_wye_n is_zigzag_n andb zero_seq_available orb negb].
    intros Hr uf ut i_f i_t.
    set (y0 := one / (one / tp_y_series t + three o * (tp_z_grounding_to t + tp_z_grounding_from t / tp_k t / tp_k t))) in *.
    assert (N : forall b : bool, tp_k t * c_rot o (if b then 6 else 0)%Z = if b then - tp_k t else tp_k t).
    { intros [|]; [rewrite (rl_half o R)|rewrite (rl_0 o R)]; ring. }
    rewrite N. rewrite <- (sym_two_port o L fs ts y0 (tp_y0_shunt t) _ uf ut i_f i_t Hr). reflexivity.
Qed.

(** If not both windings are earthed stars, each closed side has its own path to earth in the zero sequence, seen at the from side through the ratio [k], and the added susceptance. *)
Lemma path_ok y z u i : (y = zero \/ one + y * z <> zero) -> (i = (if c_eq0 o y then zero else one / (one / y + z)) * u <-> earth_path o y z u i).
Proof.
  intros H. destruct (c_eq0 o y) eqn:E.
  - apply (cl_eq0 o L) in E. subst y. split.
    + intros ->. exists u. split; ring.
    + intros (v & _ & ->). ring.
  - assert (Ny : y <> zero) by (intros E'; apply (cl_eq0 o L) in E'; congruence). destruct H as [H|H]; [congruence|].
    assert (N2 : one / y + z <> zero).
    { intros X. apply H. transitivity (y * (one / y + z)); [field; exact Ny|]. rewrite X. ring. }
    assert (Hq : one / (one / y + z) = y / (one + y * z)) by (field; auto).
    rewrite Hq. split.
    + intros ->. exists (u / (one + y * z)). split; field; exact H.
    + intros (v & -> & Hi). assert (Hv : (z * i + v) = (one + y * z) * v) by (rewrite Hi; ring). rewrite Hv, Hi. field. exact H.
Qed.
Theorem C26_zero_sequence_earthed : forall (fs ts : bool) (t : transformer_par), ~ (tp_winding_from t = WyeN /\ tp_winding_to t = WyeN) ->
  tp_y_series t <> zero -> tp_k t <> zero -> ten o <> zero ->
  exists q, acts_as o (transformer_asym o fs ts t) (equal_phases o) q /\
  (fs = true ->
    let y := earth_admittance o (tp_winding_from t) (tp_winding_to t) (tp_y_series t) (tp_y0_shunt t) in
    let z := three o * tp_z_grounding_from t / tp_k t / tp_k t in
    (y = zero \/ one + y * z <> zero) -> forall u i,
    i = yff q * u <-> exists i1, earth_path o y z (u / tp_k t) (tp_k t * i1) /\ i = i1 + added_susceptance o (tp_winding_from t) (tp_winding_to t) (tp_low_susceptance t) * u) /\
  (ts = true ->
    let y := earth_admittance o (tp_winding_to t) (tp_winding_from t) (tp_y_series t) (tp_y0_shunt t) in
    let z := three o * tp_z_grounding_to t in
    (y = zero \/ one + y * z <> zero) -> forall u i,
    i = ytt q * u <-> exists i1, earth_path o y z u i1 /\ i = i1 + added_susceptance o (tp_winding_to t) (tp_winding_from t) (tp_low_susceptance t) * u).
Proof.
  intros fs ts t Hw Ny Nk N10. exists (transformer_param0 o fs ts t). destruct (transformer_sequences o L fs ts t R) as (_ & _ & H0).
  refine (conj H0 (conj _ _)).
  - intros ->. cbv zeta. set (y := earth_admittance o (tp_winding_from t) (tp_winding_to t) (tp_y_series t) (tp_y0_shunt t)).
    set (z := three o * tp_z_grounding_from t / tp_k t / tp_k t). intros Hy u i.
    set (g := if c_eq0 o y then zero else one / (one / y + z)).
    assert (E : yff (transformer_param0 o true ts t) = g / tp_k t / tp_k t + added_susceptance o (tp_winding_from t) (tp_winding_to t) (tp_low_susceptance t)).
    { unfold transformer_param0, transformer_param0_path. cbn [yff]. rewrite !andb_true_r.
      assert (Ew : is_wye_n (tp_winding_from t) && is_wye_n (tp_winding_to t) = false) by (destruct (tp_winding_from t), (tp_winding_to t); auto; exfalso; apply Hw; auto).
      rewrite Ew. unfold g, y, z. clear Hy g y z.
      assert (Zz : zero / tp_k t / tp_k t = zero) by (field; exact Nk).
      destruct (tp_winding_from t); cbn [is_wye_n is_zigzag_n is_delta zero_seq_available negb earth_admittance added_susceptance];
        rewrite ?(proj2 (cl_eq0 o L zero) eq_refl), ?Zz; try (destruct (is_wye_n (tp_winding_to t) && ts); [destruct (c_eq0 o _)|]; destruct (is_zigzag_n (tp_winding_to t) && ts); cbn [yff two_port0]; ring).
      - destruct (tp_winding_to t); cbn [is_wye_n is_zigzag_n is_delta zero_seq_available negb orb andb] in *; try discriminate;
          [destruct (c_eq0 o (tp_y0_shunt t)) eqn:Q|destruct (c_eq0 o (tp_y0_shunt t + tp_y_series t)) eqn:Q|destruct (c_eq0 o (tp_y0_shunt t)) eqn:Q|destruct (c_eq0 o (tp_y0_shunt t)) eqn:Q; destruct ts];
          cbn [yff two_port0]; rewrite ?Zz; try ring.
      - assert (N : c_eq0 o (ten o * tp_y_series t) = false).
        { destruct (c_eq0 o (ten o * tp_y_series t)) eqn:Q; [|reflexivity]. apply (cl_eq0 o L) in Q. exfalso. apply (mul_nz o L _ _ N10 Ny Q). }
        rewrite N. assert (Q : one / tp_y_series t / ten o = one / (ten o * tp_y_series t)) by (field; auto).
        destruct (is_wye_n (tp_winding_to t) && ts); [destruct (c_eq0 o _)|]; destruct (is_zigzag_n (tp_winding_to t) && ts); cbn [yff two_port0]; rewrite Q; ring. }
    rewrite E. split.
    + intros ->. exists (g / tp_k t / tp_k t * u). split; [|ring]. apply path_ok; [exact Hy|]. fold g. field. exact Nk.
    + intros (i1 & Hp & ->). apply path_ok in Hp; [|exact Hy]. fold g in Hp.
      assert (Hi : i1 = g / tp_k t / tp_k t * u) by (transitivity ((tp_k t * i1) / tp_k t); [field; exact Nk|rewrite Hp; field; exact Nk]).
      rewrite Hi. ring.
  - intros ->. cbv zeta. set (y := earth_admittance o (tp_winding_to t) (tp_winding_from t) (tp_y_series t) (tp_y0_shunt t)).
    set (z := three o * tp_z_grounding_to t). intros Hy u i.
    set (g := if c_eq0 o y then zero else one / (one / y + z)).
    assert (E : ytt (transformer_param0 o fs true t) = g + added_susceptance o (tp_winding_to t) (tp_winding_from t) (tp_low_susceptance t)).
    { unfold transformer_param0, transformer_param0_path. cbn [ytt]. rewrite !andb_true_r.
      assert (Ew : is_wye_n (tp_winding_from t) && is_wye_n (tp_winding_to t) = false) by (destruct (tp_winding_from t), (tp_winding_to t); auto; exfalso; apply Hw; auto).
      rewrite Ew. unfold g, y, z. clear Hy g y z.
      destruct (tp_winding_to t); cbn [is_wye_n is_zigzag_n is_delta zero_seq_available negb earth_admittance added_susceptance];
        rewrite ?(proj2 (cl_eq0 o L zero) eq_refl); try (destruct (is_wye_n (tp_winding_from t) && fs); [destruct (c_eq0 o _)|]; destruct (is_zigzag_n (tp_winding_from t) && fs); cbn [ytt two_port0]; ring).
      - destruct (tp_winding_from t); cbn [is_wye_n is_zigzag_n is_delta zero_seq_available negb orb andb] in *; try discriminate;
          [destruct (c_eq0 o (tp_y0_shunt t)) eqn:Q|destruct (c_eq0 o (tp_y0_shunt t + tp_y_series t)) eqn:Q|destruct (c_eq0 o (tp_y0_shunt t)) eqn:Q|destruct (c_eq0 o (tp_y0_shunt t)) eqn:Q; destruct fs];
          cbn [ytt two_port0]; try ring.
      - assert (N : c_eq0 o (ten o * tp_y_series t) = false).
        { destruct (c_eq0 o (ten o * tp_y_series t)) eqn:Q; [|reflexivity]. apply (cl_eq0 o L) in Q. exfalso. apply (mul_nz o L _ _ N10 Ny Q). }
        rewrite N. assert (Q : one / tp_y_series t / ten o = one / (ten o * tp_y_series t)) by (field; auto).
        destruct (is_wye_n (tp_winding_from t) && fs); [destruct (c_eq0 o _)|]; destruct (is_zigzag_n (tp_winding_from t) && fs); cbn [ytt two_port0]; rewrite Q; ring. }
    rewrite E. split.
    + intros ->. exists (g * u). split; [|ring]. apply path_ok; [exact Hy|]. reflexivity.
    + intros (i1 & Hp & ->). apply path_ok in Hp; [|exact Hy]. fold g in Hp. rewrite Hp. ring.
Qed.

(** A three-winding transformer contributes nothing at, or through, an open side, and nothing at all if no side is closed. *)
Theorem C26_three_winding : forall (s1 s2 s3 connected : bool) (t1 t2 t3 : transformer_par) (i : nat) (p : two_port C) (p3 : two_port mat),
  nth_error (branch3_calc_param_sym o s1 s2 s3 connected t1 t2 t3) i = Some p -> nth_error (branch3_calc_param_asym o s1 s2 s3 connected t1 t2 t3) i = Some p3 ->
  (nth i [s1; s2; s3] false = false -> (yff p = zero /\ yft p = zero /\ ytf p = zero) /\ forall x y, yff p3 x y = zero /\ yft p3 x y = zero /\ ytf p3 x y = zero) /\
  (connected = false \/ (s1 = false /\ s2 = false /\ s3 = false) -> ytt p = zero /\ forall x y, ytt p3 x y = zero) /\
  acts_as o p3 (positive o) p.
Proof.
  intros s1 s2 s3 connected t1 t2 t3 i p p3 E E3. unfold branch3_calc_param_sym, branch3_calc_param_asym in *.
  assert (D : forall s t, s = false -> (yff (calc_param_sym o s true true (KTransformer t)) = zero /\ yft (calc_param_sym o s true true (KTransformer t)) = zero /\
     ytf (calc_param_sym o s true true (KTransformer t)) = zero) /\
     forall x y, yff (transformer_asym o s true t) x y = zero /\ yft (transformer_asym o s true t) x y = zero /\ ytf (transformer_asym o s true t) x y = zero).
  { intros s t Hs. destruct (C26_disconnected (KTransformer t) s true true) as (_ & Hf & _ & Ha). split; [exact (Hf Hs)|].
    assert (Eq : calc_param_asym o s true true (KTransformer t) = Some (transformer_asym o s true t)) by (unfold calc_param_asym, energized; rewrite orb_true_r; reflexivity).
    destruct (Ha _ Eq) as [Hf' _]. exact (Hf' Hs). }
  assert (B : forall s t, acts_as o (transformer_asym o s true t) (positive o) (calc_param_sym o s true true (KTransformer t))).
  { intros s t. assert (Eq : calc_param_asym o s true true (KTransformer t) = Some (transformer_asym o s true t)) by (unfold calc_param_asym, energized; rewrite orb_true_r; reflexivity).
    exact (proj1 (C26_balanced (KTransformer t) s true true _ Eq I)). }
  assert (Z : acts_as o (mkTwoPort (mat0 o) (mat0 o) (mat0 o) (mat0 o)) (positive o) (two_port0 o)).
  { intros u. repeat match goal with |- _ /\ _ => split end; intros x; unfold dotv, mat0, vscale; simpl; ring. }
  destruct (connected && (s1 || s2 || s3)) eqn:En.
  - assert (Q : forall P : Prop, connected = false \/ (s1 = false /\ s2 = false /\ s3 = false) -> P).
    { intros P [->|(-> & -> & ->)]; [discriminate En|]. rewrite andb_false_r in En. discriminate. }
    destruct i as [|[|[|i]]]; simpl in E, E3; try (destruct i; discriminate); injection E as <-; injection E3 as <-; simpl nth;
      (refine (conj _ (conj _ _)); [apply D|apply Q|apply B]).
  - assert (Ep : p = two_port0 o) by (destruct i as [|[|[|i]]]; simpl in E; try (destruct i; discriminate); now injection E as <-).
    assert (Ep3 : p3 = mkTwoPort (mat0 o) (mat0 o) (mat0 o) (mat0 o)) by (destruct i as [|[|[|i]]]; simpl in E3; try (destruct i; discriminate); now injection E3 as <-).
    subst p p3. simpl. auto 10.
Qed.

(** ** what fails *)
Lemma half_open_counter : c_small o (two o) = false -> exists (ys ysh : @mat C) (u_from u_to i_from i_to : @vec C),
  transposed ys /\ transposed ysh /\ regular3 o ys ysh /\ pi_circuit3 o true false ys ysh u_from u_to i_from i_to /\
  forall p, calc_param_asym o true false true (KAsymLine ys ysh) = Some p -> ~ injects3 o p u_from u_to i_from i_to.
Proof.
  intros Hs. pose proof (two_nz o L) as H2. pose proof (one_nz o L) as H1. pose proof (three_nz o L) as H3.
  set (ys := tensor2 one zero). set (ysh := tensor2 (two o) zero).
  assert (D1 : det o ys = one) by (unfold det, ys, tensor2; simpl; ring).
  assert (D2 : det o ysh = two o * two o * two o) by (unfold det, ysh, tensor2; simpl; ring).
  assert (N2 : two o * two o * two o <> zero) by (repeat apply mul_nz; auto).
  exists ys, ysh, (fun _ => one), (fun _ => zero), (fun _ => three o / two o), (fun _ => zero).
  refine (conj _ (conj _ (conj (conj _ (conj _ _)) (conj _ _)))).
  - exists one, zero. reflexivity.
  - exists (two o), zero. reflexivity.
  - rewrite D1. auto.
  - rewrite D2. auto.
  - assert (D3 : det o (addm o (inv o ys) (scale o (two o) (inv o ysh))) = two o * two o * two o).
    { unfold det at 1, addm, scale, inv. rewrite D1, D2. unfold ys, ysh, cofactor_t, tensor2. cbn [phase_eqb]. unfold two in *. field. split; [exact (mul_nz o L _ _ H2 (mul_nz o L _ _ H2 H2))|exact H1]. }
    rewrite D3. auto.
  - exists (fun _ => one), (fun _ => half o), (fun _ => three o / two o), (fun _ => zero).
    refine (conj _ (conj _ (conj (conj _ _) (conj _ _)))); intros q; try reflexivity;
      destruct q; unfold vscale, vadd, vsub, dotv, ys, ysh, tensor2, half; cbn [phase_eqb]; unfold three, two in *; field; exact H2.
  - intros p E [Hf _]. unfold calc_param_asym, energized in E. simpl in E. injection E as <-. specialize (Hf PhA). unfold asym_line_asym in Hf. cbn [negb andb orb] in Hf.
    assert (Ef : all_phases (fun p => all_phases (fun q => negb (c_small o (ysh p q)))) = false).
    { unfold all_phases, ysh, tensor2. cbn [phase_eqb]. rewrite (cl_small0 o L). now rewrite !andb_false_r. }
    rewrite Ef in Hf. cbn [yff yft] in Hf. unfold vadd, dotv, mat0 in Hf.
    apply H3. transitivity (two o * (three o / two o)); [field; auto|]. rewrite Hf. ring.
Qed.
Lemma average_counter : ratio_ok o one -> exists (ys ysh : @mat C) (u_from u_to i_from i_to : C), (forall x y, ys x y = ys y x) /\ det o ys <> zero /\ no_shunt o ysh /\
  pi_circuit o true true (seq1 o ys) zero one u_from u_to i_from i_to /\
  ~ injects o (calc_param_sym o true true true (KAsymLine ys ysh)) u_from u_to i_from i_to.
Proof.
  intros Hr. pose proof (two_nz o L) as H2. pose proof (one_nz o L) as H1. pose proof (three_nz o L) as H3.
  set (ys := fun p q => if phase_eqb p q then two o else match p, q with PhB, PhC | PhC, PhB => one | _, _ => zero end).
  assert (S : seq1 o ys = two o - one / three o).
  { unfold seq1, dotv, positive, ys. cbn [phase_eqb].
    assert (X4 : c_rot o 8 * c_rot o 4 = one) by (rewrite <- (rl_add o R); exact (rl_period o R)).
    assert (X44 : c_rot o 4 * c_rot o 4 = c_rot o 8) by (rewrite <- (rl_add o R); reflexivity).
    assert (X88 : c_rot o 8 * c_rot o 8 = c_rot o 4) by (rewrite <- (rl_add o R); change (8 + 8)%Z with (12 + 4)%Z; rewrite (rl_add o R), (rl_period o R); ring).
    assert (X8 : c_rot o 8 = zero - one - c_rot o 4) by (rewrite <- (rl_three o R); ring).
    transitivity ((two o * (one + c_rot o 8 * c_rot o 4 + c_rot o 8 * c_rot o 4) + c_rot o 4 * c_rot o 4 + c_rot o 8 * c_rot o 8) / three o); [field; auto|].
    rewrite X4, X44, X88. transitivity ((two o * three o + (one + c_rot o 4 + c_rot o 8) - one) / three o); [f_equal; unfold three, two; ring|]. rewrite (rl_three o R). field. auto. }
  exists ys, (mat0 o), zero, one, (- seq1 o ys), (seq1 o ys). refine (conj _ (conj _ (conj _ (conj _ _)))).
  - intros [| |] [| |]; reflexivity.
  - unfold det, ys. cbn [phase_eqb]. assert (Ed : two o * (two o * two o - one * one) - zero * (zero * two o - one * zero) + zero * (zero * one - two o * zero) = two o * three o) by (unfold three, two; ring).
    rewrite Ed. now apply mul_nz.
  - intros x y. reflexivity.
  - exists zero, one, (- seq1 o ys), (seq1 o ys). refine (conj _ (conj _ (conj (conj _ _) (conj _ _)))); try reflexivity; try ring. rewrite (conj1 o L). ring.
  - intros [_ E]. unfold calc_param_sym, energized in E. cbn [negb andb orb sym_calc_param] in E. unfold asym_line_sym, calc_param_y_sym in E. cbn [negb andb orb ytf ytt] in E.
    rewrite S in E. unfold average_of_diagonal_of_matrix, average_of_off_diagonal_of_matrix, mat0, ys in E. cbn [phase_eqb] in E.
    assert (A1 : (two o + two o + two o) / three o = two o) by (transitivity (two o * three o / three o); [f_equal; unfold three, two; ring|field; auto]).
    assert (A2 : (zero + one + zero + one + zero + one) / (two o * three o) = one / two o) by (transitivity (three o / (two o * three o)); [f_equal; unfold three, two; ring|field; auto]).
    rewrite A1, A2 in E.
    assert (X : two o * three o * (two o - one / three o) = two o * three o * (two o - one / three o) - one).
    { rewrite E at 1. unfold half. transitivity (two o * three o * two o - three o); [field; auto|]. transitivity (two o * three o * two o - two o - one); [unfold three; ring|field; auto]. }
    apply H1. transitivity (two o * three o * (two o - one / three o) - (two o * three o * (two o - one / three o) - one)); [ring|]. rewrite <- X. ring.
Qed.
End Props.

Section Demo.
Context {C : Type} (o : cx_ops C) (L : cx_laws o).
Add Field Cfield3 : (cl_field o L).
Lemma demo_yn (t := mkTransformerPar (two o) (two o) (two o) (two o) 6 WyeN WyeN (two o) (c_0 o) (c_0 o)) :
  c_div o (c_1 o) (c_add o (c_div o (c_1 o) (tp_y_series t)) (c_mul o (three o) (c_add o (tp_z_grounding_to t) (c_div o (c_div o (tp_z_grounding_from t) (tp_k t)) (tp_k t))))) = half o.
Proof.
  pose proof (two_nz o L) as H2. simpl. unfold half. f_equal. transitivity (c_div o (c_mul o (two o) (two o)) (two o)); [|field; auto].
  transitivity (c_div o (c_add o (c_1 o) (three o)) (two o)); [field; auto|]. f_equal. unfold three, two. ring.
Qed.
Lemma neg_nz a : a <> c_0 o -> c_neg o a <> c_0 o.
Proof. intros H E. apply H. transitivity (c_neg o (c_neg o a)); [ring|]. rewrite E. ring. Qed.
Lemma demo_half_regular : c_small o (two o) = false -> ratio_ok o (c_neg o (two o)) -> regular o (half o) (two o) (c_neg o (two o)).
Proof.
  intros Hs Hr. pose proof (two_nz o L) as H2. refine (conj _ (conj _ (conj (or_intror Hs) Hr))).
  - intros E. apply (one_nz o L). transitivity (c_mul o (two o) (half o)); [unfold half; field; auto|]. rewrite E. ring.
  - intros E. apply (three_nz o L). rewrite <- E. unfold three, half. field. auto.
Qed.
Lemma demo_coupled : regular3 o (tensor2 (c_1 o) (c_0 o)) (tensor2 (two o) (c_1 o)).
Proof.
  pose proof (two_nz o L) as H2. pose proof (one_nz o L) as H1. pose proof (three_nz o L) as H3.
  assert (D1 : det o (tensor2 (c_1 o) (c_0 o)) = c_1 o) by (unfold det, tensor2; simpl; ring).
  assert (D2 : det o (tensor2 (two o) (c_1 o)) = c_mul o (two o) (two o)) by (unfold det, tensor2; simpl; unfold two; ring).
  assert (N2 : c_mul o (two o) (two o) <> c_0 o) by (apply mul_nz; auto).
  refine (conj _ (conj _ _)); [rewrite D1; auto|rewrite D2; auto|].
  intros E. apply (mul_nz o L (three o) (c_mul o (three o) (three o)) H3 (mul_nz o L _ _ H3 H3)).
  transitivity (c_mul o (two o) (c_0 o)); [|ring]. rewrite <- E. unfold det at 1, addm, scale, inv. rewrite D1, D2. unfold cofactor_t, tensor2. cbn [phase_eqb].
  unfold three, two in *. field. split; auto.
Qed.
End Demo.
Lemma six_eq' {C} (o : cx_ops C) (L : cx_laws o) : c_mul o (two o) (three o) = c_add o (two o) (c_mul o (two o) (two o)).
Proof.
  pose proof (cring o L) as Rg. unfold three. rewrite (Rmul_comm Rg), (Rdistr_l Rg), (Rmul_1_l Rg). apply (Radd_comm Rg).
Qed.
Lemma six_eq : c_mul alg_ops (two alg_ops) (three alg_ops) = c_add alg_ops (two alg_ops) (c_mul alg_ops (two alg_ops) (two alg_ops)).
Proof. exact (six_eq' alg_ops alg_laws). Qed.

(** A transposed line given by matrices without mutual capacitance, open at one side, draws no current at all in an asymmetric calculation. *)
Theorem C26_half_open_refuted : exists (ys ysh : @mat algebraic) (u_from u_to i_from i_to : @vec algebraic),
  transposed ys /\ transposed ysh /\ regular3 alg_ops ys ysh /\ pi_circuit3 alg_ops true false ys ysh u_from u_to i_from i_to /\
  forall p, calc_param_asym alg_ops true false true (KAsymLine ys ysh) = Some p -> ~ injects3 alg_ops p u_from u_to i_from i_to.
Proof. exact (half_open_counter alg_ops alg_laws alg_two_not_small). Qed.
(** The symmetric calculation does not use the positive sequence admittance of an untransposed line: one mutual admittance is counted twice and another left out. *)
Theorem C26_untransposed_refuted : exists (ys ysh : @mat algebraic) (u_from u_to i_from i_to : algebraic),
  (forall x y, ys x y = ys y x) /\ det alg_ops ys <> c_0 alg_ops /\ no_shunt alg_ops ysh /\
  pi_circuit alg_ops true true (seq1 alg_ops ys) (c_0 alg_ops) (c_1 alg_ops) u_from u_to i_from i_to /\
  ~ injects alg_ops (calc_param_sym alg_ops true true true (KAsymLine ys ysh)) u_from u_to i_from i_to.
Proof. apply (average_counter alg_ops alg_laws alg_rots). apply alg_ratio. intros E. exact (F_1_neq_0 (cl_field _ alg_laws) E). Qed.

(** ** the hypotheses are met *)
Definition e2 : algebraic := two alg_ops.
Lemma e2_nz : e2 <> c_0 alg_ops. Proof. exact (two_nz alg_ops alg_laws). Qed.
(** a transformer with ratio 2, phase shift 30 degrees, winding YNd, earthed *)
Definition demo_tr (c : Z) (wt : winding) : @transformer_par algebraic := mkTransformerPar e2 e2 e2 e2 c WyeN wt e2 (c_0 alg_ops) (c_0 alg_ops).
Example demo_regular : let '(ys, ysh, n) := positive_sequence alg_ops (KTransformer (demo_tr 1 Delta)) in regular alg_ops ys ysh n.
Proof.
  simpl. refine (conj e2_nz (conj _ (conj _ _))).
  - intros E. apply (mul_nz alg_ops alg_laws e2 (three alg_ops) e2_nz (three_nz alg_ops alg_laws)). rewrite <- E. exact six_eq.
  - right. exact alg_two_not_small.
  - apply alg_ratio. exact (mul_nz alg_ops alg_laws e2 (alg_rot 1) e2_nz (alg_rot_nz (n := 1%Z))).
Qed.
Example demo_currents : forall uf ut i_f i_t, injects alg_ops (calc_param_sym alg_ops true false true (KTransformer (demo_tr 1 Delta))) uf ut i_f i_t <->
  pi_circuit alg_ops true false e2 e2 (c_mul alg_ops e2 (alg_rot 1)) uf ut i_f i_t.
Proof. intros uf ut i_f i_t. apply (C26_two_port alg_ops alg_laws alg_rots (KTransformer (demo_tr 1 Delta)) true false uf ut i_f i_t I). exact demo_regular. Qed.
(** a line with coupled phases *)
Example demo_coupled_ok : regular3 alg_ops (tensor2 (c_1 alg_ops) (c_0 alg_ops)) (tensor2 (two alg_ops) (c_1 alg_ops)) /\
  forall x y, c_small alg_ops (tensor2 (two alg_ops) (c_1 alg_ops) x y) = false.
Proof.
  split; [exact (demo_coupled alg_ops alg_laws)|]. intros x y. unfold tensor2. destruct (phase_eqb x y); [exact alg_two_not_small|exact alg_one_not_small].
Qed.
Example demo_zero_sequence : regular alg_ops (half alg_ops) e2 (c_neg alg_ops e2).
Proof.
  apply (demo_half_regular alg_ops alg_laws alg_two_not_small). apply alg_ratio. exact (neg_nz alg_ops alg_laws e2 e2_nz).
Qed.
Print Assumptions C26_two_port.
Print Assumptions C26_disconnected.
Print Assumptions C26_reciprocal.
Print Assumptions C26_balanced.
Print Assumptions C26_coupled_phases_partial.
Print Assumptions C26_coupled_balanced_partial.
Print Assumptions C26_zero_sequence.
Print Assumptions C26_zero_sequence_earthed.
Print Assumptions C26_three_winding.
Print Assumptions C26_half_open_refuted.
Print Assumptions C26_untransposed_refuted.
