(** C61 for the Newton-Raphson power flow: with balanced loads on a grid of symmetric components every iteration of the asymmetric calculation is the balanced one of the symmetric calculation. *)
From Coq Require Import Reals Lra Field.
From Verif Require Import Common Numbers NumbersPair ShortCircuit ShortCircuitFacts PowerFlow PowerFlowSpec PowerFlowFacts BalancedSpec BalancedFacts NewtonRaphson NewtonSpec NewtonReals.
Local Open Scope R_scope.

Local Notation ro := real_num. Local Notation cxo := (pair_num real_num). Local Notation cj := (cconj real_num).
Local Notation rot := (rotated cxo real_root). Local Notation acts := (acts_balanced cxo real_root).
Local Notation C := (NumbersPair.cx (R := R)).
Ltac cc := cbn [pair_num n_add n_mul n_sub n_opp n_zero n_one]; unfold NumbersPair.cadd, NumbersPair.csub, NumbersPair.cmul, NumbersPair.copp, NumbersPair.cconj, NumbersPair.re, NumbersPair.im; cbn [pair_num real_num n_add n_mul n_sub n_opp n_zero n_one n_div fst snd].

(** ** The complex numbers *)
Lemma rsum2 x y : x * x + y * y = 0 -> x = 0 /\ y = 0. Proof. intros H. split; nra. Qed.
Lemma cx_balanced : balanced_laws cxo cj (fun z => (real_abs z, 0)) real_root.
Proof.
  assert (Q : sqrt 3 * sqrt 3 = 3) by (apply sqrt_sqrt; lra).
  constructor; [constructor|..].
  - apply (pair_num_laws real_num real_num_laws). exact rsum2.
  - intros [? ?] [? ?]. cc. f_equal; ring.
  - intros [? ?] [? ?]. cc. f_equal; ring.
  - intros [? ?]. cc. f_equal; ring.
  - intros [p q]. unfold real_abs. cc. assert (H : sqrt (p * p + q * q) * sqrt (p * p + q * q) = p * p + q * q) by (apply sqrt_sqrt; nra). f_equal; [rewrite Rmult_0_l, Rminus_0_r, H|]; ring.
  - cc. intros [= H]. lra.
  - unfold real_root. cc. f_equal; nra.
  - unfold real_root. cc. f_equal; nra.
  - intros [p q]. unfold real_abs, real_root. cc. f_equal. f_equal. 
    replace ((p * - (1 / 2) - q * (sqrt 3 / 2)) * (p * - (1 / 2) - q * (sqrt 3 / 2)) + (p * (sqrt 3 / 2) + q * - (1 / 2)) * (p * (sqrt 3 / 2) + q * - (1 / 2)))
      with ((p * p + q * q) * (1 / 4 + (sqrt 3 * sqrt 3) / 4)) by field. rewrite Q. field.
Qed.
Local Notation BL := (cx_balanced).
Local Notation LC := (pf_num _ _ _ _ (ba_pf _ _ _ _ BL)).
Lemma re_sum {A} (f : A -> C) l : NumbersPair.re (nsum cxo (map f l)) = nsum ro (map (fun x => NumbersPair.re (f x)) l).
Proof. induction l as [|x l IH]; [reflexivity|]. cbn [map nsum fold_right]. cbn [pair_num n_add]. unfold NumbersPair.cadd. cbn [NumbersPair.re fst]. f_equal. exact IH. Qed.
Lemma im_sum {A} (f : A -> C) l : NumbersPair.im (nsum cxo (map f l)) = nsum ro (map (fun x => NumbersPair.im (f x)) l).
Proof. induction l as [|x l IH]; [reflexivity|]. cbn [map nsum fold_right]. cbn [pair_num n_add]. unfold NumbersPair.cadd. cbn [NumbersPair.im snd]. f_equal. exact IH. Qed.
Lemma conj_sum {A} (f : A -> C) l : cj (nsum cxo (map f l)) = nsum cxo (map (fun x => cj (f x)) l).
Proof. induction l as [|x l IH]; cbn [map nsum fold_right]; [cc; f_equal; ring|]. fold (nsum cxo (map f l)) (nsum cxo (map (fun x => cj (f x)) l)). rewrite <- IH. apply (pf_conj_add _ _ _ _ (ba_pf _ _ _ _ BL)). Qed.
Lemma acts_opp m y : acts m y -> acts (fun p q => NumbersPair.copp ro (m p q)) (NumbersPair.copp ro y).
Proof.
  intros H x p Hp. specialize (H x p Hp). rewrite (nsum_ext cxo _ (fun q => n_mul cxo (NumbersPair.copp ro (1, 0)) (n_mul cxo (m p q) (rot q x)))) by (intros; destruct (m p x0), (rot x0 x); cc; f_equal; ring).
  rewrite (nsum_scale cxo LC), H, <- (rot_mul cxo cj _ real_root BL). f_equal. destruct y, x. cc. f_equal; ring.
Qed.
Lemma acts_diag m y v w : acts m y -> (forall p, (p < 3)%nat -> v p = w) -> acts (fun p q => if (p =? q)%nat then NumbersPair.cadd ro (m p q) (v p) else m p q) (NumbersPair.cadd ro y w).
Proof.
  intros H V x p Hp. specialize (H x p Hp). rewrite <- (V p Hp).
  replace (rot p (n_mul cxo (NumbersPair.cadd ro y (v p)) x)) with (n_add cxo (rot p (n_mul cxo y x)) (n_mul cxo (v p) (rot p x))).
  - rewrite <- H. clear H V. destruct p as [|[|[|p]]]; [| | |lia]; cbn [seq map Nat.eqb nsum fold_right];
      repeat match goal with |- context [m ?i ?j] => generalize (m i j); intros [? ?] end; repeat match goal with |- context [rot ?i ?z] => generalize (rot i z); intros [? ?] end;
      repeat match goal with |- context [v ?i] => generalize (v i); intros [? ?] end; cc; f_equal; ring.
  - rewrite <- (rot_mul cxo cj _ real_root BL), <- (rot_add cxo cj _ real_root BL). f_equal. destruct y, (v p), x. cc. f_equal; ring.
Qed.
(** ** Blocks and rows that act alike on the same angles and magnitudes in all phases *)
Local Notation sum3 f := (nsum ro (map f (seq 0 3))).
Definition block_like (k1 k3 : block (R := R)) : Prop := forall p, (p < 3)%nat ->
  sum3 (bh k3 p) = bh k1 0%nat 0%nat /\ sum3 (bn k3 p) = bn k1 0%nat 0%nat /\ sum3 (bm k3 p) = bm k1 0%nat 0%nat /\ sum3 (bl k3 p) = bl k1 0%nat 0%nat.
Definition polar_like (d1 d3 : polar (R := R)) : Prop := forall p, (p < 3)%nat -> pa d3 p = pa d1 0%nat /\ pb d3 p = pb d1 0%nat.
Lemma sum3_eq (f : nat -> R) : sum3 f = f 0%nat + (f 1%nat + (f 2%nat + 0)). Proof. reflexivity. Qed.
Lemma add_diag_like t3 (t1 : rtensor (R := R)) v3 v1 p : (p < 3)%nat -> sum3 (t3 p) = t1 0%nat 0%nat -> v3 p = v1 0%nat -> sum3 (add_diag ro t3 v3 p) = add_diag ro t1 v1 0%nat 0%nat.
Proof.
  intros Hp H E. unfold add_diag. cbn [Nat.eqb]. rewrite <- H, <- E, !sum3_eq. cbn [real_num n_add]. destruct p as [|[|[|p]]]; [| | |lia]; cbn [Nat.eqb]; ring.
Qed.
Lemma tplus_like t3 t3' (t1 t1' : rtensor (R := R)) p : sum3 (t3 p) = t1 0%nat 0%nat -> sum3 (t3' p) = t1' 0%nat 0%nat -> sum3 (tplus ro t3 t3' p) = tplus ro t1 t1' 0%nat 0%nat.
Proof. intros H H'. unfold tplus. rewrite <- H, <- H', !sum3_eq. cbn [real_num n_add]. ring. Qed.
Lemma block_add_like k1 k1' k3 k3' : block_like k1 k3 -> block_like k1' k3' -> block_like (block_add ro k1 k1') (block_add ro k3 k3').
Proof. intros H H' p Hp. destruct (H p Hp) as (A & B & D & E). destruct (H' p Hp) as (A' & B' & D' & E'). unfold block_add. cbn [bh bn bm bl]. repeat split; apply tplus_like; assumption. Qed.
Lemma sum_row3 t p : sum_row ro 3 t p = sum3 (t p). Proof. reflexivity. Qed.
Lemma sum_row1 t p : sum_row ro 1 t p = t p 0%nat. Proof. unfold sum_row. cbn. ring. Qed.
Lemma power_like y3 y (ui uj : C) p : acts y3 y -> (p < 3)%nat ->
  nsum cxo (map (fun q => NumbersPair.cmul ro (NumbersPair.cmul ro (rot p ui) (cj (rot q uj))) (cj (y3 p q))) (seq 0 3)) = NumbersPair.cmul ro (NumbersPair.cmul ro ui (cj uj)) (cj y).
Proof.
  intros H Hp. specialize (H uj p Hp).
  rewrite (nsum_ext cxo _ (fun q => n_mul cxo (rot p ui) (cj (n_mul cxo (y3 p q) (rot q uj))))) by (intros q _; destruct (rot p ui), (rot q uj), (y3 p q); cc; f_equal; ring).
  rewrite (nsum_scale cxo LC). rewrite <- conj_sum, H. rewrite (rot_power cxo cj _ real_root BL). destruct ui, uj, y. cc. f_equal; ring.
Qed.
Lemma hnml_like y3 y1 (ui3 uj3 ui1 uj1 : nat -> C) : acts y3 (y1 0%nat 0%nat) -> (forall p, (p < 3)%nat -> ui3 p = rot p (ui1 0%nat)) -> (forall p, (p < 3)%nat -> uj3 p = rot p (uj1 0%nat)) ->
  block_like (calculate_hnml ro y1 ui1 uj1) (calculate_hnml ro y3 ui3 uj3).
Proof.
  intros H Hi Hj p Hp. pose proof (power_like y3 (y1 0%nat 0%nat) (ui1 0%nat) (uj1 0%nat) p H Hp) as P.
  assert (Q : nsum cxo (map (fun q => NumbersPair.cmul ro (NumbersPair.cmul ro (ui3 p) (cj (uj3 q))) (cj (y3 p q))) (seq 0 3)) = NumbersPair.cmul ro (NumbersPair.cmul ro (ui1 0%nat) (cj (uj1 0%nat))) (cj (y1 0%nat 0%nat))).
  { rewrite <- P. apply nsum_ext. intros q Hq. apply in_seq in Hq. rewrite Hi, Hj by lia. reflexivity. }
  clear P. pose proof (f_equal NumbersPair.re Q) as QR. pose proof (f_equal NumbersPair.im Q) as QI. rewrite re_sum in QR. rewrite im_sum in QI.
  unfold calculate_hnml. cbn [bh bn bm bl]. refine (conj QI (conj QR (conj _ QI))). rewrite <- QR. rewrite !sum3_eq. cbn [real_num n_opp]. ring.
Qed.

Section Run.
Variables (tol : R) (n : nat) (ybus1 ybus3 : nat -> nat -> ctensor (R := R)) (sources loads : nat -> list nat) (y1 y0 u_ref : nat -> C) (ty : nat -> load_type) (s : nat -> C).
Variables (status : nat -> bool) (regulators_of : nat -> list nat) (regs : nat -> regulator (R := R)).
Hypothesis Hy : forall i j, (i < n)%nat -> (j < n)%nat -> acts (ybus3 i j) (ybus1 i j 0%nat 0%nat).
Local Notation power := (fun (l _ : nat) => s l).
Local Notation sy np := (source_y cxo np y1 y0). Local Notation su := (source_u cxo real_root u_ref).
Local Notation matches := (balanced_for cxo real_root n).
Definition row_like (r1 r3 : row (R := R)) : Prop := (forall j, (j < n)%nat -> block_like (r_jac r1 j) (r_jac r3 j)) /\ polar_like (r_del r1) (r_del r3).
Lemma set_like (f1 f3 : nat -> block (R := R)) i k1 k3 : (forall j, (j < n)%nat -> block_like (f1 j) (f3 j)) -> block_like k1 k3 -> forall j, (j < n)%nat -> block_like (set_entry f1 i k1 j) (set_entry f3 i k3 j).
Proof. intros H K j Hj. unfold set_entry. destruct (j =? i)%nat; [exact K|apply H; exact Hj]. Qed.
Lemma source_acts i : acts (sy 3 i) (sy 1 i 0%nat 0%nat).
Proof. exact (acts_source cxo cj _ real_root BL (y1 i) (y0 i)). Qed.
Lemma source_turned i p : su i p = rot p (su i 0%nat).
Proof. unfold source_u. exact (rot_phasor cxo cj _ real_root BL p (u_ref i)). Qed.

Lemma network_row_like u1 u3 b : matches u1 u3 -> (b < n)%nat -> row_like (network_row ro 1 n ybus1 u1 b) (network_row ro 3 n ybus3 u3 b).
Proof.
  intros M Hb. unfold network_row.
  set (f1 := fun r j => mkRow _ _). set (f3 := fun r j => mkRow _ _).
  assert (F : forall l r1 r3, (forall j, In j l -> (j < n)%nat) -> row_like r1 r3 -> row_like (fold_left f1 l r1) (fold_left f3 l r3)).
  { induction l as [|j l IH]; intros r1 r3 Hl R; cbn [fold_left]; [exact R|]. apply IH; [intros; apply Hl; now right|].
    assert (Hj : (j < n)%nat) by (apply Hl; now left).
    assert (K : block_like (calculate_hnml ro (ybus1 b j) (u1 b) (u1 j)) (calculate_hnml ro (ybus3 b j) (u3 b) (u3 j))) by (apply hnml_like; [apply Hy; assumption|intros p Hp; apply M; assumption|intros p Hp; apply M; assumption]).
    destruct R as [R D]. unfold f1, f3. split; cbn [r_jac r_del]; [apply set_like; assumption|]. intros p Hp. cbn [pa pb]. unfold vminus. rewrite !sum_row1, !sum_row3.
    destruct (K p Hp) as (K1 & K2 & _). destruct (D p Hp) as [D1 D2]. rewrite K1, K2, D1, D2. split; reflexivity. }
  assert (Z : row_like (fold_left f1 (seq 0 n) (mkRow (fun _ => zero_block ro) (mkPolar (v0 ro) (v0 ro)))) (fold_left f3 (seq 0 n) (mkRow (fun _ => zero_block ro) (mkPolar (v0 ro) (v0 ro))))).
  { apply F; [intros j Hj; apply in_seq in Hj; lia|]. split; [intros j _ p Hp; cbn; repeat split; ring|intros p Hp; split; reflexivity]. }
  destruct Z as [ZR ZD]. split; cbn [r_jac r_del]; [|exact ZD]. apply set_like; [exact ZR|]. specialize (ZR b Hb). intros p Hp. destruct (ZR p Hp) as (A & B & D & E). destruct (ZD p Hp) as [F1 F2]. cbn [bh bn bm bl].
  repeat split; apply add_diag_like; auto; unfold vneg; congruence.
Qed.
Definition pair_like (kd1 kd3 : block (R := R) * polar (R := R)) : Prop := block_like (fst kd1) (fst kd3) /\ polar_like (snd kd1) (snd kd3).
Lemma add_load_like v1 v3 kd1 kd3 l : pair_like kd1 kd3 -> (forall p, (p < 3)%nat -> v3 p = v1 0%nat) ->
  pair_like (add_load ro ty power (fun _ => None) v1 kd1 l) (add_load ro ty power (fun _ => None) v3 kd3 l).
Proof.
  destruct kd1 as [k1 d1], kd3 as [k3 d3]. intros [K D] V. cbn [fst snd] in *. unfold add_load. destruct (ty l); split; cbn [fst snd]; try assumption; intros p Hp; destruct (K p Hp) as (K1 & K2 & K3 & K4); destruct (D p Hp) as [D1 D2]; cbn [pa pb bh bn bm bl].
  all: try (split; unfold vplus, vre, vim; rewrite ?D1, ?D2, ?(V p Hp); reflexivity).
  all: repeat split; try assumption; apply add_diag_like; try assumption; rewrite (V p Hp); reflexivity.
Qed.
Lemma add_source_like (ub1 ub3 : nat -> C) kd1 kd3 i : pair_like kd1 kd3 -> (forall p, (p < 3)%nat -> ub3 p = rot p (ub1 0%nat)) ->
  pair_like (add_source ro 1 (sy 1) su ub1 kd1 i) (add_source ro 3 (sy 3) su ub3 kd3 i).
Proof.
  destruct kd1 as [k1 d1], kd3 as [k3 d3]. intros [K D] V. cbn [fst snd] in *. unfold add_source.
  pose proof (hnml_like _ _ _ _ _ _ (source_acts i) V V) as MM. pose proof (hnml_like (fun p q => NumbersPair.copp ro (sy 3 i p q)) (fun p q => NumbersPair.copp ro (sy 1 i p q)) ub3 (su i) ub1 (su i) (acts_opp _ _ (source_acts i)) V (fun p _ => source_turned i p)) as MS.
  revert MM MS. generalize (calculate_hnml ro (sy 1 i) ub1 ub1), (calculate_hnml ro (sy 3 i) ub3 ub3), (calculate_hnml ro (fun p q => NumbersPair.copp ro (sy 1 i p q)) ub1 (su i)), (calculate_hnml ro (fun p q => NumbersPair.copp ro (sy 3 i p q)) ub3 (su i)).
  intros mm1 mm3 ms1 ms3 MM MS.
  assert (PC : forall p, (p < 3)%nat -> sum_row ro 3 (tplus ro (bn mm3) (bn ms3)) p = sum_row ro 1 (tplus ro (bn mm1) (bn ms1)) 0%nat /\ sum_row ro 3 (tplus ro (bh mm3) (bh ms3)) p = sum_row ro 1 (tplus ro (bh mm1) (bh ms1)) 0%nat).
  { intros p Hp. rewrite !sum_row1, !sum_row3. destruct (MM p Hp) as (A & B & _), (MS p Hp) as (A' & B' & _). split; apply tplus_like; assumption. }
  split; cbn [fst snd].
  - apply block_add_like; [exact K|]. intros p Hp. destruct (MM p Hp) as (A & B & E & F), (PC p Hp) as [P Q]. cbn [bh bn bm bl]. repeat split; apply add_diag_like; auto; unfold vneg; congruence.
  - intros p Hp. destruct (PC p Hp) as [P Q], (D p Hp) as [D1 D2]. cbn [pa pb]. unfold vminus. rewrite P, Q, D1, D2. split; reflexivity.
Qed.
Lemma fold_like {A B X} (rel : A -> B -> Prop) (f : A -> X -> A) (g : B -> X -> B) : (forall x y i, rel x y -> rel (f x i) (g y i)) -> forall l x y, rel x y -> rel (fold_left f l x) (fold_left g l y).
Proof. intros H l. induction l as [|i l IH]; intros x y R; cbn [fold_left]; auto. Qed.
Local Notation none := (fun _ : nat => None (A := value (R := R))).
Lemma build_row_like x1 x3 u1 u3 b : matches u1 u3 -> (b < n)%nat -> (forall p, (p < 3)%nat -> pb (x3 b) p = pb (x1 b) 0%nat) ->
  row_like (build_row ro 1 n ybus1 sources loads (sy 1) su ty power x1 none u1 b) (build_row ro 3 n ybus3 sources loads (sy 3) su ty power x3 none u3 b).
Proof.
  intros M Hb V. unfold build_row. pose proof (network_row_like u1 u3 b M Hb) as [NR ND].
  set (r1 := network_row ro 1 n ybus1 u1 b) in *. set (r3 := network_row ro 3 n ybus3 u3 b) in *.
  assert (P : pair_like (fold_left (add_source ro 1 (sy 1) su (u1 b)) (sources b) (fold_left (add_load ro ty power none (pb (x1 b))) (loads b) (r_jac r1 b, r_del r1)))
                        (fold_left (add_source ro 3 (sy 3) su (u3 b)) (sources b) (fold_left (add_load ro ty power none (pb (x3 b))) (loads b) (r_jac r3 b, r_del r3)))).
  { apply (fold_like pair_like); [intros; apply add_source_like; [assumption|intros p Hp; apply M; assumption]|]. apply (fold_like pair_like); [intros; apply add_load_like; assumption|]. split; [apply NR; exact Hb|exact ND]. }
  destruct (fold_left (add_source ro 1 (sy 1) su (u1 b)) _ _) as [k1 d1]. destruct (fold_left (add_source ro 3 (sy 3) su (u3 b)) _ _) as [k3 d3]. destruct P as [PK PD]. split; cbn [r_jac r_del fst snd] in *; [|exact PD].
  apply set_like; assumption.
Qed.
Lemma pv_row_like v1 v3 b r1 r3 : row_like r1 r3 -> (forall p, (p < 3)%nat -> v3 p = v1 0%nat) -> row_like (pv_row ro v1 b r1) (pv_row ro v3 b r3).
Proof.
  intros [R D] V. split; cbn [pv_row r_jac r_del].
  - intros j Hj p Hp. destruct (R j Hj p Hp) as (A & B & E & F). cbn [bh bn bm bl]. repeat split; try assumption.
    + cbn. ring.
    + destruct (b =? j)%nat; [|cbn; ring]. rewrite <- (V p Hp), sum3_eq. cbn [real_num n_zero]. destruct p as [|[|[|p]]]; [| | |lia]; cbn [Nat.eqb]; ring.
  - intros p Hp. destruct (D p Hp) as [D1 D2]. cbn [pa pb]. split; [exact D1|reflexivity].
Qed.
(** the same changes in all phases *)
Lemma solution_like rs1 rs3 d1 d3 : (forall b, (b < n)%nat -> row_like (rs1 b) (rs3 b)) -> (forall b, (b < n)%nat -> polar_like (d1 b) (d3 b)) -> (solution ro 1 n rs1 d1 <-> solution ro 3 n rs3 d3).
Proof.
  intros RL DL.
  assert (E : forall (f3 g3 : nat -> rtensor (R := R)) (f1 g1 : nat -> rtensor (R := R)) p, (p < 3)%nat -> (forall j, (j < n)%nat -> sum3 (f3 j p) = f1 j 0%nat 0%nat) -> (forall j, (j < n)%nat -> sum3 (g3 j p) = g1 j 0%nat 0%nat) ->
    nsum ro (map (fun j => nsum ro (map (fun q => n_add ro (n_mul ro (f3 j p q) (pa (d3 j) q)) (n_mul ro (g3 j p q) (pb (d3 j) q))) (seq 0 3))) (seq 0 n)) =
    nsum ro (map (fun j => nsum ro (map (fun q => n_add ro (n_mul ro (f1 j 0%nat q) (pa (d1 j) q)) (n_mul ro (g1 j 0%nat q) (pb (d1 j) q))) (seq 0 1))) (seq 0 n))).
  { intros f3 g3 f1 g1 p Hp F G. apply nsum_ext. intros j Hj. apply in_seq in Hj. specialize (F j ltac:(lia)). specialize (G j ltac:(lia)). specialize (DL j ltac:(lia)).
    rewrite sum3_eq in F. rewrite sum3_eq in G. destruct (DL 0%nat ltac:(lia)) as [A0 B0], (DL 1%nat ltac:(lia)) as [A1 B1], (DL 2%nat ltac:(lia)) as [A2 B2].
    cbn [seq map nsum fold_right]. cbn [real_num n_add n_mul n_zero]. rewrite A0, A1, A2, B0, B1, B2, <- F, <- G. ring. }
  assert (Q : forall b p, (b < n)%nat -> (p < 3)%nat -> _) by (intros b p Hb Hp; exact (conj
    (E (fun j => bh (r_jac (rs3 b) j)) (fun j => bn (r_jac (rs3 b) j)) (fun j => bh (r_jac (rs1 b) j)) (fun j => bn (r_jac (rs1 b) j)) p Hp (fun j Hj => proj1 (proj1 (RL b Hb) j Hj p Hp)) (fun j Hj => proj1 (proj2 (proj1 (RL b Hb) j Hj p Hp))))
    (E (fun j => bm (r_jac (rs3 b) j)) (fun j => bl (r_jac (rs3 b) j)) (fun j => bm (r_jac (rs1 b) j)) (fun j => bl (r_jac (rs1 b) j)) p Hp (fun j Hj => proj1 (proj2 (proj2 (proj1 (RL b Hb) j Hj p Hp)))) (fun j Hj => proj2 (proj2 (proj2 (proj1 (RL b Hb) j Hj p Hp))))))).
  cbv beta in Q. clear E. split; intros H b p Hb Hp.
  - destruct (Q b p Hb Hp) as [Q1 Q2]. destruct (proj2 (RL b Hb) p Hp) as [D1 D2]. destruct (H b 0%nat Hb ltac:(lia)) as [H1 H2]. rewrite Q1, Q2, D1, D2. split; assumption.
  - assert (p = 0)%nat by lia. subst p. destruct (Q b 0%nat Hb ltac:(lia)) as [Q1 Q2]. destruct (proj2 (RL b Hb) 0%nat ltac:(lia)) as [D1 D2]. destruct (H b 0%nat Hb ltac:(lia)) as [H1 H2]. rewrite <- Q1, <- Q2, <- D1, <- D2. split; assumption.
Qed.

(** ** The linear start *)
Definition linear_of (k : block (R := R)) (m : ctensor (R := R)) : Prop := forall p q,
  bh k p q = NumbersPair.re (m p q) /\ bn k p q = - NumbersPair.im (m p q) /\ bm k p q = NumbersPair.im (m p q) /\ bl k p q = NumbersPair.re (m p q).
Definition linear_like (k1 k3 : block (R := R)) : Prop := exists m1 m3, linear_of k1 m1 /\ linear_of k3 m3 /\ acts m3 (m1 0%nat 0%nat).
Definition turned (d1 d3 : polar (R := R)) : Prop := forall p, (p < 3)%nat -> (pa d3 p, pb d3 p) = rot p (pa d1 0%nat, pb d1 0%nat).
Lemma linear_block_of m : linear_of (linear_block ro m) m. Proof. intros p q. repeat split. Qed.
Lemma linear_load_like k1 k3 l : linear_like k1 k3 -> linear_like (add_linear_load ro power status regulators_of regs k1 l) (add_linear_load ro power status regulators_of regs k3 l).
Proof.
  intros (m1 & m3 & L1 & L3 & A). unfold add_linear_load. set (y := fun p : nat => NumbersPair.copp ro _).
  assert (G : forall k m, linear_of k m -> linear_of (mkBlock (add_diag ro (bh k) (vre y)) (add_diag ro (bn k) (vneg ro (vim y))) (add_diag ro (bm k) (vim y)) (add_diag ro (bl k) (vre y)))
      (fun p q => if (p =? q)%nat then NumbersPair.cadd ro (m p q) (y p) else m p q)).
  { intros k m H p q. destruct (H p q) as (H1 & H2 & H3 & H4). cbn [bh bn bm bl]. unfold add_diag, vre, vim, vneg. destruct (p =? q)%nat; [|auto]. rewrite H1, H2, H3, H4. unfold NumbersPair.cadd, NumbersPair.re, NumbersPair.im. cbn [real_num n_add n_opp fst snd]. repeat split; ring. }
  eexists _, _. split; [apply G; exact L1|]. split; [apply G; exact L3|]. cbn [Nat.eqb]. apply acts_diag; [exact A|]. intros p Hp. unfold y. destruct (is_regulated status regulators_of regs l); reflexivity.
Qed.
Lemma turned_sum d1 d3 (i1 i3 : nat -> C) : turned d1 d3 -> (forall p, (p < 3)%nat -> i3 p = rot p (i1 0%nat)) ->
  turned (mkPolar (vplus ro (pa d1) (vre i1)) (vplus ro (pb d1) (vim i1))) (mkPolar (vplus ro (pa d3) (vre i3)) (vplus ro (pb d3) (vim i3))).
Proof.
  intros T I p Hp. cbn [pa pb]. unfold vplus, vre, vim. rewrite (I p Hp). specialize (T p Hp).
  change (NumbersPair.cadd ro (pa d3 p, pb d3 p) (rot p (i1 0%nat)) = rot p (NumbersPair.cadd ro (pa d1 0%nat, pb d1 0%nat) (i1 0%nat))). rewrite T. symmetry. apply (rot_add cxo cj _ real_root BL).
Qed.
Lemma linear_source_like kd1 kd3 i : linear_like (fst kd1) (fst kd3) /\ turned (snd kd1) (snd kd3) ->
  linear_like (fst (add_linear_source ro 1 (sy 1) su kd1 i)) (fst (add_linear_source ro 3 (sy 3) su kd3 i)) /\ turned (snd (add_linear_source ro 1 (sy 1) su kd1 i)) (snd (add_linear_source ro 3 (sy 3) su kd3 i)).
Proof.
  destruct kd1 as [k1 d1], kd3 as [k3 d3]. cbn [fst snd]. intros [(m1 & m3 & L1 & L3 & A) T]. unfold add_linear_source. cbn [fst snd]. split.
  - assert (G : forall k m y, linear_of k m -> linear_of (block_add ro k (linear_block ro y)) (fun p q => NumbersPair.cadd ro (m p q) (y p q))).
    { intros k m y H p q. destruct (H p q) as (H1 & H2 & H3 & H4). unfold block_add, linear_block, tplus. cbn [bh bn bm bl]. rewrite H1, H2, H3, H4. unfold NumbersPair.cadd, NumbersPair.re, NumbersPair.im. cbn [real_num n_add n_opp fst snd]. repeat split; ring. }
    eexists _, _. split; [apply G; exact L1|]. split; [apply G; exact L3|]. cbv beta. exact (acts_add cxo cj _ real_root BL _ _ _ _ A (source_acts i)).
  - apply turned_sum; [exact T|]. intros p Hp. rewrite (dot_ext cxo 3 _ (su i) (fun q => rot q (su i 0%nat))) by (intros; apply source_turned).
    rewrite (dot3_balanced cxo real_root _ _ _ _ (source_acts i) Hp). f_equal. symmetry. exact (dot1 cxo cj _ real_root BL _ _).
Qed.
Definition linear_row_like (r1 r3 : row (R := R)) : Prop := (forall j, (j < n)%nat -> linear_like (r_jac r1 j) (r_jac r3 j)) /\ turned (r_del r1) (r_del r3).
Local Notation start1 := (linear_row ro 1 ybus1 sources loads (sy 1) su power status regulators_of regs).
Local Notation start3 := (linear_row ro 3 ybus3 sources loads (sy 3) su power status regulators_of regs).
Lemma linear_rows b : (b < n)%nat -> linear_row_like (start1 b) (start3 b).
Proof.
  intros Hb. unfold linear_row.
  assert (B0 : forall j, (j < n)%nat -> linear_like (linear_block ro (ybus1 b j)) (linear_block ro (ybus3 b j))) by (intros j Hj; exists (ybus1 b j), (ybus3 b j); split; [apply linear_block_of|split; [apply linear_block_of|apply Hy; assumption]]).
  set (z := mkPolar (v0 ro) (v0 ro)). assert (Z : turned z z) by (intros p Hp; cbn [z pa pb v0]; symmetry; exact (rot_zero cxo cj _ real_root BL p)).
  pose proof (fold_like (fun kd1 kd3 : block * polar => linear_like (fst kd1) (fst kd3) /\ turned (snd kd1) (snd kd3)) (add_linear_source ro 1 (sy 1) su) (add_linear_source ro 3 (sy 3) su) linear_source_like (sources b)
    (fold_left (add_linear_load ro power status regulators_of regs) (loads b) (linear_block ro (ybus1 b b)), z) (fold_left (add_linear_load ro power status regulators_of regs) (loads b) (linear_block ro (ybus3 b b)), z)
    (conj (fold_like linear_like _ _ linear_load_like (loads b) _ _ (B0 b Hb)) Z)) as P.
  destruct (fold_left (add_linear_source ro 1 (sy 1) su) _ _) as [k1 d1]. destruct (fold_left (add_linear_source ro 3 (sy 3) su) _ _) as [k3 d3]. destruct P as [PK PD]. cbn [fst snd] in *. split; cbn [r_jac r_del]; [|exact PD].
  intros j Hj. unfold set_entry. destruct (j =? b)%nat; [exact PK|apply B0; exact Hj].
Qed.
Definition lift_start (d : nat -> polar (R := R)) : nat -> polar (R := R) :=
  fun b => mkPolar (fun p => NumbersPair.re (rot p (pa (d b) 0%nat, pb (d b) 0%nat))) (fun p => NumbersPair.im (rot p (pa (d b) 0%nat, pb (d b) 0%nat))).
Lemma lift_turned d b : turned (d b) (lift_start d b).
Proof. intros p Hp. cbn [lift_start pa pb]. destruct (rot p _). reflexivity. Qed.
(** the linear equations are those of complex numbers *)
Lemma linear_equation np (rs : nat -> row (R := R)) (m : nat -> nat -> ctensor (R := R)) d b p : (forall j, (j < n)%nat -> linear_of (r_jac (rs b) j) (m b j)) ->
  let z := nsum cxo (map (fun j => nsum cxo (map (fun q => n_mul cxo (m b j p q) (pa (d j) q, pb (d j) q)) (seq 0 np))) (seq 0 n)) in
  nsum ro (map (fun j => nsum ro (map (fun q => n_add ro (n_mul ro (bh (r_jac (rs b) j) p q) (pa (d j) q)) (n_mul ro (bn (r_jac (rs b) j) p q) (pb (d j) q))) (seq 0 np))) (seq 0 n)) = NumbersPair.re z /\
  nsum ro (map (fun j => nsum ro (map (fun q => n_add ro (n_mul ro (bm (r_jac (rs b) j) p q) (pa (d j) q)) (n_mul ro (bl (r_jac (rs b) j) p q) (pb (d j) q))) (seq 0 np))) (seq 0 n)) = NumbersPair.im z.
Proof.
  intros H. cbv zeta. rewrite re_sum, im_sum. split; apply nsum_ext; intros j Hj; apply in_seq in Hj; rewrite ?re_sum, ?im_sum; apply nsum_ext; intros q _; destruct (H j ltac:(lia) p q) as (H1 & H2 & H3 & H4);
    rewrite ?H1, ?H2, ?H3, ?H4; destruct (m b j p q); cc; ring.
Qed.
Lemma start_like d : solution ro 1 n start1 d -> solution ro 3 n start3 (lift_start d).
Proof.
  intros H b p Hb Hp. destruct (linear_rows b Hb) as [LR LD].
  assert (X : exists f : nat -> ctensor (R := R) * ctensor (R := R), forall j, (j < n)%nat -> linear_of (r_jac (start1 b) j) (fst (f j)) /\ linear_of (r_jac (start3 b) j) (snd (f j)) /\ acts (snd (f j)) (fst (f j) 0%nat 0%nat)).
  { clear -LR. induction n as [|k IH]; [exists (fun _ => (fun _ _ => (0, 0), fun _ _ => (0, 0))); intros; lia|].
    destruct IH as [f Hf]; [intros j Hj; apply LR; lia|]. destruct (LR k ltac:(lia)) as (m1 & m3 & L). exists (fun j => if (j =? k)%nat then (m1, m3) else f j). intros j Hj.
    destruct (Nat.eqb_spec j k) as [->|N]; [exact L|apply Hf; lia]. }
  destruct X as [f Hf].
  destruct (linear_equation 1 start1 (fun _ j => fst (f j)) d b 0%nat (fun j Hj => proj1 (Hf j Hj))) as [A1 A2]. destruct (linear_equation 3 start3 (fun _ j => snd (f j)) (lift_start d) b p (fun j Hj => proj1 (proj2 (Hf j Hj)))) as [B1 B2].
  destruct (H b 0%nat Hb ltac:(lia)) as [E1 E2]. rewrite A1 in E1. rewrite A2 in E2.
  match type of B1 with _ = NumbersPair.re ?z => assert (E : z = (pa (r_del (start3 b)) p, pb (r_del (start3 b)) p)) end.
  { rewrite (LD p Hp). rewrite <- E1, <- E2. match goal with |- _ = rot p (NumbersPair.re ?w, _) => change (NumbersPair.re w, NumbersPair.im w) with (fst w, snd w); rewrite <- (surjective_pairing w) end. rewrite <- (rot_sum cxo cj _ real_root BL). apply nsum_ext. intros j Hj. apply in_seq in Hj.
    rewrite (nsum_ext cxo _ (fun q => n_mul cxo (snd (f j) p q) (rot q (pa (d j) 0%nat, pb (d j) 0%nat)))) by (intros q Hq; apply in_seq in Hq; rewrite <- (lift_turned d j q) by lia; reflexivity).
    rewrite (proj2 (proj2 (Hf j ltac:(lia))) _ p Hp). f_equal. cbn [seq map nsum fold_right]. destruct (fst (f j) 0%nat 0%nat). cc. f_equal; ring. }
  rewrite B1, B2, E. split; reflexivity.
Qed.

(** ** The run *)
(** no active limit of the reactive power: in an asymmetric calculation the limits act as a third of the given value (finding 76) *)
Hypothesis no_limits : forall g, g_q_min (regs g) = None /\ g_q_max (regs g) = None.
Local Notation control := (bus_control ro sources loads status regulators_of regs).
Local Notation prepare_np np ybus := (prepare ro real_gtb Rabs tol np n ybus sources loads (sy np) su ty power status regulators_of regs).
Local Notation reached_np np ybus := (reached ro real_abs real_arg cos sin real_gtb Rabs tol np n ybus sources loads (sy np) su ty power status regulators_of regs).
Local Notation start_np np ybus := (linear_row ro np ybus sources loads (sy np) su power status regulators_of regs).
Local Notation first_state np ybus := (start_state ro real_abs real_arg real_gtb np n ybus sources loads (sy np) su power status regulators_of regs).
Local Notation first_u := (start_u ro real_abs real_gtb sources loads status regulators_of regs).
(** the state and the voltages after [k] iterations *)
Inductive iterations (np : nat) (ybus : nat -> nat -> ctensor (R := R)) : nat -> state (R := R) -> (nat -> cvalue (R := R)) -> Prop :=
| iterations_start : forall d, solution ro np n (start_np np ybus) d -> iterations np ybus 0 (first_state np ybus d) (first_u d)
| iterations_step : forall k st u st1 d c', iterations np ybus k st u -> prepare_np np ybus u st = Some st1 -> solution ro np n (rows st1) d -> next_countdown (countdown st1) c' ->
    iterations np ybus (S k) (move ro st1 d c') (phasors ro cos sin (moved ro (x st1) d)).
Lemma iterations_reached np ybus st u : (exists k, iterations np ybus k st u) <-> reached_np np ybus st u.
Proof.
  split; [intros [k H]; induction H; [now apply reached_start|now apply (reached_step _ _ _ _ _ _ _ _ _ _ _ _ _ _ _ _ _ _ _ _ st u)]|].
  intros H. induction H as [d H|st u st1 d c' H [k IH] P SO N]; [exists 0%nat; apply iterations_start; exact H|exists (S k); apply (iterations_step np ybus k st u); assumption].
Qed.
Lemma control_plain b : c_has_limits (control b) = false /\ c_recalc (control b) = false.
Proof.
  unfold bus_control. destruct (sources b); [|split; reflexivity]. induction (active loads status regulators_of regs b) as [|lg l IH] using rev_ind; [split; reflexivity|].
  rewrite fold_left_app. cbn [fold_left c_type c_q_min c_q_max c_has_limits c_recalc c_u_ref]. destruct (no_limits (snd lg)) as [-> ->]. cbv zeta. cbn [c_type c_q_min c_q_max c_u_ref]. set (c := fold_left _ l _). destruct (c_q_min c), (c_q_max c); split; reflexivity.
Qed.
Lemma countdown_plain : start_countdown ro n sources loads status regulators_of regs = (-1)%Z.
Proof.
  unfold start_countdown. assert (E : existsb (fun b => c_has_limits (control b)) (seq 0 n) = false); [|rewrite E; reflexivity].
  generalize (seq 0 n). intros l. induction l as [|b l IH]; cbn [existsb]; [reflexivity|]. rewrite (proj1 (control_plain b)), IH. reflexivity.
Qed.
Definition plain (st : state (R := R)) : Prop := (forall b, ctl st b = control b) /\ clamped st = none /\ countdown st = (-1)%Z.
Lemma prepare_plain np ybus u st : plain st -> exists st1, prepare_np np ybus u st = Some st1 /\ plain st1 /\ x st1 = x st /\
  forall b, rows st1 b = match c_type (control b) with pv => pv_row ro (pb (x st b)) b (build_row ro np n ybus sources loads (sy np) su ty power (x st) none u b) | _ => build_row ro np n ybus sources loads (sy np) su ty power (x st) none u b end.
Proof.
  intros (P1 & P2 & P3). unfold prepare. cbn [build countdown]. rewrite P3. cbn [count Z.ltb Z.compare Z.eqb x rows ctl clamped countdown].
  match goal with |- context [switched n ?w] => assert (SW : switched n w = false) end.
  { unfold switched. cbn [ctl build]. generalize (seq 0 n). intros l. induction l as [|b l IH]; cbn [existsb]; [reflexivity|]. change (ctl (build _ _ _ _ _ _ _ _ _ _ false u st) b) with (ctl st b). rewrite P1, (proj2 (control_plain b)), IH. reflexivity. }
  rewrite SW. eexists. split; [reflexivity|]. cbn [apply_pv_constraints ctl clamped countdown x rows andb]. split; [split; [exact P1|split; [exact P2|reflexivity]]|]. split; [reflexivity|].
  intros b. cbn [build ctl clamped rows x andb]. rewrite P1, P2. reflexivity.
Qed.
Record sim (st1 : state (R := R)) (u1 : nat -> cvalue (R := R)) (st3 : state (R := R)) (u3 : nat -> cvalue (R := R)) : Prop := {
  sim_plain1 : plain st1; sim_plain3 : plain st3; sim_u : matches u1 u3;
  sim_v : forall b p, (b < n)%nat -> (p < 3)%nat -> pb (x st3 b) p = pb (x st1 b) 0%nat;
  sim_x : matches (phasors ro cos sin (x st1)) (phasors ro cos sin (x st3)) }.
Lemma moved_phasor (xs d : nat -> polar (R := R)) b p : phasors ro cos sin (moved ro xs d) b p =
  n_mul cxo (n_mul cxo (1 + pb (d b) p, 0) (cos (pa (d b) p), sin (pa (d b) p))) (phasors ro cos sin xs b p).
Proof. unfold phasors, moved, vplus, vtimes. cbn [pa pb]. cc. rewrite cos_plus, sin_plus. f_equal; ring. Qed.
Lemma moved_sim st1 u1 st3 u3 d1 d3 c1 c3 : sim st1 u1 st3 u3 -> (forall b, (b < n)%nat -> polar_like (d1 b) (d3 b)) -> next_countdown (countdown st1) c1 -> next_countdown (countdown st3) c3 ->
  sim (move ro st1 d1 c1) (phasors ro cos sin (moved ro (x st1) d1)) (move ro st3 d3 c3) (phasors ro cos sin (moved ro (x st3) d3)).
Proof.
  intros [P1 P3 U V X] DL N1 N3.
  assert (M : matches (phasors ro cos sin (moved ro (x st1) d1)) (phasors ro cos sin (moved ro (x st3) d3))).
  { intros b p Hb Hp. rewrite !moved_phasor. destruct (DL b Hb p Hp) as [-> ->]. rewrite (X b p Hb Hp). symmetry. apply (rot_mul cxo cj _ real_root BL). }
  assert (Q : forall st d c, plain st -> next_countdown (countdown st) c -> plain (move ro st d c)).
  { intros st d c (Q1 & Q2 & Q3) [->|[Q _]]; [split; [exact Q1|split; [exact Q2|exact Q3]]|rewrite Q3 in Q; lia]. }
  constructor; [apply Q; assumption|apply Q; assumption|exact M| |exact M].
  intros b p Hb Hp. cbn [move x moved pb]. unfold vplus, vtimes. rewrite (V b p Hb Hp). destruct (DL b Hb p Hp) as [_ ->]. reflexivity.
Qed.
(** the voltages of the linear start at the buses held by regulators: their phase angle exists *)
Definition regulated_voltages (d : nat -> polar (R := R)) : Prop := forall b, (b < n)%nat -> c_type (control b) = pv -> (pa (d b) 0%nat, pb (d b) 0%nat) <> (0, 0).
Lemma abs_turned p z : real_abs (rot p z) = real_abs z.
Proof. pose proof (abs_rot cxo cj _ real_root BL p z) as H. cbv beta in H. now injection H. Qed.
Lemma real_abs_pos z : z <> (0, 0) -> 0 < real_abs z.
Proof.
  intros H. unfold real_abs. apply sqrt_lt_R0. destruct z as [p q]. cbn [fst snd]. destruct (Req_dec p 0) as [->|P]; [destruct (Req_dec q 0) as [->|Q]; [congruence|]|]; nra.
Qed.
Lemma shift_turned p z : z <> (0, 0) -> phase_shift ro real_abs real_gtb (rot p z) = rot p (phase_shift ro real_abs real_gtb z).
Proof.
  intros H. pose proof (real_abs_pos z H) as Q. unfold phase_shift. rewrite abs_turned. unfold real_gtb. cbn [real_num n_zero]. destruct (Rlt_dec 0 (real_abs z)); [|lra].
  assert (E : forall w : C, (NumbersPair.re w / real_abs z, NumbersPair.im w / real_abs z) = n_mul cxo (/ real_abs z, 0) w) by (intros [? ?]; cc; unfold Rdiv; f_equal; ring).
  cbn [n_div real_num]. rewrite !E. symmetry. apply (rot_mul cxo cj _ real_root BL).
Qed.
Lemma start_sim d1 d3 : (forall b, (b < n)%nat -> turned (d1 b) (d3 b)) -> regulated_voltages d1 -> sim (first_state 1 ybus1 d1) (first_u d1) (first_state 3 ybus3 d3) (first_u d3).
Proof.
  intros T G.
  assert (M : matches (first_u d1) (first_u d3)).
  { intros b p Hb Hp. unfold start_u. rewrite (T b Hb p Hp). destruct (c_type (control b)) eqn:E; try reflexivity. rewrite (shift_turned p _ (G b Hb E)). symmetry. apply (rot_mul cxo cj _ real_root BL). }
  assert (Q : forall np ybus d, plain (first_state np ybus d)) by (intros; split; [reflexivity|split; [reflexivity|exact countdown_plain]]).
  assert (Y : forall np ybus d b p, phasors ro cos sin (x (first_state np ybus d)) b p = first_u d b p) by (intros; unfold phasors; cbn [start_state x pa pb]; apply real_polar).
  constructor; [apply Q|apply Q|exact M| |].
  - intros b p Hb Hp. cbn [start_state x pb]. rewrite (M b p Hb Hp). apply abs_turned.
  - intros b p Hb Hp. rewrite !Y. apply M; assumption.
Qed.
Lemma step_sim st1 u1 st3 u3 : sim st1 u1 st3 u3 -> exists st1' st3', prepare_np 1 ybus1 u1 st1 = Some st1' /\ prepare_np 3 ybus3 u3 st3 = Some st3' /\ sim st1' u1 st3' u3 /\
  forall b, (b < n)%nat -> row_like (rows st1' b) (rows st3' b).
Proof.
  intros [P1 P3 U V X]. destruct (prepare_plain 1 ybus1 u1 st1 P1) as (st1' & E1 & Q1 & X1 & R1). destruct (prepare_plain 3 ybus3 u3 st3 P3) as (st3' & E3 & Q3 & X3 & R3).
  exists st1', st3'. split; [exact E1|]. split; [exact E3|]. split; [constructor; auto; rewrite ?X1, ?X3; assumption|].
  intros b Hb. rewrite R1, R3. pose proof (build_row_like (x st1) (x st3) u1 u3 b U Hb (fun p Hp => V b p Hb Hp)) as B. destruct (c_type (control b)); try exact B. apply pv_row_like; [exact B|intros p Hp; apply V; assumption].
Qed.
Definition lift_change (d : nat -> polar (R := R)) : nat -> polar (R := R) := fun b => mkPolar (fun _ => pa (d b) 0%nat) (fun _ => pb (d b) 0%nat).
(** Every run of the symmetric calculation is, balanced, a run of the asymmetric one with as many iterations. *)
Theorem newton_lift : forall k st1 u1, (forall d, solution ro 1 n (start_np 1 ybus1) d -> regulated_voltages d) -> iterations 1 ybus1 k st1 u1 ->
  exists st3 u3, iterations 3 ybus3 k st3 u3 /\ sim st1 u1 st3 u3.
Proof.
  intros k st1 u1 G H. induction H as [d H|k st u st1 d c' H IH P SO N].
  - exists (first_state 3 ybus3 (lift_start d)), (first_u (lift_start d)). split; [constructor; apply start_like; exact H|]. apply start_sim; [intros b _; apply lift_turned|apply G; exact H].
  - destruct IH as (st3 & u3 & I3 & SM). destruct (step_sim _ _ _ _ SM) as (st1' & st3' & E1 & E3 & SM' & RL). rewrite E1 in P. injection P as ->.
    assert (DL : forall b, (b < n)%nat -> polar_like (d b) (lift_change d b)) by (intros b _ p _; split; reflexivity).
    exists (move ro st3' (lift_change d) (-1)%Z), (phasors ro cos sin (moved ro (x st3') (lift_change d))). pose proof (sim_plain3 _ _ _ _ SM') as (_ & _ & C3).
    assert (N3 : next_countdown (countdown st3') (-1)%Z) by (left; symmetry; exact C3).
    split; [apply (iterations_step 3 ybus3 k st3 u3 st3'); auto; apply (solution_like _ _ d (lift_change d) RL DL); exact SO|].
    apply (moved_sim st1 u st3' u3); auto.
Qed.
(** The linear equations of the asymmetric calculation have at most one solution. *)
Definition one_solution (rs : nat -> row (R := R)) : Prop :=
  forall d d', solution ro 3 n rs d -> solution ro 3 n rs d' -> forall b p, (b < n)%nat -> (p < 3)%nat -> pa (d b) p = pa (d' b) p /\ pb (d b) p = pb (d' b) p.
Theorem newton_all : (forall d, solution ro 1 n (start_np 1 ybus1) d -> regulated_voltages d) -> one_solution (start_np 3 ybus3) ->
  forall k st1 u1 st3 u3, (forall j st u st', (j < k)%nat -> iterations 3 ybus3 j st u -> prepare_np 3 ybus3 u st = Some st' -> one_solution (rows st')) ->
    iterations 1 ybus1 k st1 u1 -> iterations 3 ybus3 k st3 u3 -> sim st1 u1 st3 u3.
Proof.
  intros G ONE k. induction k as [|k IH]; intros st1 u1 st3 u3 REG I1 I3.
  - inversion I1 as [d1 S1|]; subst. inversion I3 as [d3 S3|]; subst. apply start_sim; [|apply G; exact S1]. intros b Hb p Hp.
    destruct (ONE _ _ S3 (start_like d1 S1) b p Hb Hp) as [-> ->]. apply lift_turned; exact Hp.
  - inversion I1 as [|k1 sa ua sa' da ca Ia Pa Sa Na]; subst. inversion I3 as [|k3 sb ub sb' db cb Ib Pb Sb Nb]; subst.
    assert (SM : sim sa ua sb ub) by (apply IH; auto; intros j st u st' Hj; apply REG; lia).
    destruct (step_sim _ _ _ _ SM) as (sa2 & sb2 & E1 & E3 & SM' & RL). rewrite E1 in Pa. injection Pa as ->. pose proof E3 as E3'. rewrite E3 in Pb. injection Pb as ->.
    apply (moved_sim sa' ua sb' ub); auto. intros b Hb p Hp.
    assert (DL : forall b, (b < n)%nat -> polar_like (da b) (lift_change da b)) by (intros b' _ p' _; split; reflexivity).
    destruct (REG k sb ub sb' ltac:(lia) Ib E3' db (lift_change da) Sb (proj1 (solution_like _ _ da (lift_change da) RL DL) Sa) b p Hb Hp) as [Qa Qb]. split; assumption.
Qed.
End Run.
