(** C32: combining measurements of one quantity. *)
From Coq Require Import QArith Qcanon.
From Verif Require Import Common NatMap Ext Statistics StatisticsSpec StatisticsFacts MeasuredValuesUse.
Local Open Scope nat_scope.

(** With a usable measurement for every variance, the result is the weighted mean with weights one over the variance, and its variance is one over the sum of the weights. *)
Theorem C32_weighted_mean sh ms : well_shaped sh -> (forall m, In m ms -> valid sh m) -> (forall j, j < n_variances sh -> usable ms j) ->
  (forall i, i < n_values sh -> value (combine sh ms) i = Fin (weighted_sum ms i (owner sh i) / total_precision ms (owner sh i))%Qc) /\
  (forall j, j < n_variances sh -> variance (combine sh ms) j = Fin (/ total_precision ms j)%Qc /\ (0 < / total_precision ms j)%Qc).
Proof.
  intros W V U. destruct (combine_usable sh W ms V U) as [C1 C2]. split; [exact C1|]. intros j Hj. split; [now apply C2|]. apply Qc_inv_pos. apply (usable_iff sh ms V j Hj). now apply U.
Qed.
(** Otherwise the result is unusable: all its variances are infinite. *)
Theorem C32_unusable sh ms : well_shaped sh -> (forall m, In m ms -> valid sh m) -> ~ (forall j, j < n_variances sh -> usable ms j) -> forall j, variance (combine sh ms) j = PInf.
Proof. intros W V U. apply (combine_unusable sh W ms V U). Qed.
(** The weighted mean is the value closest to the measurements. *)
Theorem C32_least_squares sh ms i : well_shaped sh -> (forall m, In m ms -> valid sh m) -> (forall j, j < n_variances sh -> usable ms j) -> i < n_values sh -> forall m, value (combine sh ms) i = Fin m -> forall x : Qc,
  (qsum (map (fun a => precision (variance a (owner sh i)) * ((number (value a i) - m) * (number (value a i) - m))) ms) <= qsum (map (fun a => precision (variance a (owner sh i)) * ((number (value a i) - x) * (number (value a i) - x))) ms))%Qc.
Proof.
  intros W V U Hi m E x. destruct (combine_usable sh W ms V U) as [C _]. rewrite C in E by assumption. apply (least_squares ms i (owner sh i) m); [|intros a Ha; apply precision_nonneg; apply (V a Ha); now apply W|congruence].
  apply (usable_iff sh ms V); [now apply W|]. apply U. now apply W.
Qed.
(** The order of the sensors does not matter. *)
Theorem C32_order sh ms ms' : well_shaped sh -> (forall m, In m ms -> valid sh m) -> Permutation ms ms' -> same sh (combine sh ms) (combine sh ms').
Proof. intros W V P. exact (combine_perm sh W ms ms' V P). Qed.
Theorem C32_order_decomposed n ds ds' : (forall d, In d ds -> valid_dec n d) -> Permutation ds ds' -> same_dec n (combine_decomposed n ds) (combine_decomposed n ds').
Proof.
  intros V P. assert (V' : forall d, In d ds' -> valid_dec n d) by (intros d Hd; apply V; eapply Permutation_in; [symmetry; exact P|exact Hd]).
  destruct (valid_parts n ds V) as [Vr Vi]. pose proof (combine_perm _ (independent_ok n) _ _ Vr (Permutation_map re P)) as R. pose proof (combine_perm _ (independent_ok n) _ _ Vi (Permutation_map im P)) as I.
  assert (U : usable_dec n ds <-> usable_dec n ds').
  { assert (G : forall a b, Permutation a b -> usable_dec n a -> usable_dec n b) by (intros a b Q H p Hp; destruct (H p Hp) as [[x [Hx Fx]] [y [Hy Fy]]]; split; [exists x|exists y]; (split; [|assumption]); eapply Permutation_in; try eassumption; now apply Permutation_map). split; apply G; [assumption|now symmetry]. }
  destruct (usable_dec_dec n ds V) as [A|A].
  - rewrite (decomposed_usable n ds V A), (decomposed_usable n ds' V' (proj1 U A)). split; assumption.
  - assert (A' : ~ usable_dec n ds') by (intros Q; apply A; now apply U). rewrite (decomposed_unusable n ds V A), (decomposed_unusable n ds' V' A'). split; split; cbn [re im value variance]; try reflexivity; [apply R|apply I].
Qed.
(** Combining some measurements first gives the same, for quantities with one variance. *)
Theorem C32_staged sh l l' : n_variances sh = 1 -> well_shaped sh -> (forall m, In m (l ++ l') -> valid sh m) -> same sh (combine sh (combine sh l :: l')) (combine sh (l ++ l')).
Proof.
  intros N W V. apply (combine_staged sh W l l' V). assert (Vl : forall m, In m l -> valid sh m) by (intros; apply V, in_or_app; auto).
  destruct (all_usable_dec sh W l Vl) as [U|U]; [left; exact U|right]. intros m j Hm Hj. destruct (Vl m Hm) as [_ P]. destruct (P j Hj) as [E|[q [E _]]]; [exact E|]. exfalso. apply U. intros j' Hj'. exists m. split; [assumption|]. replace j' with j by lia. now exists q.
Qed.
(** For several variances it holds if the measurements combined first are usable for all of them, or for none. *)
Theorem C32_staged_general sh l l' : well_shaped sh -> (forall m, In m (l ++ l') -> valid sh m) -> (forall j, j < n_variances sh -> usable l j) \/ (forall m j, In m l -> j < n_variances sh -> variance m j = PInf) ->
  same sh (combine sh (combine sh l :: l')) (combine sh (l ++ l')).
Proof. intros W V H. exact (combine_staged sh W l l' V H). Qed.
(** A power measurement: both parts are the weighted means if every part of every phase is usable; otherwise the whole is unusable. *)
Theorem C32_decomposed n ds : (forall d, In d ds -> valid_dec n d) ->
  (usable_dec n ds -> forall p, p < n ->
     value (re (combine_decomposed n ds)) p = Fin (weighted_sum (map re ds) p p / total_precision (map re ds) p)%Qc /\ variance (re (combine_decomposed n ds)) p = Fin (/ total_precision (map re ds) p)%Qc /\
     value (im (combine_decomposed n ds)) p = Fin (weighted_sum (map im ds) p p / total_precision (map im ds) p)%Qc /\ variance (im (combine_decomposed n ds)) p = Fin (/ total_precision (map im ds) p)%Qc) /\
  (~ usable_dec n ds -> all_infinite n (combine_decomposed n ds)).
Proof.
  intros V. destruct (valid_parts n ds V) as [Vr Vi]. split.
  - intros U p Hp. rewrite (decomposed_usable n ds V U). cbn [re im]. destruct (combine_usable _ (independent_ok n) _ Vr (fun p Hp => proj1 (U p Hp))) as [R1 R2]. destruct (combine_usable _ (independent_ok n) _ Vi (fun p Hp => proj2 (U p Hp))) as [I1 I2].
    cbn [independent_real n_values n_variances owner] in *. rewrite R1, R2, I1, I2 by assumption. repeat split.
  - intros U. rewrite (decomposed_unusable n ds V U). intros p Hp. split; reflexivity.
Qed.
(** The voltage magnitudes: the weighted mean of the magnitudes. *)
Theorem C32_magnitude cabs n ms : 0 < n -> (forall m, In m ms -> positive (variance m 0) /\ forall p, p < n -> finite (cabs_or_real cabs n (value m) p)) -> usable ms 0 ->
  let magnitudes := map (fun m => mkVar (cabs_or_real cabs n (value m)) (variance m)) ms in
  (forall p, p < n -> value (combine_magnitude cabs n ms) (2 * p) = Fin (weighted_sum magnitudes p 0 / total_precision magnitudes 0)%Qc /\ value (combine_magnitude cabs n ms) (2 * p + 1) = NaN) /\
  variance (combine_magnitude cabs n ms) 0 = Fin (/ total_precision ms 0)%Qc.
Proof.
  intros Hn V U. cbv zeta. set (g := fun m : rand_var => mkVar (cabs_or_real cabs n (value m)) (variance m)).
  assert (V' : forall m, In m (map g ms) -> valid (uniform_real n) m). { intros m Hm. apply in_map_iff in Hm. destruct Hm as [x [<- Hx]]. destruct (V x Hx) as [P F]. split; [exact F|]. intros j Hj. cbn in Hj. replace j with 0 by lia. exact P. }
  assert (W : well_shaped (uniform_real n)) by (intros i Hi; cbn; lia).
  assert (U' : forall j, j < n_variances (uniform_real n) -> usable (map g ms) j). { intros j Hj. cbn in Hj. replace j with 0 by lia. destruct U as [m [Hm F]]. exists (g m). split; [now apply in_map|exact F]. }
  destruct (combine_usable _ W _ V' U') as [C1 C2]. unfold combine_magnitude. fold g. cbn [value variance]. split.
  - intros p Hp. replace (Nat.even (2 * p)) with true by (symmetry; apply Nat.even_spec; exists p; lia). replace (2 * p / 2) with p by (rewrite Nat.mul_comm, Nat.div_mul; lia).
    replace (Nat.even (2 * p + 1)) with false by (symmetry; apply Bool.not_true_is_false; intros Q; apply Nat.even_spec in Q; destruct Q as [k Q]; lia).
    split; [|reflexivity]. rewrite C1 by exact Hp. cbn [eadd]. f_equal. apply Qcplus_0_l.
  - rewrite C2 by (cbn; lia). f_equal. f_equal. unfold total_precision. now rewrite map_map.
Qed.

(** ** Cases *)
Definition reading (x v : Z) : rand_var := mkVar (fun _ => Fin (Q2Qc (inject_Z x))) (fun _ => Fin (Q2Qc (inject_Z v))).
Definition lost (x : Z) : rand_var := mkVar (fun _ => Fin (Q2Qc (inject_Z x))) (fun _ => PInf).
Lemma reading_valid sh x v : (0 < v)%Z -> valid sh (reading x v).
Proof. intros H. split; intros; [eexists; reflexivity|]. right. eexists. split; [reflexivity|]. unfold Qclt. change (0 < Qred (inject_Z v))%Q. rewrite Qred_correct. change 0%Q with (inject_Z 0). rewrite <- Zlt_Qlt. exact H. Qed.
Lemma lost_valid sh x : valid sh (lost x).
Proof. split; intros; [eexists; reflexivity|]. left. reflexivity. Qed.
(** 10 with variance 1, 20 with variance 4 and a lost sensor: 12 with variance 4/5 *)
Example C32_case : let ms := [reading 10 1; reading 20 4; lost 99] in
  (forall m, In m ms -> valid (uniform_real 3) m) /\ well_shaped (uniform_real 3) /\ (forall j, j < n_variances (uniform_real 3) -> usable ms j) /\ value (combine (uniform_real 3) ms) 2 = Fin (Q2Qc 12) /\ variance (combine (uniform_real 3) ms) 0 = Fin (Q2Qc (4 # 5)).
Proof.
  cbv zeta. refine (conj _ (conj _ (conj _ (conj _ _)))).
  - intros m [<-|[<-|[<-|[]]]]; [now apply reading_valid|now apply reading_valid|apply lost_valid].
  - intros i Hi. cbn. lia.
  - intros j _. exists (reading 10 1). split; [now left|]. eexists. reflexivity.
  - vm_compute. first [reflexivity|f_equal; apply Qc_is_canon; reflexivity].
  - vm_compute. first [reflexivity|f_equal; apply Qc_is_canon; reflexivity].
Qed.
Example C32_decomposed_case : let ds := [mkDec (reading 3 1) (reading 4 2); mkDec (lost 1) (lost 1); mkDec (reading 5 1) (reading 8 2)] in
  (forall d, In d ds -> valid_dec 3 d) /\ usable_dec 3 ds /\ value (re (combine_decomposed 3 ds)) 1 = Fin (Q2Qc 4) /\ value (im (combine_decomposed 3 ds)) 2 = Fin (Q2Qc 6).
Proof.
  cbv zeta. refine (conj _ (conj _ (conj _ _))).
  - intros d [<-|[<-|[<-|[]]]]; split; first [now apply reading_valid|apply lost_valid].
  - intros p _. split; eexists; (split; [left; reflexivity|eexists; reflexivity]).
  - vm_compute. first [reflexivity|f_equal; apply Qc_is_canon; reflexivity].
  - vm_compute. first [reflexivity|f_equal; apply Qc_is_canon; reflexivity].
Qed.
(** ** Where it fails *)
(** A sensor with zero variance (zero sigma) makes the result unusable, although the other measurement is usable. *)
Theorem C32_zero_variance_refuted : ~ forall ms, (forall m, In m ms -> finite (value m 0) /\ exists q, variance m 0 = Fin q /\ (0 <= q)%Qc) -> usable ms 0 -> finite (variance (combine (uniform_real 1) ms) 0).
Proof.
  intros H. destruct (H [reading 10 1; reading 10 0]) as [q E].
  - intros m [<-|[<-|[]]]; (split; [eexists; reflexivity|]); eexists; (split; [reflexivity|]); unfold Qcle; cbn; unfold Qle; cbn; lia.
  - exists (reading 10 1). split; [now left|]. eexists. reflexivity.
  - vm_compute in E. discriminate.
Qed.
(** One sensor that knows only phase 0 and one that knows only phase 1, and a third that knows all: combining the first alone beforehand loses it. *)
Definition only (p : nat) (x : Z) : rand_var := mkVar (fun _ => Fin (Q2Qc (inject_Z x))) (fun j => if j =? p then Fin 1%Qc else PInf).
Theorem C32_staged_refuted : ~ forall sh l l', well_shaped sh -> (forall m, In m (l ++ l') -> valid sh m) -> same sh (combine sh (combine sh l :: l')) (combine sh (l ++ l')).
Proof.
  intros H. destruct (H (independent_real 2) [only 0 10] [reading 20 1]) as [H1 _].
  - apply independent_ok.
  - intros m [<-|[<-|[]]]; [|now apply reading_valid]. split; intros; [eexists; reflexivity|]. cbn [only variance]. destruct (j =? 0); [right; eexists; split; reflexivity|left; reflexivity].
  - specialize (H1 0 ltac:(cbn; lia)). vm_compute in H1. discriminate.
Qed.
Print Assumptions C32_weighted_mean. Print Assumptions C32_unusable. Print Assumptions C32_least_squares. Print Assumptions C32_order. Print Assumptions C32_order_decomposed. Print Assumptions C32_staged.
Print Assumptions C32_staged_general. Print Assumptions C32_decomposed. Print Assumptions C32_magnitude. Print Assumptions C32_zero_variance_refuted. Print Assumptions C32_staged_refuted.
