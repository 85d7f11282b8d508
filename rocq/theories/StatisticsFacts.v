(** Proofs about combining measurements. *)
From Coq Require Import QArith Qcanon Permutation.
From Verif Require Import Common Ext Statistics StatisticsSpec.
Local Open Scope nat_scope.

Lemma Qc_ne_1_0 : (1 <> 0)%Qc.
Proof. discriminate. Qed.
Lemma one_over v : positive v -> ediv (Fin 1%Qc) v = Fin (precision v).
Proof. intros [->|[q [-> P]]]; [reflexivity|]. rewrite ediv_fin by now apply Qc_pos_ne. cbn. f_equal. field. now apply Qc_pos_ne. Qed.
Lemma value_over x v : positive v -> ediv (Fin x) v = Fin (x * precision v)%Qc.
Proof. intros [->|[q [-> P]]]; [cbn; f_equal; ring|]. rewrite ediv_fin by now apply Qc_pos_ne. cbn. f_equal. Qed.
Lemma precision_nonneg v : positive v -> (0 <= precision v)%Qc.
Proof. intros [->|[q [-> P]]]; cbn; [apply Qcle_refl|]. apply Qclt_le_weak. now apply Qc_inv_pos. Qed.
Lemma precision_pos v : positive v -> finite v -> (0 < precision v)%Qc.
Proof. intros [->|[q [-> P]]] [r F]; [discriminate|]. cbn. now apply Qc_inv_pos. Qed.
Lemma precision_zero v : positive v -> ~ finite v -> precision v = 0%Qc.
Proof. intros [->|[q [-> P]]] N; [reflexivity|]. destruct N. now exists q. Qed.

Section Shape.
Variable sh : shape.
Hypothesis W : well_shaped sh.
Lemma accumulate_all : forall ms acc, (forall m, In m ms -> valid sh m) ->
  (forall j a, j < n_variances sh -> fst acc j = Fin a -> fst (fold_left (accumulate sh) ms acc) j = Fin (a + total_precision ms j)%Qc) /\
  (forall i a, i < n_values sh -> snd acc i = Fin a -> snd (fold_left (accumulate sh) ms acc) i = Fin (a + weighted_sum ms i (owner sh i))%Qc).
Proof.
  induction ms as [|m ms IH]; intros acc V; cbn [fold_left].
  - unfold total_precision, weighted_sum. cbn. split; intros ? a _ ->; f_equal; ring.
  - destruct (V m (or_introl eq_refl)) as [Vx Vv]. destruct (IH (accumulate sh acc m) (fun x Hx => V x (or_intror Hx))) as [I1 I2]. split.
    + intros j a Hj Ea. rewrite (I1 j (a + precision (variance m j))%Qc Hj); [f_equal; unfold total_precision; cbn [map]; rewrite qsum_cons; ring|]. unfold accumulate. cbn [fst]. rewrite Ea, one_over by auto. reflexivity.
    + intros i a Hi Ea. destruct (Vx i Hi) as [x Ex]. rewrite (I2 i (a + x * precision (variance m (owner sh i)))%Qc Hi).
      * f_equal. unfold weighted_sum. cbn [map]. rewrite qsum_cons, Ex. cbn [number]. ring.
      * unfold accumulate. cbn [snd]. rewrite Ea, Ex, value_over by auto. reflexivity.
Qed.
Section One.
Variable ms : list rand_var.
Hypothesis V : forall m, In m ms -> valid sh m.
Lemma acc_precision j : j < n_variances sh -> fst (fold_left (accumulate sh) ms (zeros, zeros)) j = Fin (total_precision ms j).
Proof. intros H. rewrite (proj1 (accumulate_all ms (zeros, zeros) V) j 0%Qc H eq_refl). f_equal. ring. Qed.
Lemma acc_sum i : i < n_values sh -> snd (fold_left (accumulate sh) ms (zeros, zeros)) i = Fin (weighted_sum ms i (owner sh i)).
Proof. intros H. rewrite (proj2 (accumulate_all ms (zeros, zeros) V) i 0%Qc H eq_refl). f_equal. ring. Qed.
Lemma total_nonneg j : j < n_variances sh -> (0 <= total_precision ms j)%Qc.
Proof. intros H. apply qsum_nonneg. intros x Hx. apply in_map_iff in Hx. destruct Hx as [m [<- Hm]]. apply precision_nonneg. now apply V. Qed.
Lemma usable_iff j : j < n_variances sh -> usable ms j <-> (0 < total_precision ms j)%Qc.
Proof.
  intros H. split.
  - intros [m [Hm F]]. apply (qsum_pos _ (precision (variance m j))).
    + intros x Hx. apply in_map_iff in Hx. destruct Hx as [m' [<- Hm']]. apply precision_nonneg. now apply V.
    + apply in_map_iff. eauto.
    + apply precision_pos; [now apply V|assumption].
  - intros P. unfold usable. assert (D : (exists m, In m ms /\ finite (variance m j)) \/ forall m, In m ms -> precision (variance m j) = 0%Qc).
    { clear P. induction ms as [|m l IH]; [right; intros ? []|]. destruct IH as [[m' [H1 H2]]|N]; [intros; apply V; now right|left; exists m'; cbn; auto|].
      destruct (proj2 (V m (or_introl eq_refl)) j H) as [E|[q [E _]]]; [right; intros m' [<-|H']; [now rewrite E|auto]|left; exists m; split; [now left|now exists q]]. }
    destruct D as [D|D]; [assumption|]. exfalso. unfold total_precision in P. rewrite qsum_zero in P by exact D. now apply Qclt_not_eq in P.
Qed.
Lemma usable_ne j : j < n_variances sh -> usable ms j <-> total_precision ms j <> 0%Qc.
Proof. intros H. rewrite usable_iff by assumption. split; [apply Qc_pos_ne|]. intros N. destruct (Qcle_lt_or_eq _ _ (total_nonneg j H)) as [L|E]; [assumption|congruence]. Qed.
Lemma usable_dec_j j : j < n_variances sh -> usable ms j \/ ~ usable ms j.
Proof. intros H. rewrite usable_ne by assumption. destruct (Qc_eq_dec (total_precision ms j) 0%Qc); [right|left]; tauto. Qed.
Lemma normal_iff : forallb (fun j => normal (fst (fold_left (accumulate sh) ms (zeros, zeros)) j)) (seq 0 (n_variances sh)) = true <-> forall j, j < n_variances sh -> usable ms j.
Proof.
  rewrite forallb_forall. split.
  - intros H j Hj. specialize (H j ltac:(apply in_seq; lia)). rewrite acc_precision in H by assumption. apply normal_fin in H. now apply usable_ne.
  - intros H j Hj. apply in_seq in Hj. rewrite acc_precision by lia. apply normal_fin. apply usable_ne; [lia|]. apply H. lia.
Qed.
Lemma combine_usable : (forall j, j < n_variances sh -> usable ms j) ->
  (forall i, i < n_values sh -> value (combine sh ms) i = Fin (weighted_sum ms i (owner sh i) / total_precision ms (owner sh i))%Qc) /\
  (forall j, j < n_variances sh -> variance (combine sh ms) j = Fin (/ total_precision ms j)%Qc).
Proof.
  intros U. unfold combine. rewrite (proj2 normal_iff U). cbn [value variance]. split.
  - intros i Hi. rewrite acc_sum, acc_precision by auto. apply ediv_fin. apply usable_ne; auto.
  - intros j Hj. rewrite acc_precision by assumption. rewrite ediv_fin by (apply usable_ne; auto). f_equal. field. apply usable_ne; auto.
Qed.
Lemma combine_unusable : ~ (forall j, j < n_variances sh -> usable ms j) -> (forall i, i < n_values sh -> value (combine sh ms) i = Fin (weighted_sum ms i (owner sh i))) /\ (forall j, variance (combine sh ms) j = PInf).
Proof.
  intros U. unfold combine. destruct (forallb _ _) eqn:E; [destruct U; now apply normal_iff|]. cbn [value variance]. split; [intros; now apply acc_sum|reflexivity].
Qed.
Lemma all_usable_dec : (forall j, j < n_variances sh -> usable ms j) \/ ~ (forall j, j < n_variances sh -> usable ms j).
Proof. destruct (forallb (fun j => normal (fst (fold_left (accumulate sh) ms (zeros, zeros)) j)) (seq 0 (n_variances sh))) eqn:E; [left; now apply normal_iff|]. right. intros H. apply normal_iff in H. congruence. Qed.
Lemma combine_valid : valid sh (combine sh ms).
Proof.
  destruct all_usable_dec as [U|U].
  - destruct (combine_usable U) as [C1 C2]. split; [intros i Hi; rewrite C1 by assumption; eexists; reflexivity|]. intros j Hj. rewrite C2 by assumption. right. eexists. split; [reflexivity|]. apply Qc_inv_pos. apply usable_iff; auto.
  - destruct (combine_unusable U) as [C1 C2]. split; [intros i Hi; rewrite C1 by assumption; eexists; reflexivity|]. intros j _. left. apply C2.
Qed.
(** no measurement at all is usable: the sums vanish *)
Lemma unusable_sums i j : (forall m, In m ms -> variance m j = PInf) -> total_precision ms j = 0%Qc /\ weighted_sum ms i j = 0%Qc.
Proof. intros H. split; apply qsum_zero; intros m Hm; rewrite (H m Hm); cbn; ring. Qed.
End One.
Lemma combine_same ms ms' : (forall m, In m ms -> valid sh m) -> (forall m, In m ms' -> valid sh m) -> (forall j, j < n_variances sh -> total_precision ms j = total_precision ms' j) ->
  (forall i, i < n_values sh -> weighted_sum ms i (owner sh i) = weighted_sum ms' i (owner sh i)) -> same sh (combine sh ms) (combine sh ms').
Proof.
  intros V V' T S. assert (U : forall j, j < n_variances sh -> usable ms j <-> usable ms' j) by (intros; rewrite (usable_ne ms), (usable_ne ms'), T; tauto).
  destruct (all_usable_dec ms V) as [A|A].
  - assert (A' : forall j, j < n_variances sh -> usable ms' j) by (intros; apply U; auto). destruct (combine_usable ms V A) as [C1 C2]. destruct (combine_usable ms' V' A') as [D1 D2]. split.
    + intros i Hi. now rewrite C1, D1, S, T by auto.
    + intros j Hj. now rewrite C2, D2, T by auto.
  - assert (A' : ~ forall j, j < n_variances sh -> usable ms' j) by (intros Q; apply A; intros; apply U; auto). destruct (combine_unusable ms V A) as [C1 C2]. destruct (combine_unusable ms' V' A') as [D1 D2]. split.
    + intros i Hi. now rewrite C1, D1, S by auto.
    + intros j Hj. now rewrite C2, D2.
Qed.
Lemma combine_perm ms ms' : (forall m, In m ms -> valid sh m) -> Permutation ms ms' -> same sh (combine sh ms) (combine sh ms').
Proof.
  intros V P. apply combine_same; [assumption|intros m Hm; apply V; eapply Permutation_in; [symmetry; exact P|assumption]| |]; intros; apply qsum_perm; now apply Permutation_map.
Qed.
Lemma total_app a b j : total_precision (a ++ b) j = (total_precision a j + total_precision b j)%Qc.
Proof. unfold total_precision. now rewrite map_app, qsum_app. Qed.
Lemma sum_app a b i j : weighted_sum (a ++ b) i j = (weighted_sum a i j + weighted_sum b i j)%Qc.
Proof. unfold weighted_sum. now rewrite map_app, qsum_app. Qed.
Lemma combine_staged l l' : (forall m, In m (l ++ l') -> valid sh m) -> (forall j, j < n_variances sh -> usable l j) \/ (forall m j, In m l -> j < n_variances sh -> variance m j = PInf) ->
  same sh (combine sh (combine sh l :: l')) (combine sh (l ++ l')).
Proof.
  intros V H. assert (Vl : forall m, In m l -> valid sh m) by (intros; apply V, in_or_app; auto). assert (Vl' : forall m, In m l' -> valid sh m) by (intros; apply V, in_or_app; auto).
  assert (G : (forall j, j < n_variances sh -> precision (variance (combine sh l) j) = total_precision l j) /\ forall i, i < n_values sh -> (number (value (combine sh l) i) * precision (variance (combine sh l) (owner sh i)))%Qc = weighted_sum l i (owner sh i)).
  { destruct (all_usable_dec l Vl) as [U|U].
    - destruct (combine_usable l Vl U) as [C1 C2]. split.
      + intros j Hj. rewrite C2 by assumption. cbn. field. split; [apply usable_ne; auto|discriminate].
      + intros i Hi. rewrite C1, C2 by auto. cbn. field. split; [apply usable_ne; auto|discriminate].
    - destruct H as [H|H]; [contradiction|]. destruct (combine_unusable l Vl U) as [C1 C2]. split.
      + intros j Hj. rewrite C2. cbn. symmetry. apply (unusable_sums l 0). auto.
      + intros i Hi. rewrite C2. cbn [precision]. rewrite (proj2 (unusable_sums l i (owner sh i) (fun m Hm => H m _ Hm (W i Hi)))). ring. }
  destruct G as [G1 G2]. apply combine_same; [|assumption| |].
  - intros m [<-|Hm]; [now apply combine_valid|auto].
  - intros j Hj. rewrite total_app, <- G1 by assumption. reflexivity.
  - intros i Hi. rewrite sum_app, <- G2 by assumption. reflexivity.
Qed.
End Shape.
(** the weighted mean is nearest *)
Lemma least_squares ms i j m : (0 < total_precision ms j)%Qc -> (forall x, In x ms -> (0 <= precision (variance x j))%Qc) -> m = (weighted_sum ms i j / total_precision ms j)%Qc ->
  forall y, (qsum (map (fun x => precision (variance x j) * ((number (value x i) - m) * (number (value x i) - m))) ms) <= qsum (map (fun x => precision (variance x j) * ((number (value x i) - y) * (number (value x i) - y))) ms))%Qc.
Proof.
  intros P N E y. apply Qc_sub_nonneg.
  assert (X : forall z, qsum (map (fun x => precision (variance x j) * ((number (value x i) - z) * (number (value x i) - z))) ms)%Qc =
    (qsum (map (fun x => precision (variance x j) * (number (value x i) * number (value x i))) ms) + (- (z + z)) * weighted_sum ms i j + (z * z) * total_precision ms j)%Qc).
  { intros z. unfold weighted_sum, total_precision. rewrite <- !qsum_scale, <- !qsum_add. apply qsum_ext. intros x _. ring. }
  rewrite !X. match goal with |- (0 <= ?a)%Qc => replace a with (total_precision ms j * ((y - m) * (y - m)))%Qc end.
  - apply Qc_mul_nonneg; [now apply Qclt_le_weak|apply Qc_square_nonneg].
  - assert (S : weighted_sum ms i j = (m * total_precision ms j)%Qc) by (rewrite E; field; now apply Qc_pos_ne). rewrite S. ring.
Qed.

(** ** Real and imaginary parts *)
Section Decomposed.
Variable n : nat.
Lemma independent_ok : well_shaped (independent_real n).
Proof. intros i H. exact H. Qed.
Lemma valid_parts ds : (forall d, In d ds -> valid_dec n d) -> (forall m, In m (map re ds) -> valid (independent_real n) m) /\ (forall m, In m (map im ds) -> valid (independent_real n) m).
Proof. intros V. split; intros m Hm; apply in_map_iff in Hm; destruct Hm as [d [<- Hd]]; now apply V. Qed.
Lemma all_normal_iff f : (forall p, p < n -> positive (f p)) -> all_normal n f = true <-> forall p, p < n -> finite (f p).
Proof.
  intros P. unfold all_normal. rewrite forallb_forall. split.
  - intros H p Hp. specialize (H p ltac:(apply in_seq; lia)). destruct (P p Hp) as [E|[q [E _]]]; [rewrite E in H; discriminate|]. now exists q.
  - intros H p Hp. apply in_seq in Hp. destruct (H p ltac:(lia)) as [q E]. destruct (P p ltac:(lia)) as [E'|[q' [E' L]]]; [congruence|]. rewrite E'. apply normal_fin. now apply Qc_pos_ne.
Qed.
Lemma decomposed_usable ds : (forall d, In d ds -> valid_dec n d) -> usable_dec n ds -> combine_decomposed n ds = mkDec (combine (independent_real n) (map re ds)) (combine (independent_real n) (map im ds)).
Proof.
  intros V U. destruct (valid_parts ds V) as [Vr Vi]. unfold combine_decomposed.
  destruct (combine_usable _ independent_ok _ Vr (fun p Hp => proj1 (U p Hp))) as [_ Cr]. destruct (combine_usable _ independent_ok _ Vi (fun p Hp => proj2 (U p Hp))) as [_ Ci].
  rewrite (proj2 (all_normal_iff _ (proj2 (combine_valid _ independent_ok _ Vr)))) by (intros p Hp; rewrite Cr by exact Hp; eexists; reflexivity).
  rewrite (proj2 (all_normal_iff _ (proj2 (combine_valid _ independent_ok _ Vi)))) by (intros p Hp; rewrite Ci by exact Hp; eexists; reflexivity). reflexivity.
Qed.
Lemma decomposed_unusable ds : (forall d, In d ds -> valid_dec n d) -> ~ usable_dec n ds -> combine_decomposed n ds = mkDec (mkVar (value (combine (independent_real n) (map re ds))) (fun _ => PInf)) (mkVar (value (combine (independent_real n) (map im ds))) (fun _ => PInf)).
Proof.
  intros V U. destruct (valid_parts ds V) as [Vr Vi]. unfold combine_decomposed.
  destruct (all_normal n (variance (combine (independent_real n) (map re ds)))) eqn:Er; [|reflexivity]. destruct (all_normal n (variance (combine (independent_real n) (map im ds)))) eqn:Ei; [|reflexivity].
  destruct U. pose proof (proj1 (all_normal_iff _ (proj2 (combine_valid _ independent_ok _ Vr))) Er) as Fr. pose proof (proj1 (all_normal_iff _ (proj2 (combine_valid _ independent_ok _ Vi))) Ei) as Fi.
  assert (Ur : forall p, p < n -> usable (map re ds) p).
  { destruct (all_usable_dec _ independent_ok _ Vr) as [A|A]; [exact A|]. destruct (combine_unusable _ independent_ok _ Vr A) as [_ C]. intros p Hp. destruct (Fr p Hp) as [q E]. rewrite C in E. discriminate. }
  assert (Ui : forall p, p < n -> usable (map im ds) p).
  { destruct (all_usable_dec _ independent_ok _ Vi) as [A|A]; [exact A|]. destruct (combine_unusable _ independent_ok _ Vi A) as [_ C]. intros p Hp. destruct (Fi p Hp) as [q E]. rewrite C in E. discriminate. }
  intros p Hp. auto.
Qed.
Lemma usable_dec_dec ds : (forall d, In d ds -> valid_dec n d) -> usable_dec n ds \/ ~ usable_dec n ds.
Proof.
  intros V. destruct (valid_parts ds V) as [Vr Vi]. destruct (all_usable_dec _ independent_ok _ Vr) as [A|A].
  - destruct (all_usable_dec _ independent_ok _ Vi) as [B|B]; [left; intros p Hp; split; auto|right; intros U; apply B; intros p Hp; now apply U].
  - right. intros U. apply A. intros p Hp. now apply U.
Qed.
Lemma decomposed_valid ds : (forall d, In d ds -> valid_dec n d) -> valid_dec n (combine_decomposed n ds).
Proof.
  intros V. destruct (valid_parts ds V) as [Vr Vi]. destruct (usable_dec_dec ds V) as [U|U].
  - rewrite decomposed_usable by assumption. split; now apply combine_valid.
  - rewrite decomposed_unusable by assumption. split; (split; [intros i Hi; cbn; now apply (combine_valid (independent_real n) independent_ok)|intros; now left]).
Qed.
End Decomposed.
