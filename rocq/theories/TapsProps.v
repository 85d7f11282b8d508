(** C27, C47: tap positions and clock numbers; what a tap position means; the star equivalent of a three-winding transformer. *)
From Coq Require Import Field QArith Qcanon.
From Verif Require Import Common Component TwoPort Taps TapsSpec.
Close Scope Qc_scope. Close Scope Q_scope. Open Scope nat_scope.

(** ** taps *)
Definition transformer_of (t : taps) (b : branch) : transformer := mkTransformer b (tp_tap t).
Definition transformer3_of (t : taps) (b : branch3) : transformer3 := mkTransformer3 b (tp_tap t).
Definition run_updates (x : transformer) (us : list transformer_upd) : transformer := fold_left (fun x u => fst (transformer_update x u)) us x.
Definition run_updates3 (x : transformer3) (us : list transformer3_upd) : transformer3 := fold_left (fun x u => fst (transformer3_update x u)) us x.

Lemma limit_nearest a b p : nearest a b p (tap_limit a b p).
Proof. unfold nearest, between, tap_limit. split; [lia|]. intros y Hy. lia. Qed.
Lemma nearest_unique a b p x y : nearest a b p x -> nearest a b p y -> x = y.
Proof.
  intros [Hx1 Hx2] [Hy1 Hy2]. pose proof (Hx2 y Hy1). pose proof (Hy2 x Hx1). destruct (Z.eq_dec x y) as [E|E]; auto.
  assert (Hm : between a b p). { unfold between in *. lia. }
  pose proof (Hx2 p Hm). pose proof (Hy2 p Hm). lia.
Qed.
Definition tap_step (t : tap) (p : Z) : tap := fst (set_tap t p).
Lemma last_shift {A} (l : list A) : forall p q, last (p :: l) q = last l p.
Proof. induction l as [|x l IH]; intros p q; auto. change (last (p :: x :: l) q) with (last (x :: l) q). rewrite !IH. reflexivity. Qed.
Lemma tap_run ps : forall t q, tap_pos t = tap_limit (tap_min t) (tap_max t) q ->
  let t' := fold_left tap_step ps t in
  tap_min t' = tap_min t /\ tap_max t' = tap_max t /\ tap_pos t' = tap_limit (tap_min t) (tap_max t) (last_given q ps).
Proof.
  induction ps as [|p ps IH]; intros t q Hq; cbn [fold_left]; [simpl; auto|]. unfold last_given. cbn [filter].
  change (given p) with (negb (p =? na_IntS)%Z). destruct (p =? na_IntS)%Z eqn:En; cbn [negb].
  - assert (E : tap_step t p = t) by (unfold tap_step, set_tap; rewrite En; reflexivity). rewrite E. exact (IH t q Hq).
  - rewrite last_shift. fold (last_given p ps).
    assert (E : tap_min (tap_step t p) = tap_min t /\ tap_max (tap_step t p) = tap_max t /\ tap_pos (tap_step t p) = tap_limit (tap_min t) (tap_max t) p).
    { unfold tap_step, set_tap. rewrite En. destruct (p =? tap_pos t)%Z eqn:Ep; simpl; auto.
      refine (conj eq_refl (conj eq_refl _)). apply Z.eqb_eq in Ep. rewrite Hq in *. unfold tap_limit in *. lia. }
    destruct E as (E1 & E2 & E3). destruct (IH (tap_step t p) p) as (H1 & H2 & H3); [now rewrite E1, E2|]. rewrite H1, H2, E1, E2 in *. auto.
Qed.
Lemma run_tap us : forall x, tr_tap (run_updates x us) = fold_left tap_step (map tru_tap us) (tr_tap x).
Proof.
  induction us as [|u us IH]; intros x; auto. unfold run_updates in *. simpl. rewrite IH. f_equal.
  unfold transformer_update, tap_step. destruct (branch_set_status (tr_branch x) (tru_branch u)) as [b c]. destruct (set_tap (tr_tap x) (tru_tap u)) as [t d]. reflexivity.
Qed.
Lemma run_tap3 us : forall x, t3_tap (run_updates3 x us) = fold_left tap_step (map t3u_tap us) (t3_tap x).
Proof.
  induction us as [|u us IH]; intros x; auto. unfold run_updates3 in *. simpl. rewrite IH. f_equal.
  unfold transformer3_update, tap_step. destruct (branch3_set_status (t3_branch x) (t3u_branch u)) as [b c]. destruct (set_tap (t3_tap x) (t3u_tap u)) as [t d]. reflexivity.
Qed.
Lemma new_pos i : tap_pos (tp_tap (taps_new i)) = tap_limit (ti_min i) (ti_max i) (first_position i).
Proof.
  unfold taps_new, first_position, given. simpl. change (-128)%Z with na_IntS. destruct (ti_pos i =? na_IntS)%Z, (ti_nom i =? na_IntS)%Z; reflexivity.
Qed.
(** Whatever is given at construction and in any sequence of updates, the tap position is the position of the range nearest to the one given last; in particular it lies in the range, and is
    the given one if that lies in the range. The same for transformers with two and with three windings. *)
Theorem C27_taps : forall (i : taps_in),
  (forall (clock : Z) (wf wt : winding) (t : taps) (c : Z) (b : branch) (us : list transformer_upd), transformer_new i clock wf wt = Some (t, c) ->
     nearest (ti_min i) (ti_max i) (last_given (first_position i) (map tru_tap us)) (tap_pos (tr_tap (run_updates (transformer_of t b) us)))) /\
  (forall (c12 c13 : Z) (w1 w2 w3 : winding) (t : taps) (c c' : Z) (b : branch3) (us : list transformer3_upd), three_winding_new i c12 c13 w1 w2 w3 = Some (t, c, c') ->
     nearest (ti_min i) (ti_max i) (last_given (first_position i) (map t3u_tap us)) (tap_pos (t3_tap (run_updates3 (transformer3_of t b) us)))).
Proof.
  intros i. split.
  - intros clock wf wt t c b us H. unfold transformer_new in H. destruct (is_valid_clock clock wf wt); [|discriminate]. injection H as <- <-.
    rewrite run_tap. change (tr_tap (transformer_of (taps_new i) b)) with (tp_tap (taps_new i)). destruct (tap_run (map tru_tap us) (tp_tap (taps_new i)) (first_position i) (new_pos i)) as (_ & _ & ->). apply limit_nearest.
  - intros c12 c13 w1 w2 w3 t c c' b us H. unfold three_winding_new in H. destruct (is_valid_clock c12 w1 w2); [|discriminate]. destruct (is_valid_clock c13 w1 w3); [|discriminate].
    injection H as <- <- <-.
    rewrite run_tap3. change (t3_tap (transformer3_of (taps_new i) b)) with (tp_tap (taps_new i)). destruct (tap_run (map t3u_tap us) (tp_tap (taps_new i)) (first_position i) (new_pos i)) as (_ & _ & ->). apply limit_nearest.
Qed.
(** the position nearest to one inside the range is that one *)
Lemma nearest_inside a b p x : between a b p -> nearest a b p x -> x = p.
Proof. intros Hp [_ H]. pose proof (H p Hp). lia. Qed.

(** ** clocks *)
Lemma cyclic c : int8 c -> (0 <= map_to_cyclic_range c 12 <= 11)%Z /\ ((map_to_cyclic_range c 12 - c) mod 12 = 0)%Z.
Proof.
  intros _. unfold map_to_cyclic_range. pose proof (Z.quot_rem' c 12) as Q. pose proof (Z.rem_bound_abs c 12 ltac:(lia)) as B.
  set (r := Z.rem c 12) in *. assert (Hr : (0 <= r + 12)%Z) by lia. rewrite (Z.rem_mod_nonneg (r + 12) 12) by lia.
  pose proof (Z.mod_pos_bound (r + 12) 12 ltac:(lia)). split; [lia|].
  pose proof (Z.div_mod (r + 12) 12 ltac:(lia)) as D. set (m := ((r + 12) mod 12)%Z) in *. set (d := ((r + 12) / 12)%Z) in *.
  replace (m - c)%Z with ((1 - d - Z.quot c 12) * 12)%Z by lia. apply Z.mod_mul. lia.
Qed.
Lemma valid_parity c wf wt : is_valid_clock c wf wt = Bool.eqb (Z.even c) (Bool.eqb (is_wye wf) (is_wye wt)).
Proof.
  unfold is_valid_clock. f_equal. destruct (Z.rem c 2 =? 0)%Z eqn:E.
  - apply Z.eqb_eq in E. pose proof (Z.quot_rem' c 2) as Q. rewrite E, Z.add_0_r in Q. rewrite Q. now rewrite Z.even_mul.
  - apply Z.eqb_neq in E. symmetry. apply Bool.not_true_is_false. intros H. apply Z.even_spec in H as [k ->]. apply E. now rewrite Z.mul_comm, Z.rem_mul.
Qed.
(** A transformer is refused exactly if its clock number is even while one winding is a star and the other not, or odd otherwise; else its clock number is the given one modulo 12, in 0..11.
    The two-winding transformers of the star equivalent of a three-winding transformer are always accepted, and have the opposite clock numbers. *)
Theorem C27_clocks :
  (forall (i : taps_in) (clock : Z) (wf wt : winding), int8 clock ->
     match transformer_new i clock wf wt with
     | Some (_, c) => (0 <= c <= 11)%Z /\ ((c - clock) mod 12 = 0)%Z /\ (Z.even clock = true <-> is_wye wf = is_wye wt)
     | None => ~ (Z.even clock = true <-> is_wye wf = is_wye wt)
     end) /\
  (forall (i : taps_in) (c12 c13 : Z) (w1 w2 w3 : winding), int8 c12 -> int8 c13 ->
     match three_winding_new i c12 c13 w1 w2 w3 with
     | Some (_, c, c') => (0 <= c <= 11)%Z /\ ((c - c12) mod 12 = 0)%Z /\ (0 <= c' <= 11)%Z /\ ((c' - c13) mod 12 = 0)%Z /\
         (Z.even c12 = true <-> is_wye w1 = is_wye w2) /\ (Z.even c13 = true <-> is_wye w1 = is_wye w3) /\
         exists d d', converted_clocks c c' w1 w2 w3 = Some [0%Z; d; d'] /\ (0 <= d <= 11)%Z /\ ((d + c12) mod 12 = 0)%Z /\ (0 <= d' <= 11)%Z /\ ((d' + c13) mod 12 = 0)%Z
     | None => ~ (Z.even c12 = true <-> is_wye w1 = is_wye w2) \/ ~ (Z.even c13 = true <-> is_wye w1 = is_wye w3)
     end).
Proof.
  assert (V : forall c wf wt, is_valid_clock c wf wt = true <-> (Z.even c = true <-> is_wye wf = is_wye wt)).
  { intros c wf wt. rewrite valid_parity. destruct (Z.even c), (is_wye wf), (is_wye wt); simpl; intuition congruence. }
  split.
  - intros i clock wf wt Hc. unfold transformer_new. destruct (is_valid_clock clock wf wt) eqn:E.
    + destruct (cyclic clock Hc) as [H1 H2]. refine (conj H1 (conj H2 _)). now apply V.
    + intros H. apply V in H. congruence.
  - intros i c12 c13 w1 w2 w3 H12 H13. unfold three_winding_new. destruct (is_valid_clock c12 w1 w2) eqn:E12; [destruct (is_valid_clock c13 w1 w3) eqn:E13|]; simpl.
    + destruct (cyclic c12 H12) as [A1 A2]. destruct (cyclic c13 H13) as [B1 B2].
      refine (conj A1 (conj A2 (conj B1 (conj B2 (conj (proj1 (V _ _ _) E12) (conj (proj1 (V _ _ _) E13) _)))))).
      set (c := map_to_cyclic_range c12 12) in *. set (c' := map_to_cyclic_range c13 12) in *.
      assert (P : forall a a0 w w', (0 <= a <= 11)%Z -> ((a - a0) mod 12 = 0)%Z -> is_valid_clock a0 w w' = true -> is_valid_clock (12 - a) w' w = true).
      { intros a a0 w w' Ha Hm Hv. rewrite valid_parity in *. rewrite <- Hv. rewrite Z.even_sub. simpl (Z.even 12).
        assert (Ev : Z.even a = Z.even a0).
        { apply Z.mod_divide in Hm; [|lia]. destruct Hm as [k Hk]. replace a with (a0 + k * 12)%Z by lia. rewrite Z.even_add, Z.even_mul. simpl (Z.even 12). rewrite orb_true_r.
          destruct (Z.even a0); reflexivity. }
        rewrite Ev. destruct (Z.even a0), (is_wye w), (is_wye w'); reflexivity. }
      unfold converted_clocks, transformer_new. rewrite (P c c12 w1 w2 A1 A2 E12), (P c' c13 w1 w3 B1 B2 E13). simpl (is_valid_clock 0 WyeN WyeN). cbv iota.
      exists (map_to_cyclic_range (12 - c) 12), (map_to_cyclic_range (12 - c') 12).
      destruct (cyclic (12 - c)) as [C1 C2]; [unfold int8; lia|]. destruct (cyclic (12 - c')) as [D1 D2]; [unfold int8; lia|].
      assert (M : forall d a a0, ((d - (12 - a)) mod 12 = 0)%Z -> ((a - a0) mod 12 = 0)%Z -> ((d + a0) mod 12 = 0)%Z).
      { intros d a a0 X Y. apply Z.mod_divide in X; [|lia]. apply Z.mod_divide in Y; [|lia]. destruct X as [k X]. destruct Y as [l Y].
        replace (d + a0)%Z with ((k + 1 - l) * 12)%Z by lia. apply Z.mod_mul. lia. }
      refine (conj eq_refl (conj C1 (conj (M _ _ _ C2 A2) (conj D1 (M _ _ _ D2 B2))))).
    + right. intros H. apply V in H. congruence.
    + left. intros H. apply V in H. congruence.
Qed.

(** ** values *)
Section Values.
Context {R : Type} (o : r_ops R).
Local Notation "a + b" := (r_add o a b). Local Notation "a - b" := (r_sub o a b). Local Notation "a * b" := (r_mul o a b). Local Notation "a / b" := (r_div o a b).
(** the laws of the real numbers that are used *)
Record r_laws : Prop := {
  rw_field : field_theory (r_0 o) (r_1 o) (r_add o) (r_mul o) (r_sub o) (r_neg o) (r_div o) (r_inv o) eq;
  rw_z1 : r_z o 1 = r_1 o;
  rw_z_add : forall a b, r_z o (a + b) = r_z o a + r_z o b;
  rw_z_mul : forall a b, r_z o (a * b) = r_z o a * r_z o b;
  rw_z_inj : forall a, r_z o a = r_0 o -> a = 0%Z;
  rw_min : forall a b, r_min o a b = a \/ r_min o a b = b }.
Variable L : r_laws.
Add Field Rfield : (rw_field L).
Lemma rz0 : r_z o 0 = r_0 o.
Proof.
  assert (E : r_z o 0 = r_z o 0 + r_z o 0) by (rewrite <- (rw_z_add L); reflexivity).
  transitivity ((r_z o 0 + r_z o 0) - r_z o 0); [ring|]. rewrite <- E. ring.
Qed.
Lemma rz_nz a : a <> 0%Z -> r_z o a <> r_0 o. Proof. intros H E. apply H. now apply (rw_z_inj L). Qed.
Lemma rz_opp a : r_z o (- a) = r_neg o (r_z o a).
Proof. transitivity (r_z o (- a) + r_z o a - r_z o a); [ring|]. rewrite <- (rw_z_add L), Z.add_opp_diag_l, rz0. ring. Qed.
Lemma rz_sub a b : r_z o (a - b) = r_z o a - r_z o b. Proof. unfold Z.sub. rewrite (rw_z_add L), rz_opp. ring. Qed.

(** With the nominal position in the range, the short-circuit voltage (or loss) used at the nominal position and at the two ends is the one given for it, and it
    changes in proportion to the position on either side of the nominal position. *)
Theorem C47_interpolation : forall (t : taps) (xk xk_min xk_max : R),
  let lo := tap_min (tp_tap t) in let hi := tap_max (tp_tap t) in let nom := tp_nom t in let pos := tap_pos (tp_tap t) in
  between lo hi pos -> between lo hi nom ->
  let x := adjust o t xk xk_min xk_max in
  (pos = nom -> x = xk) /\ (pos = hi -> hi <> nom -> x = xk_max) /\ (pos = lo -> lo <> nom -> x = xk_min) /\
  (between nom hi pos -> (x - xk) * r_z o (hi - nom) = if (hi =? nom)%Z then r_0 o else (xk_max - xk) * r_z o (pos - nom)) /\
  (between nom lo pos -> (x - xk) * r_z o (lo - nom) = if (lo =? nom)%Z then r_0 o else (xk_min - xk) * r_z o (pos - nom)).
Proof.
  intros t xk xk_min xk_max lo hi nom pos Hp Hn x. unfold x, adjust, tap_adjust_impedance. fold lo hi nom pos. clearbody lo hi nom pos. clear x t.
  assert (Hz : forall k, r_0 o * k = r_0 o) by (intros; ring).
  assert (Hd : forall a b, a <> b -> r_z o (a - b) <> r_0 o) by (intros a b Hab; apply rz_nz; lia).
  destruct ((pos <=? Z.max nom hi) && (Z.min nom hi <=? pos))%Z eqn:E.
  - assert (Hb : between nom hi pos) by (unfold between; lia).
    destruct (hi =? nom)%Z eqn:Eh.
    + assert (pos = nom) by (unfold between in *; lia). refine (conj (fun _ => eq_refl) (conj _ (conj _ (conj _ _)))).
      * intros _ H'. lia.
      * intros Hlo Hne. lia.
      * intros _. ring.
      * intros _. destruct (lo =? nom)%Z; [ring|]. subst pos. rewrite Z.sub_diag, rz0. ring.
    + assert (Hne : hi <> nom) by lia. pose proof (Hd hi nom Hne) as H0. refine (conj _ (conj _ (conj _ (conj _ _)))).
      * intros ->. rewrite Z.sub_diag, rz0. field. auto.
      * intros -> _. field. auto.
      * intros -> Hlo. assert (X : lo = nom \/ lo = hi) by (unfold between in *; lia). destruct X as [X|X]; [congruence|]. subst lo. exfalso. unfold between in *. lia.
      * intros _. field. auto.
      * intros Hb'. assert (X : pos = nom \/ lo = hi \/ pos = lo) by (unfold between in *; lia).
        assert (Y : pos = nom \/ lo = nom) by (unfold between in *; lia).
        destruct (lo =? nom)%Z eqn:El.
        -- assert (lo = nom) by lia. subst lo. rewrite Z.sub_diag, rz0. ring.
        -- destruct Y as [->|Y]; [|lia]. rewrite Z.sub_diag, rz0. field. auto.
  - assert (Hb : ~ between nom hi pos) by (unfold between; lia). assert (Hl : between nom lo pos) by (unfold between in *; lia).
    destruct (lo =? nom)%Z eqn:El; [exfalso; unfold between in *; lia|]. assert (Hne : lo <> nom) by lia. pose proof (Hd lo nom Hne) as H0.
    refine (conj _ (conj _ (conj _ (conj _ _)))).
    + intros ->. exfalso. apply Hb. unfold between. lia.
    + intros -> _. exfalso. apply Hb. unfold between. lia.
    + intros -> _. field. auto.
    + intros H. contradiction.
    + intros _. field. auto.
Qed.
(** One position further towards tap_max, the rated voltage of the side with the tap changer is one tap size higher; at the nominal position it is the rated voltage. *)
Theorem C47_tap_voltage : forall (i i' : taps_in) (u tap_size : R), ti_min i' = ti_min i -> ti_max i' = ti_max i -> ti_nom i' = ti_nom i -> ti_min i <> ti_max i ->
  let t := taps_new i in let t' := taps_new i' in
  (tap_pos (tp_tap t) = tp_nom t -> tap_voltage o t u tap_size = u) /\
  (tap_pos (tp_tap t') = (tap_pos (tp_tap t) + Z.sgn (ti_max i - ti_min i))%Z -> tap_voltage o t' u tap_size = tap_voltage o t u tap_size + tap_size).
Proof.
  intros i i' u ts H1 H2 H3 Hne t t'. unfold tap_voltage. split.
  - intros ->. rewrite Z.sub_diag, Z.mul_0_r, rz0. ring.
  - intros E. rewrite E. assert (Hd : tp_direction t' = tp_direction t /\ tp_nom t' = tp_nom t) by (unfold t, t', taps_new; simpl; rewrite H1, H2, H3; auto). destruct Hd as [-> ->].
    assert (Hs : (tp_direction t * Z.sgn (ti_max i - ti_min i) = 1)%Z).
    { unfold t, taps_new. simpl. destruct (ti_min i <? ti_max i)%Z eqn:El; [rewrite Z.sgn_pos|rewrite Z.sgn_neg]; lia. }
    replace (tp_direction t * (tap_pos (tp_tap t) + Z.sgn (ti_max i - ti_min i) - tp_nom t))%Z with (tp_direction t * (tap_pos (tp_tap t) - tp_nom t) + 1)%Z by lia.
    rewrite (rw_z_add L), (rw_z1 L). ring.
Qed.
Lemma two_nz : r_1 o + r_1 o <> r_0 o.
Proof. rewrite <- (rw_z1 L), <- (rw_z_add L). apply rz_nz. lia. Qed.
(** The star equivalent of a three-winding transformer has, between each two of its three branches, the given short-circuit voltage (as a voltage per rated power) and
    the given short-circuit loss: the resistances of the two branches add up to the resistance that the loss was measured with. *)
Theorem C47_star : forall (sn_1 sn_2 sn_3 x12 x13 x23 : R), sn_1 <> r_0 o -> sn_2 <> r_0 o -> sn_3 <> r_0 o ->
  (let '(uk1, uk2, uk3) := calculate_uk o sn_1 sn_2 sn_3 x12 x13 x23 in
   uk1 / sn_1 + uk2 / sn_2 = x12 / r_min o sn_1 sn_2 /\ uk1 / sn_1 + uk3 / sn_3 = x13 / r_min o sn_1 sn_3 /\ uk2 / sn_2 + uk3 / sn_3 = x23 / r_min o sn_2 sn_3) /\
  (let '(pk1, pk2, pk3) := calculate_pk o sn_1 sn_2 sn_3 x12 x13 x23 in forall u : R,
   let resistance pk sn := series_resistance o pk u sn in
   resistance pk1 sn_1 + resistance pk2 sn_2 = resistance x12 (r_min o sn_1 sn_2) /\
   resistance pk1 sn_1 + resistance pk3 sn_3 = resistance x13 (r_min o sn_1 sn_3) /\
   resistance pk2 sn_2 + resistance pk3 sn_3 = resistance x23 (r_min o sn_2 sn_3)).
Proof.
  intros s1 s2 s3 x12 x13 x23 H1 H2 H3. pose proof two_nz as Ht. unfold calculate_uk, calculate_pk, series_resistance. cbv zeta beta iota.
  assert (M12 : r_min o s1 s2 <> r_0 o) by (destruct (rw_min L s1 s2) as [-> | ->]; auto).
  assert (M13 : r_min o s1 s3 <> r_0 o) by (destruct (rw_min L s1 s3) as [-> | ->]; auto).
  assert (M23 : r_min o s2 s3 <> r_0 o) by (destruct (rw_min L s2 s3) as [-> | ->]; auto).
  set (m12 := r_min o s1 s2) in *. set (m13 := r_min o s1 s3) in *. set (m23 := r_min o s2 s3) in *.
  assert (Ht' : forall x, (x + x) / (r_1 o + r_1 o) = x).
  { intros x. transitivity ((r_1 o + r_1 o) * x / (r_1 o + r_1 o)); [f_equal; ring|]. set (tw := r_1 o + r_1 o) in *. field. auto. }
  split; [|intros u]; refine (conj _ (conj _ _));
    (match goal with |- _ = ?r => rewrite <- (Ht' r) end); set (tw := r_1 o + r_1 o) in *; field; auto 10.
Qed.
End Values.

(** ** the rational numbers satisfy the laws *)
Definition q_ops : r_ops Qc := mkR 0%Qc 1%Qc Qcplus Qcminus Qcmult Qcdiv Qcopp Qcinv (fun a b => if Qle_bool a b then a else b) (fun z => Q2Qc (inject_Z z)).
Lemma q_laws : r_laws q_ops.
Proof.
  constructor.
  - exact Qcft.
  - reflexivity.
  - intros a b. apply Qc_is_canon. change (Qred (inject_Z (a + b)) == Qred (Qred (inject_Z a) + Qred (inject_Z b)))%Q. rewrite !Qred_correct, inject_Z_plus. reflexivity.
  - intros a b. apply Qc_is_canon. change (Qred (inject_Z (a * b)) == Qred (Qred (inject_Z a) * Qred (inject_Z b)))%Q. rewrite !Qred_correct, inject_Z_mult. reflexivity.
  - intros a H. assert (E : (Qred (inject_Z a) == Qred 0)%Q) by (change (this (r_z q_ops a) == this 0%Qc)%Q; rewrite H; reflexivity).
    rewrite !Qred_correct in E. unfold inject_Z, Qeq in E. simpl in E. lia.
  - intros a b. simpl. destruct (Qle_bool a b); auto.
Qed.
Definition qz (z : Z) : Qc := Q2Qc (inject_Z z).
(** With the nominal position below the range, the value at tap_min is not the one given for tap_min. *)
Theorem C47_nominal_outside_refuted : exists (i : taps_in) (xk xk_min xk_max : Qc), let t := taps_new i in
  tap_pos (tp_tap t) = tap_min (tp_tap t) /\ tap_min (tp_tap t) <> tp_nom t /\ adjust q_ops t xk xk_min xk_max <> xk_min.
Proof.
  exists (mkTapsIn 2 2 4 0), (qz 10), (qz 11), (qz 30). cbv zeta. refine (conj eq_refl (conj _ _)); [discriminate|].
  intros E. apply (f_equal this) in E. vm_compute in E. discriminate.
Qed.

(** ** the hypotheses are met *)
(** a reversed range, a position beyond its end, updates with and without a position, and a clock number of 13 for a star and a delta winding *)
Definition demo_taps : taps_in := mkTapsIn 50 9 (-7) 1.
Example demo_transformer : exists t, transformer_new demo_taps 13 WyeN Delta = Some (t, 1%Z) /\ tap_pos (tp_tap t) = 9%Z /\ tp_direction t = (-1)%Z.
Proof. eexists. split; [reflexivity|]. split; reflexivity. Qed.
Example demo_updates : forall t, transformer_new demo_taps 13 WyeN Delta = Some (t, 1%Z) ->
  map (fun ps => tap_pos (tr_tap (run_updates (transformer_of t (mkBranch true true)) (map (mkTransformerUpd (mkBranchUpd (-128) (-128))) ps))))
    [[]; [3]; [3; -128]; [3; -100]; [-100; 127]]%Z = [9; 3; 3; -7; 9]%Z.
Proof. intros t H. injection H as <-. reflexivity. Qed.
Example demo_invalid : transformer_new demo_taps 12 WyeN Delta = None. Proof. reflexivity. Qed.
Example demo_three : three_winding_new demo_taps (-11) 18 WyeN Delta WyeN = Some (taps_new demo_taps, 1%Z, 6%Z) /\ converted_clocks 1 6 WyeN Delta WyeN = Some [0; 11; 6]%Z.
Proof. split; reflexivity. Qed.
Example demo_adjust : let t := taps_new (mkTapsIn (-3) 9 (-7) 1) in between 9 (-7) (tap_pos (tp_tap t)) /\ between 9 (-7) (tp_nom t) /\
  adjust q_ops t (qz 10) (qz 12) (qz 20) = qz 15.
Proof. refine (conj _ (conj _ _)); [right; vm_compute; split; discriminate|right; vm_compute; split; discriminate|]. apply Qc_is_canon. reflexivity. Qed.
Print Assumptions C27_taps.
Print Assumptions C27_clocks.
Print Assumptions C47_interpolation.
Print Assumptions C47_tap_voltage.
Print Assumptions C47_star.
Print Assumptions C47_nominal_outside_refuted.
