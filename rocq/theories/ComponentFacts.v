(** Proofs about the update functions of single components. *)
From Verif Require Import Common Container Component ComponentSpec.

Section Facts.
Context {O : DOps}.

(** [update] sets what is given. *)
Lemma to_bool_given s : given_status s = if (s =? na_IntS)%Z then None else Some (AStatus (to_bool s)).
Proof. reflexivity. Qed.

Lemma limit_nearest a b v : tap_limit a b v = nearest_in_range a b v.
Proof. unfold tap_limit, nearest_in_range. destruct (Z.ltb_spec v (Z.min a b)), (Z.ltb_spec (Z.max a b) v); lia. Qed.

Lemma limit_in_range a b v : (Z.min a b <= tap_limit a b v <= Z.max a b)%Z.
Proof. unfold tap_limit. lia. Qed.

Lemma limit_id a b v : (Z.min a b <= v <= Z.max a b)%Z -> tap_limit a b v = v.
Proof. unfold tap_limit. lia. Qed.

Definition overlay1 (o : attr) (a : option attr) (n : attr) := after o a n.

Lemma overlays_nil : overlays (O := O) [] [] [].
Proof. split; [|split]; auto. intros [|k] ? ? ? H; discriminate. Qed.
Lemma overlays_cons o a n os ans ns : after o a n -> overlays os ans ns -> overlays (o :: os) (a :: ans) (n :: ns).
Proof.
  intros H (H1 & H2 & H3). split; [|split]; simpl; auto.
  intros [|k] o' a' n'; simpl; [intros [= <-] [= <-] [= <-]; auto|eauto].
Qed.

Lemma after_status (cur : bool) s : after (AStatus cur) (given_status s) (AStatus (fst (set_status1 cur s))).
Proof.
  unfold set_status1, given_status, to_bool. destruct (s =? na_IntS)%Z; simpl; auto.
  destruct (Bool.eqb _ cur) eqn:E; simpl; auto. apply Bool.eqb_prop in E. congruence.
Qed.
Lemma after_bstatus (cur : bool) s :
  after (AStatus cur) (given_status s) (AStatus (if negb (s =? na_IntS)%Z then to_bool s else cur)).
Proof. unfold given_status, to_bool. destruct (s =? na_IntS)%Z; simpl; auto. Qed.
Lemma after_real f v cur : after (ANum cur) (given_num f v) (ANum (if isnan v then cur else f v)).
Proof. unfold given_num. destruct (isnan v); simpl; auto. Qed.
Lemma after_scaled s v cur : after (ANum cur) (given_num (dmul s) v) (ANum (update_real_sym v cur s)).
Proof. unfold given_num, update_real_sym. destruct (isnan v); simpl; auto. Qed.
Lemma after_param v cur : after (ANum cur) (given_num same_number v) (ANum (fst (update_param v cur))).
Proof.
  unfold given_num, update_param. destruct (isnan v); simpl; auto. destruct (deq v cur) eqn:E; simpl; auto.
Qed.
Lemma after_assign v cur : after (ANum cur) (given_num same_number v) (ANum (fst (assign_if v cur))).
Proof. unfold given_num, assign_if. destruct (isnan v); simpl; auto. Qed.
Lemma after_int na v cur : after (AInt cur) (given_int na v (fun x => x)) (AInt (if (v =? na)%Z then cur else v)).
Proof. unfold given_int. destruct (v =? na)%Z; simpl; auto. Qed.
Lemma after_tap (x : tap) v : in_tap_range x ->
  after (AInt (tap_pos x)) (given_int na_IntS v (nearest_in_range (tap_min x) (tap_max x))) (AInt (tap_pos (fst (set_tap x v)))).
Proof.
  intros H. unfold given_int, set_tap. destruct (v =? na_IntS)%Z eqn:E; simpl; auto.
  destruct (Z.eqb_spec v (tap_pos x)) as [E1|E1]; simpl.
  - rewrite <- limit_nearest, limit_id; [now f_equal|]. unfold in_tap_range in H. lia.
  - now rewrite limit_nearest.
Qed.
Lemma set_tap_fixed x v : tap_min (fst (set_tap x v)) = tap_min x /\ tap_max (fst (set_tap x v)) = tap_max x.
Proof. unfold set_tap. now destruct (_ || _)%bool. Qed.
Lemma set_tap_range x v : in_tap_range x -> in_tap_range (fst (set_tap x v)).
Proof.
  unfold set_tap, in_tap_range. destruct (_ || _)%bool; simpl; auto. intros _. apply limit_in_range.
Qed.

Lemma branch_set_eq b u : fst (branch_set_status b u) =
  mkBranch (if negb (bu_from u =? na_IntS)%Z then to_bool (bu_from u) else b_from b)
           (if negb (bu_to u =? na_IntS)%Z then to_bool (bu_to u) else b_to b).
Proof. unfold branch_set_status. now destruct (negb (bu_from u =? na_IntS)%Z), (negb (bu_to u =? na_IntS)%Z). Qed.
Lemma branch3_set_eq b u : fst (branch3_set_status b u) =
  mkBranch3 (if negb (b3u_1 u =? na_IntS)%Z then to_bool (b3u_1 u) else b3_1 b)
            (if negb (b3u_2 u =? na_IntS)%Z then to_bool (b3u_2 u) else b3_2 b)
            (if negb (b3u_3 u =? na_IntS)%Z then to_bool (b3u_3 u) else b3_3 b).
Proof.
  unfold branch3_set_status.
  now destruct (negb (b3u_1 u =? na_IntS)%Z), (negb (b3u_2 u =? na_IntS)%Z), (negb (b3u_3 u =? na_IntS)%Z).
Qed.

Definition upd_state (t : ctype) (c : comp t) (u : comp_upd t) : comp t := fst (fst (update t c u)).

Lemma shunt_update_eq s u : fst (shunt_update s u) =
  let q := (fst (update_param (shu_g1 u) (sh_g1 s)), fst (update_param (shu_b1 u) (sh_b1 s)),
            fst (update_param (shu_g0 u) (sh_g0 s)), fst (update_param (shu_b0 u) (sh_b0 s))) in
  mkShunt (fst (set_status1 (sh_status s) (shu_status u)))
    (fst (update_param (shu_g1 u) (sh_g1 s))) (fst (update_param (shu_b1 u) (sh_b1 s)))
    (fst (update_param (shu_g0 u) (sh_g0 s))) (fst (update_param (shu_b0 u) (sh_b0 s)))
    (if (snd (update_param (shu_b0 u) (sh_b0 s)) || (snd (update_param (shu_g0 u) (sh_g0 s))
        || (snd (update_param (shu_b1 u) (sh_b1 s)) || snd (update_param (shu_g1 u) (sh_g1 s)))))%bool
     then Some q else sh_y s).
Proof.
  unfold shunt_update, shunt_update_params. destruct (set_status1 _ _). simpl.
  destruct (update_param (shu_g1 u) _), (update_param (shu_b1 u) _), (update_param (shu_g0 u) _),
    (update_param (shu_b0 u) _). reflexivity.
Qed.
Lemma source_update_eq s u : fst (source_update s u) =
  mkSource (fst (set_status1 (so_status s) (sou_status u))) (fst (assign_if (sou_u_ref u) (so_u_ref s)))
    (fst (assign_if (sou_u_ref_angle u) (so_u_ref_angle s))) (fst (assign_if (sou_sk u) (so_sk s)))
    (fst (assign_if (sou_rx u) (so_rx s))) (fst (assign_if (sou_z01 u) (so_z01 s))).
Proof.
  unfold source_update. destruct (set_status1 _ _), (assign_if (sou_u_ref u) _), (assign_if (sou_u_ref_angle u) _),
    (assign_if (sou_sk u) _), (assign_if (sou_rx u) _), (assign_if (sou_z01 u) _). reflexivity.
Qed.

Ltac overlay := repeat first
  [apply overlays_nil | apply overlays_cons
  | apply after_status | apply after_bstatus | apply after_scaled | apply after_param | apply after_assign
  | apply (after_real same_number) | apply after_real | apply after_int | apply after_tap; assumption].

Theorem update_overlays t c u : well_formed t c -> regulator_status_given t u ->
  overlays (stored t c) (given t c u) (stored t (upd_state t c u)).
Proof.
  unfold upd_state. intros W G.
  destruct t; cbn [well_formed regulator_status_given] in W, G; cbn [update no_exn stored given fst].
  - apply overlays_nil.
  - unfold branch_update. rewrite (surjective_pairing (branch_set_status _ _)), branch_set_eq; cbn; overlay.
  - unfold branch_update. rewrite (surjective_pairing (branch_set_status _ _)), branch_set_eq; cbn; overlay.
  - unfold branch_update. rewrite (surjective_pairing (branch_set_status _ _)), branch_set_eq; cbn; overlay.
  - unfold branch_update. rewrite (surjective_pairing (branch_set_status _ _)), branch_set_eq; cbn; overlay.
  - unfold transformer_update. rewrite (surjective_pairing (branch_set_status _ _)), branch_set_eq.
    rewrite (surjective_pairing (set_tap _ _)). cbn [fst tr_branch tr_tap b_from b_to]. overlay.
  - unfold transformer3_update. rewrite (surjective_pairing (branch3_set_status _ _)), branch3_set_eq.
    rewrite (surjective_pairing (set_tap _ _)). cbn [fst t3_branch t3_tap b3_1 b3_2 b3_3]. overlay.
  - rewrite shunt_update_eq. cbn [sh_status sh_g1 sh_b1 sh_g0 sh_b0]. overlay.
  - rewrite source_update_eq. cbn [so_status so_u_ref so_u_ref_angle so_sk so_rx so_z01]. overlay.
  - unfold loadgen_update. rewrite (surjective_pairing (set_status1 _ _)). cbn -[given_num given_status set_status1]. overlay.
  - unfold loadgen_update. rewrite (surjective_pairing (set_status1 _ _)). cbn -[given_num given_status set_status1 update_real_sym]. overlay.
  - unfold loadgen_update. rewrite (surjective_pairing (set_status1 _ _)). cbn -[given_num given_status set_status1]. overlay.
  - unfold loadgen_update. rewrite (surjective_pairing (set_status1 _ _)). cbn -[given_num given_status set_status1 update_real_sym]. overlay.
  - cbn -[given_num update_real_sym]. overlay.
  - cbn -[given_num update_real_sym]. overlay.
  - cbn -[given_num update_real_sym]. overlay.
  - cbn -[given_num update_real_sym]. overlay.
  - cbn -[given_num update_real_sym]. overlay.
  - cbn -[given_num update_real_sym]. overlay.
  - unfold fault_update. rewrite (surjective_pairing (set_status1 _ _)).
    cbn [fst fa_status fa_type fa_phase fa_object fa_r fa_x]. overlay.
  - cbn -[given_num update_real_sym given_status]. overlay.
    unfold regulator_set_status, given_status, to_bool. destruct (Z.eqb_spec (rgu_status u) na_IntS); [congruence|].
    reflexivity.
  - cbn -[given_num given_status]. overlay.
    unfold regulator_set_status, given_status, to_bool. destruct (Z.eqb_spec (vru_status u) na_IntS); [congruence|].
    reflexivity.
Qed.

Theorem update_fixed t c u : fixed t (upd_state t c u) = fixed t c.
Proof.
  unfold upd_state. destruct t; cbn [update no_exn fixed fst]; auto;
  try (unfold loadgen_update; destruct (set_status1 _ _); reflexivity).
  - unfold transformer_update. destruct (branch_set_status _ _), (set_tap _ _) eqn:E. cbn.
    pose proof (set_tap_fixed (tr_tap c) (tru_tap u)) as [H1 H2]. rewrite E in H1, H2. cbn in *. congruence.
  - unfold transformer3_update. destruct (branch3_set_status _ _), (set_tap _ _) eqn:E. cbn.
    pose proof (set_tap_fixed (t3_tap c) (t3u_tap u)) as [H1 H2]. rewrite E in H1, H2. cbn in *. congruence.
Qed.

Theorem update_well_formed t c u : well_formed t c -> well_formed t (upd_state t c u).
Proof.
  unfold upd_state. destruct t; cbn [update no_exn well_formed fst]; auto.
  - unfold transformer_update. destruct (branch_set_status _ _), (set_tap _ _) eqn:E. cbn.
    intros H. apply (set_tap_range _ (tru_tap u)) in H. now rewrite E in H.
  - unfold transformer3_update. destruct (branch3_set_status _ _), (set_tap _ _) eqn:E. cbn.
    intros H. apply (set_tap_range _ (t3u_tap u)) in H. now rewrite E in H.
  - rewrite shunt_update_eq. cbn [sh_status sh_g1 sh_b1 sh_g0 sh_b0 sh_y].
    intros H. destruct (_ || _)%bool eqn:E; [now left|].
    apply orb_false_iff in E as [E1 E]. apply orb_false_iff in E as [E2 E]. apply orb_false_iff in E as [E3 E4].
    assert (HU : forall v x, snd (update_param v x) = false -> fst (update_param v x) = x).
    { intros v x. unfold update_param. now destruct (_ || _)%bool. }
    now rewrite !HU by assumption.
Qed.

Lemma given_fixed t c c' u : fixed t c = fixed t c' -> given t c u = given t c' u.
Proof.
  destruct t; cbn [fixed given]; auto; unfold given_lg, given_ps, given_vs, given_cs; intros H; injection H; clear H; intros;
    repeat match goal with E : _ = _ |- _ => rewrite E; clear E end; reflexivity.
Qed.

Lemma given_length t c u : length (given t c u) = length (stored t c).
Proof. destruct t; reflexivity. Qed.
Lemma stored_length t c c' : length (stored t c) = length (stored t c').
Proof. destruct t; reflexivity. Qed.

(** Several records, one after the other. *)
Definition upd_all (t : ctype) (c : comp t) (us : list (comp_upd t)) : comp t := fold_left (upd_state t) us c.

Theorem upd_all_spec t us : forall c, well_formed t c -> Forall (regulator_status_given t) us ->
  is_updated t c us (upd_all t c us) /\ well_formed t (upd_all t c us).
Proof.
  induction us as [|u us IH]; intros c W G.
  - split; auto. split; [|split]; auto. intros k o n Ho Hn. simpl in *. congruence.
  - inversion G as [|? ? G1 G2]; subst. simpl.
    destruct (IH (upd_state t c u) (update_well_formed t c u W) G2) as [(F & L & A) W']. split; auto.
    split; [|split].
    + rewrite F. apply update_fixed.
    + apply stored_length.
    + intros k o n Ho Hn.
      destruct (update_overlays t c u W G1) as (_ & _ & A1).
      destruct (nth_error (stored t (upd_state t c u)) k) as [m|] eqn:Em.
      2:{ apply nth_error_None in Em. rewrite (stored_length t _ c) in Em.
          assert (k < length (stored t c)) by (apply nth_error_Some; congruence). lia. }
      destruct (nth_error (given t c u) k) as [a|] eqn:Ea.
      2:{ apply nth_error_None in Ea. rewrite given_length in Ea.
          assert (k < length (stored t c)) by (apply nth_error_Some; congruence). lia. }
      specialize (A k m n Em Hn). specialize (A1 k o a m Ho Ea Em).
      assert (EQ : asks_for t (upd_state t c u) us k = asks_for t c us k).
      { apply map_ext. intros v. now rewrite (given_fixed t _ c) by apply update_fixed. }
      rewrite EQ in A. simpl. rewrite (nth_error_nth _ _ None Ea).
      destruct (last_given (asks_for t c us k)) as [v|] eqn:EL; simpl in *; auto.
      now subst n.
Qed.

(** ** Inverse records *)

Lemma given_status_back s (b : bool) :
  given_status (set_if_int s (status_to_int b)) =
  match given_status s with Some _ => Some (AStatus b) | None => None end.
Proof. unfold given_status, set_if_int. destruct (Z.eqb_spec s na_IntS) as [->|]; auto. now destruct b. Qed.
Lemma given_num_back f g v o : (isnan v = false -> isnan (g o) = false /\ f (g o) = o) ->
  given_num f (set_if_sym v (g o)) = match given_num f v with Some _ => Some (ANum o) | None => None end.
Proof.
  unfold given_num, set_if_sym. destruct (isnan v) eqn:E; [now rewrite E|]. intros H. destruct (H eq_refl) as [-> ->].
  reflexivity.
Qed.
Lemma given_int_back na f v o : (v <> na -> o <> na /\ f o = o) ->
  given_int na (if (v =? na)%Z then v else o) f = match given_int na v f with Some _ => Some (AInt o) | None => None end.
Proof.
  unfold given_int. intros H. destruct (Z.eqb_spec v na) as [E|E].
  - destruct (Z.eqb_spec v na); [reflexivity|congruence].
  - destruct (H E) as [H1 H2]. destruct (Z.eqb_spec o na); [congruence|]. now rewrite H2.
Qed.

Definition backs (olds : list attr) (gs : list (option attr)) : list (option attr) :=
  map (fun p => match snd p with Some _ => Some (fst p) | None => None end) (combine olds gs).

Lemma base_avail_num t c u k f v o : base_available t c u ->
  nth_error (given t c u) k = Some (given_num f v) -> nth_error (stored t c) k = Some (ANum o) ->
  isnan v = false -> isnan o = false.
Proof.
  intros H H1 H2 E. unfold given_num in H1. rewrite E in H1. exact (H k _ _ H1 H2).
Qed.
Lemma base_avail_int t c u k na f v o : base_available t c u ->
  nth_error (given t c u) k = Some (given_int na v f) -> nth_error (stored t c) k = Some (AInt o) ->
  v <> na -> o <> na_IntS /\ o <> na_IntID.
Proof.
  intros H H1 H2 E. unfold given_int in H1. destruct (Z.eqb_spec v na); [congruence|]. exact (H k _ _ H1 H2).
Qed.

Lemma avail_at t c u k o : base_available t c u -> nth_error (stored t c) k = Some o ->
  nth k (given t c u) None <> None -> available o.
Proof.
  intros H Ho Hg. destruct (nth_error (given t c u) k) as [[a|]|] eqn:E.
  - exact (H k a o E Ho).
  - rewrite (nth_error_nth _ _ None E) in Hg. congruence.
  - apply nth_error_None in E. rewrite nth_overflow in Hg by auto. congruence.
Qed.

Lemma given_num_some f v : isnan v = false -> given_num f v <> None.
Proof. unfold given_num. intros ->. discriminate. Qed.
Lemma given_int_some na f v : v <> na -> given_int na v f <> None.
Proof. unfold given_int. destruct (Z.eqb_spec v na); congruence. Qed.

Lemma set_if_int_eq v o : set_if_int v o = if (v =? na_IntS)%Z then v else o.
Proof. reflexivity. Qed.

Section Back.
Variables (Ex : exact_numbers).

Lemma back_same v o : (isnan v = false -> isnan o = false) ->
  given_num same_number (set_if_sym v o) = match given_num same_number v with Some _ => Some (ANum o) | None => None end.
Proof. intros H. apply (given_num_back same_number (fun x => x)). intros E. split; auto. Qed.
Lemma back_done v o : (isnan v = false -> isnan o = false) ->
  given_num (dmul done) (set_if_sym v o) = match given_num (dmul done) v with Some _ => Some (ANum o) | None => None end.
Proof.
  intros H. apply (given_num_back (dmul done) (fun x => x)). intros E. split; auto. apply (exact_one Ex).
Qed.
Lemma back_scaled i out v o : inverse_factors i out -> (isnan v = false -> isnan o = false) ->
  given_num (dmul i) (set_if_sym v (dmul o out)) =
  match given_num (dmul i) v with Some _ => Some (ANum o) | None => None end.
Proof.
  intros F H. apply (given_num_back (dmul i) (fun x => dmul x out)). intros E. destruct (F o (H E)) as (? & ? & _). auto.
Qed.
Lemma back_scaled_r i out v o : inverse_factors i out -> (isnan v = false -> isnan o = false) ->
  given_num (fun x => dmul x i) (set_if_sym v (dmul o out)) =
  match given_num (fun x => dmul x i) v with Some _ => Some (ANum o) | None => None end.
Proof.
  intros F H. apply (given_num_back (fun x => dmul x i) (fun x => dmul x out)). intros E.
  destruct (F o (H E)) as (? & _ & ?). auto.
Qed.
End Back.

(** The inverse record asks for the base value of exactly the attributes that the record changes. *)
Theorem inverse_given t c u : exact_numbers -> exact_factors t c -> well_formed t c -> base_available t c u ->
  given t c (inverse t c u) = backs (stored t c) (given t c u).
Proof.
  intros Ex F W B.
  assert (BN : forall k f v o, nth_error (given t c u) k = Some (given_num f v) ->
            nth_error (stored t c) k = Some (ANum o) -> isnan v = false -> isnan o = false)
    by (intros k f v o; apply base_avail_num; assumption).
  assert (BI : forall k na f v o, nth_error (given t c u) k = Some (given_int na v f) ->
            nth_error (stored t c) k = Some (AInt o) -> v <> na -> o <> na_IntS /\ o <> na_IntID)
    by (intros k na f v o; eapply base_avail_int; eassumption).
  destruct t; cbn [exact_factors well_formed] in F, W; try (match type of F with _ /\ _ => destruct F as [F1 F2] end);
    cbn [inverse given stored] in *;
    unfold given_lg, given_ps, given_vs, given_cs, stored_lg, stored_ps, stored_vs, stored_cs, one, per_phase in *;
    cbn [loadgen_inverse psensor_inverse vsensor_inverse csensor_inverse
         lgu_status lgu_p lgu_q psu_p psu_q psu_sigma psu_p_sigma psu_q_sigma vsu_u vsu_angle vsu_sigma csu_i csu_angle
         csu_sigma csu_angle_sigma one per_phase app set_if_asym tri_mul ph_a ph_b ph_c
         branch_inverse branch3_inverse transformer_inverse transformer3_inverse shunt_inverse source_inverse
         fault_inverse tapreg_inverse vreg_inverse bu_from bu_to b3u_1 b3u_2 b3u_3 tru_branch tru_tap t3u_branch t3u_tap
         shu_status shu_g1 shu_b1 shu_g0 shu_b0 sou_status sou_u_ref sou_u_ref_angle sou_sk sou_rx sou_z01
         fau_status fau_type fau_phase fau_object fau_r fau_x rgu_status rgu_u_set rgu_u_band rgu_ldc_r rgu_ldc_x
         vru_status vru_u_ref vru_q_min vru_q_max] in *;
    unfold backs; cbn [combine map fst snd];
    repeat match goal with |- _ :: _ = _ :: _ => apply (f_equal2 cons) end; try reflexivity;
    try apply given_status_back;
    try (first [apply back_same | apply back_done; [exact Ex|] | apply back_scaled; [assumption|]
               | apply back_scaled_r; [assumption|]]; intros HN;
         first [exact (BN 0 _ _ _ eq_refl eq_refl HN) | exact (BN 1 _ _ _ eq_refl eq_refl HN)
               |exact (BN 2 _ _ _ eq_refl eq_refl HN) | exact (BN 3 _ _ _ eq_refl eq_refl HN)
               |exact (BN 4 _ _ _ eq_refl eq_refl HN) | exact (BN 5 _ _ _ eq_refl eq_refl HN)
               |exact (BN 6 _ _ _ eq_refl eq_refl HN) | exact (BN 7 _ _ _ eq_refl eq_refl HN)
               |exact (BN 8 _ _ _ eq_refl eq_refl HN) | exact (BN 9 _ _ _ eq_refl eq_refl HN)
               |exact (BN 10 _ _ _ eq_refl eq_refl HN) | exact (BN 11 _ _ _ eq_refl eq_refl HN)
               |exact (BN 12 _ _ _ eq_refl eq_refl HN)]).
  - apply given_int_back. intros HN. destruct (BI 2 _ _ _ _ eq_refl eq_refl HN). split; auto.
    rewrite <- limit_nearest. now apply limit_id.
  - apply given_int_back. intros HN. destruct (BI 3 _ _ _ _ eq_refl eq_refl HN). split; auto.
    rewrite <- limit_nearest. now apply limit_id.
  - apply given_int_back. intros HN. destruct (BI 1 _ _ _ _ eq_refl eq_refl HN). split; auto.
  - apply given_int_back. intros HN. destruct (BI 2 _ _ _ _ eq_refl eq_refl HN). split; auto.
  - apply given_int_back. intros HN. destruct (BI 3 _ _ _ _ eq_refl eq_refl HN). split; auto.
Qed.

Lemma inverse_status_given t c u : regulator_status_given t u -> regulator_status_given t (inverse t c u).
Proof.
  destruct t; cbn [regulator_status_given inverse]; auto; cbn; unfold set_if_int; intros H;
    (destruct (Z.eqb_spec (rgu_status u) na_IntS) || destruct (Z.eqb_spec (vru_status u) na_IntS)); try congruence;
    (destruct (rg_status c) || destruct (vr_status c)); discriminate.
Qed.

(** Components are determined by their attributes, their constants and (for shunts) the computed admittance. *)
Lemma comp_ext t (c c' : comp t) : stored t c = stored t c' -> fixed t c = fixed t c' ->
  well_formed t c -> well_formed t c' -> shunt_defined t c -> shunt_defined t c' -> c = c'.
Proof.
  destruct t; cbn [stored fixed well_formed shunt_defined]; unfold stored_lg, stored_ps, stored_vs, stored_cs.
  all: try (destruct c, c'; reflexivity).
  all: repeat match goal with x : comp _ |- _ => cbn [comp] in x end.
  all: repeat match goal with
       | x : loadgen (tri D) |- _ => destruct x as [? [? ? ?] [? ? ?] ? ?]
       | x : psensor (tri D) |- _ => destruct x as [[? ? ?] [? ? ?] ? [? ? ?] [? ? ?] ? ? ? ?]
       | x : vsensor (tri D) |- _ => destruct x as [[? ? ?] [? ? ?] ? ? ?]
       | x : csensor (tri D) |- _ => destruct x as [[? ? ?] [? ? ?] ? ? ? ?]
       | x : transformer |- _ => destruct x as [[? ?] [? ? ?]]
       | x : transformer3 |- _ => destruct x as [[? ? ?] [? ? ?]]
       end.
  all: try (destruct c, c'); cbn in *; intros HS HF W W' SD SD';
       injection HS; intros; try injection HF; intros; subst; try reflexivity.
  destruct W as [->|[? _]], W' as [->|[? _]]; congruence.
Qed.

Lemma shunt_defined_upd t c u : shunt_defined t c -> shunt_defined t (upd_state t c u).
Proof.
  unfold upd_state. destruct t; cbn [shunt_defined]; auto. cbn [update no_exn fst].
  rewrite shunt_update_eq. cbn [sh_y]. destruct (_ || _)%bool; congruence.
Qed.
Lemma shunt_defined_all t us : forall c, shunt_defined t c -> shunt_defined t (upd_all t c us).
Proof. induction us as [|u us IH]; intros c H; simpl; auto. apply IH. now apply shunt_defined_upd. Qed.

Lemma nth_combine {A B} (l : list A) (l' : list B) k a b :
  nth_error l k = Some a -> nth_error l' k = Some b -> nth_error (combine l l') k = Some (a, b).
Proof.
  revert l' k; induction l as [|x l IH]; intros [|y l'] [|k] H1 H2; simpl in *; try discriminate; auto. congruence.
Qed.

(** Records (possibly only some of them, [us']) followed by the inverses of all records (computed from the component
    before the records, applied in the same order) give back the component. *)
Theorem undo_component t c us us' : exact_numbers -> exact_factors t c -> well_formed t c -> shunt_defined t c ->
  Forall (regulator_status_given t) us -> Forall (base_available t c) us -> incl us' us ->
  upd_all t (upd_all t c us') (map (inverse t c) us) = c.
Proof.
  intros Ex F W SD G B I.
  set (c1 := upd_all t c us'). set (c2 := upd_all t c1 (map (inverse t c) us)).
  assert (GI : Forall (regulator_status_given t) us').
  { rewrite Forall_forall in *. intros u Hu. auto. }
  destruct (upd_all_spec t us' c W GI) as [(F1 & L1 & A1) W1]. fold c1 in F1, L1, A1, W1.
  assert (G' : Forall (regulator_status_given t) (map (inverse t c) us)).
  { apply Forall_map. eapply Forall_impl; [|exact G]. intros u. apply inverse_status_given. }
  destruct (upd_all_spec t (map (inverse t c) us) c1 W1 G') as [(F2 & L2 & A2) W2]. fold c2 in F2, L2, A2, W2.
  apply comp_ext; auto; try congruence.
  2:{ unfold c2, c1. now repeat apply shunt_defined_all. }
  apply nth_error_ext. intros k.
  destruct (nth_error (stored t c) k) as [o|] eqn:Eo.
  2:{ apply nth_error_None in Eo. apply nth_error_None. rewrite (stored_length t _ c). auto. }
  assert (Hk : k < length (stored t c)) by (apply nth_error_Some; congruence).
  destruct (nth_error (stored t c1) k) as [n1|] eqn:E1.
  2:{ apply nth_error_None in E1. rewrite (stored_length t _ c) in E1. lia. }
  destruct (nth_error (stored t c2) k) as [n2|] eqn:E2.
  2:{ apply nth_error_None in E2. rewrite (stored_length t _ c) in E2. lia. }
  specialize (A1 k o n1 Eo E1). specialize (A2 k n1 n2 E1 E2).
  assert (EQ : asks_for t c1 (map (inverse t c) us) k =
               map (fun a => match a with Some _ => Some o | None => None end) (asks_for t c us k)).
  { unfold asks_for. rewrite !map_map. apply map_ext_in. intros u Hu.
    rewrite (given_fixed t c1 c) by auto.
    rewrite Forall_forall in B. rewrite (inverse_given t c u Ex F W (B u Hu)). unfold backs.
    destruct (nth_error (given t c u) k) as [a|] eqn:Ea.
    2:{ apply nth_error_None in Ea. rewrite given_length in Ea. lia. }
    erewrite nth_error_nth; [|apply map_nth_error; apply nth_combine; eassumption].
    simpl. now rewrite (nth_error_nth _ _ None Ea). }
  rewrite EQ in A2.
  assert (HL : forall l, last_given (map (fun a : option attr => match a with Some _ => Some o | None => None end) l) =
                         match last_given l with Some _ => Some o | None => None end).
  { induction l as [|a l IH]; simpl; auto. rewrite IH. destruct (last_given l); auto. }
  assert (HI : last_given (asks_for t c us k) = None -> last_given (asks_for t c us' k) = None).
  { assert (HN : forall l, last_given l = None <-> forall a, In a l -> a = None :> option attr).
    { induction l as [|a l IH]; simpl; [tauto|]. destruct (last_given l) eqn:EL.
      - split; [discriminate|]. intros HA. exfalso. assert (Some a0 = None) by (apply IH; auto). discriminate.
      - split.
        + intros -> b [<-|Hb]; auto. apply IH; auto.
        + intros HA. apply HA. auto. }
    rewrite !HN. intros HA a Ha. apply HA. unfold asks_for in *. apply in_map_iff in Ha as (u & <- & Hu).
    apply in_map_iff. eauto. }
  rewrite HL in A2. destruct (last_given (asks_for t c us k)); simpl in *.
  - f_equal. clear - A2 Ex. destruct n2, o; simpl in A2; try congruence. destruct A2 as [->|A2]; auto.
    apply (exact_eq Ex) in A2. congruence.
  - rewrite HI in A1 by auto. simpl in A1. congruence.
Qed.

End Facts.
