(** C50: the reactive power of a voltage controlled bus is divided among its regulators as documented. *)
From Coq Require Import QArith Qabs Lqa.
From Verif Require Import Common ReactivePower ReactivePowerSpec ReactivePowerFacts.
Close Scope Q_scope. Open Scope nat_scope.

Section Props.
Variables (np : nat) (tol : Q).
Hypothesis phases : np = 1 \/ np = 3.
Hypothesis tol_nonneg : (0 <= tol)%Q.
Variables (load_gens : list nat) (status : nat -> bool) (regulator_of : nat -> option regulator).
Hypothesis distinct : NoDup load_gens.
Local Notation regs := (regulating load_gens status regulator_of).
Local Notation regulates := (regulates load_gens status regulator_of).
Local Notation result := (calculate_voltage_regulator_result np tol load_gens status regulator_of).
Local Notation required := (required load_gens status regulator_of).
Local Notation total := (all_phases np).

Lemma in_regs l r : In (l, r) regs <-> regulates l r.
Proof.
  unfold ReactivePowerSpec.regulates. clear distinct. induction load_gens as [|x ls IH]; cbn [regulating In]; [tauto|].
  destruct (regulator_of x) as [rx|] eqn:E.
  - destruct (status x && r_status rx) eqn:B.
    + apply andb_true_iff in B. destruct B as [B1 B2]. cbn [In]. rewrite IH. split.
      * intros [H|H]; [inversion H; subst; auto|tauto].
      * intros ([->|H] & H2 & H3 & H4); [left; congruence|right; auto].
    + rewrite IH. split; [tauto|]. intros ([->|H] & H2 & H3 & H4); [|auto]. rewrite E in H3. inversion H3; subst. rewrite H2, H4 in B. discriminate.
  - rewrite IH. split; [tauto|]. intros ([->|H] & H2 & H3 & H4); [congruence|auto].
Qed.
Lemma regs_distinct : NoDup (map fst regs).
Proof.
  assert (G : forall ls, NoDup ls -> NoDup (map fst (regulating ls status regulator_of)) /\ (forall l, In l (map fst (regulating ls status regulator_of)) -> In l ls)); [|now apply G].
  induction ls as [|x ls IH]; intros N; cbn [regulating map]; [split; [constructor|intros l []]|]. inversion_clear N as [|? ? Nx Nl]. destruct (IH Nl) as [I1 I2].
  destruct (regulator_of x) as [rx|]; [destruct (status x && r_status rx)|]; try (split; [exact I1|intros l H; right; auto]).
  cbn [map fst]. split; [constructor; [intros H; apply Nx; auto|exact I1]|]. intros l [<-|H]; [now left|right; auto].
Qed.
Lemma split_sum (f : nat -> Q) : (qsum (map f load_gens) == qsum (map f (unregulated load_gens status regulator_of)) + qsum (map f (map fst regs)))%Q.
Proof.
  clear distinct. induction load_gens as [|x ls IH]; cbn [unregulated filter regulating map]; [cbn; lra|]. rewrite qsum_cons, IH. unfold unregulated.
  destruct (regulator_of x) as [rx|]; [destruct (status x && r_status rx)|]; cbn [negb map fst]; rewrite ?qsum_cons; lra.
Qed.
Lemma others_sum s p : (others_q load_gens status regulator_of s p == qsum (map (fun l => pw_q (s l) p) (unregulated load_gens status regulator_of)))%Q.
Proof.
  clear distinct. induction load_gens as [|x ls IH]; cbn [unregulated filter others_q map]; [reflexivity|]. unfold unregulated in IH.
  destruct (regulator_of x) as [rx|]; [destruct (status x && r_status rx)|]; cbn [negb map]; rewrite ?qsum_cons, <- ?IH; unfold vplus; lra.
Qed.
Lemma apply_p : forall sts s l, pw_p (apply_q s sts l) = pw_p (s l).
Proof. unfold apply_q. induction sts as [|st sts IH]; intros s l; cbn [fold_left]; [reflexivity|]. rewrite IH. destruct (l =? st_load st); reflexivity. Qed.
Lemma apply_other : forall sts s l, ~ In l (map st_load sts) -> apply_q s sts l = s l.
Proof.
  unfold apply_q. induction sts as [|st sts IH]; intros s l H; cbn [fold_left]; [reflexivity|]. cbn [map In] in H. rewrite IH by tauto.
  destruct (l =? st_load st) eqn:E; [|reflexivity]. apply Nat.eqb_eq in E. subst. exfalso. apply H. now left.
Qed.
Lemma apply_at : forall sts s st, NoDup (map st_load sts) -> In st sts -> pw_q (apply_q s sts (st_load st)) = st_q st.
Proof.
  induction sts as [|x sts IH]; intros s st N H; [destruct H|]. cbn [map] in N. inversion_clear N as [|? ? Nx Nl].
  change (apply_q s (x :: sts)) with (apply_q (fun l => if l =? st_load x then mkPower (pw_p (s l)) (st_q x) else s l) sts). destruct H as [<-|H].
  - rewrite apply_other by exact Nx. now rewrite Nat.eqb_refl.
  - now apply IH.
Qed.
Lemma shape_loads sts : shape sts = regs -> map st_load sts = map fst regs.
Proof. intros <-. unfold shape. rewrite map_map. reflexivity. Qed.
Lemma shape_find sts l r : shape sts = regs -> regulates l r -> exists st, In st sts /\ st_load st = l /\ st_reg st = r.
Proof. intros Sh H. apply in_regs in H. rewrite <- Sh in H. apply in_map_iff in H. destruct H as (st & E & H). inversion E; subst. eauto. Qed.
Lemma not_regulating s0 sts l : shape sts = regs -> (forall r, ~ regulates l r) -> apply_q s0 sts l = s0 l.
Proof.
  intros Sh H. apply apply_other. rewrite (shape_loads _ Sh). intros I. apply in_map_iff in I. destruct I as ((l' & r) & E & I). cbn in E. subst l'. apply (H r). now apply in_regs.
Qed.
(** what a result without a violated limit of the bus comes from *)
Lemma result_none s inj s' lims : result s inj none = Reported s' lims -> (exists l r, regulates l r) ->
  lims = (fun _ => none) /\ exists sts rest num, allocate_q_iterative_distribution np tol (vminus inj (others_q load_gens status regulator_of s)) regs = Done sts rest num /\ s' = apply_q s sts.
Proof.
  intros H (l & r & Hr). unfold calculate_voltage_regulator_result in H. apply in_regs in Hr. destruct regs as [|x xs] eqn:E; [destruct Hr|].
  destruct (allocate_q_iterative_distribution _ _ _ _) as [sts rest num| |] eqn:A; try discriminate. inversion H; subst. split; [reflexivity|]. exists sts, rest, num. split; reflexivity.
Qed.
Lemma required_value s inj p : (vminus inj (others_q load_gens status regulator_of s) p == required s inj p)%Q.
Proof. unfold vminus, ReactivePowerSpec.required. rewrite others_sum. lra. Qed.
Lemma required_total s inj : (total_q np (vminus inj (others_q load_gens status regulator_of s)) == total (required s inj))%Q.
Proof. rewrite <- (total_all np phases). apply (total_ext np phases). intros p _. apply required_value. Qed.

(** ** Every division ends. *)
Theorem C50_terminates : forall s inj v, result s inj v <> Diverges.
Proof.
  intros s inj v. unfold calculate_voltage_regulator_result. destruct regs as [|x xs] eqn:E; [discriminate|]. destruct v; try discriminate.
  pose proof (allocate_ends np tol phases tol_nonneg (vminus inj (others_q load_gens status regulator_of s)) (x :: xs)) as T.
  destruct (allocate_q_iterative_distribution _ _ _ _); [discriminate|discriminate|congruence].
Qed.
(** ** Only the reactive power of the regulated loads and generators changes. *)
Theorem C50_unchanged : forall s inj v s' lims, result s inj v = Reported s' lims ->
  (forall l, pw_p (s' l) = pw_p (s l)) /\ (forall l, (forall r, ~ regulates l r) -> s' l = s l).
Proof.
  intros s inj v s' lims H. assert (E : (exists l r, regulates l r) \/ regs = []).
  { destruct regs as [|[l r] xs] eqn:E; [now right|]. left. exists l, r. apply in_regs. rewrite E. now left. }
  destruct E as [E|E].
  - destruct v.
    + destruct (result_none s inj s' lims H E) as (_ & sts & rest & num & A & ->). destruct (allocate_inv np tol phases tol_nonneg _ _ _ _ _ A) as ((Sh & _) & _).
      split; [apply apply_p|intros l Hl; now apply not_regulating].
    + unfold calculate_voltage_regulator_result in H. destruct regs as [|x xs] eqn:Er.
      { inversion H; subst. auto. }
      rewrite <- Er in H. inversion H; subst. split; [apply apply_p|]. intros l Hl. apply not_regulating; [|exact Hl]. unfold shape, allocate_q_bus_limit_violated. rewrite map_map. cbn. rewrite <- (map_id regs) at 2. apply map_ext. intros [? ?]; reflexivity.
    + unfold calculate_voltage_regulator_result in H. destruct regs as [|x xs] eqn:Er.
      { inversion H; subst. auto. }
      rewrite <- Er in H. inversion H; subst. split; [apply apply_p|]. intros l Hl. apply not_regulating; [|exact Hl]. unfold shape, allocate_q_bus_limit_violated. rewrite map_map. cbn. rewrite <- (map_id regs) at 2. apply map_ext. intros [? ?]; reflexivity.
  - unfold calculate_voltage_regulator_result in H. rewrite E in H. inversion H; subst. auto.
Qed.
(** ** No limit of the bus is violated *)
(** The reported powers balance with the grid in every phase, up to a rest below the tolerance, or every regulator is at a limit.
    Who is not at a limit has the same share as all others who are not. No limit is reported as violated. *)
Theorem C50_division : forall s inj s' lims, result s inj none = Reported s' lims -> (exists l r, regulates l r) ->
  (forall l, lims l = none) /\
  (exists rest, (forall p, (qsum (map (fun l => pw_q (s' l) p) load_gens) + rest p == inj p)%Q) /\
     ((Qabs (total rest) <= tol)%Q \/ forall l r, regulates l r -> at_limit r (total (pw_q (s' l))))) /\
  (exists level, forall l r, regulates l r -> (forall p, (pw_q (s' l) p == level p)%Q) \/ at_limit r (total (pw_q (s' l)))).
Proof.
  intros s inj s' lims H Ex. destruct (result_none s inj s' lims H Ex) as (-> & sts & rest & num & A & ->).
  destruct (allocate_inv np tol phases tol_nonneg _ _ _ _ _ A) as ((Sh & Sm & level & Lv) & Hn & End).
  assert (ND : NoDup (map st_load sts)) by (rewrite (shape_loads _ Sh); apply regs_distinct).
  refine (conj (fun _ => eq_refl) (conj _ _)).
  - exists rest. split.
    + intros p. rewrite split_sum. rewrite <- (shape_loads _ Sh), map_map. rewrite (qsum_eq (fun st => pw_q (apply_q s sts (st_load st)) p) (fun st => st_q st p) sts) by (intros st Hst; now rewrite apply_at).
      rewrite (qsum_eq (fun l => pw_q (apply_q s sts l) p) (fun l => pw_q (s l) p) (unregulated _ _ _)).
      * specialize (Sm p). rewrite required_value in Sm. unfold ReactivePowerSpec.required in Sm. lra.
      * intros l Hl. rewrite (not_regulating s sts l Sh); [reflexivity|]. intros r (_ & R2 & R3 & R4). unfold unregulated in Hl. apply filter_In in Hl. rewrite R3, R2, R4 in Hl. destruct Hl as [_ Hl]. discriminate.
    + destruct End as [End|End]; [left|right].
      * rewrite <- (total_all np phases). exact End.
      * intros l r Hr. destruct (shape_find sts l r Sh Hr) as (st & I & <- & <-). rewrite apply_at by assumption. specialize (Lv st I). rewrite (count_zero sts) in Lv by (congruence || exact I).
        destruct Lv as [(m & E1 & E2)|(m & E1 & E2)]; [left|right]; exists m; (split; [exact E1|rewrite <- (total_all np phases); exact E2]).
  - exists level. intros l r Hr. destruct (shape_find sts l r Sh Hr) as (st & I & <- & <-). rewrite apply_at by assumption. specialize (Lv st I). destruct (st_free st); [left; exact Lv|right].
    destruct Lv as [(m & E1 & E2)|(m & E1 & E2)]; [left|right]; exists m; (split; [exact E1|rewrite <- (total_all np phases); exact E2]).
Qed.
(** Limits are respected up to the tolerance, if there is anything to divide. *)
Theorem C50_limits_partial : forall s inj s' lims, result s inj none = Reported s' lims -> (tol < Qabs (total (required s inj)))%Q ->
  forall l r, regulates l r -> (forall lo hi, q_min r = Some lo -> q_max r = Some hi -> (lo <= hi)%Q) -> within tol r (total (pw_q (s' l))).
Proof.
  intros s inj s' lims H Hreq l r Hr Hlim. destruct (result_none s inj s' lims H (ex_intro _ l (ex_intro _ r Hr))) as (-> & sts & rest & num & A & ->).
  destruct (allocate_inv np tol phases tol_nonneg _ _ _ _ _ A) as ((Sh & _) & _).
  assert (ND : NoDup (map st_load sts)) by (rewrite (shape_loads _ Sh); apply regs_distinct).
  rewrite <- required_total in Hreq. pose proof (allocate_limits np tol phases tol_nonneg _ _ _ _ _ Hreq A) as Lm.
  destruct (shape_find sts l r Sh Hr) as (st & I & <- & <-). rewrite apply_at by assumption. specialize (Lm st I). pose proof (total_all np phases (st_q st)) as T. destruct (st_free st).
  - destruct Lm as [L1 L2]. split; intros m Em; [specialize (L1 m Em)|specialize (L2 m Em)]; lra.
  - destruct Lm as [(m & E1 & E2)|(m & E1 & E2)]; split; intros m' Em; try (specialize (Hlim _ _ Em E1)); try (specialize (Hlim _ _ E1 Em)); try (rewrite E1 in Em; inversion Em; subst); lra.
Qed.
(** If every regulator may also supply nothing, the division is the even one, and a total that the limits allow is supplied. *)
Theorem C50_even : forall up s inj s' lims, result s inj none = Reported s' lims -> (exists l r, regulates l r) ->
  (0 <= amount up (total (required s inj)))%Q -> (forall l r, regulates l r -> contains_zero r) ->
  (exists level, forall l r, regulates l r -> even tol up level r (total (pw_q (s' l)))) /\
  (allowed tol up (regulated load_gens status regulator_of) regulator_of (total (required s inj)) ->
   (Qabs (total inj - total (fun p => qsum (map (fun l => pw_q (s' l) p) load_gens))) <= tol)%Q).
Proof.
  intros up s inj s' lims H Ex Hpos Hz.
  destruct (C50_division s inj s' lims H Ex) as (_ & _ & _).
  destruct (result_none s inj s' lims H Ex) as (-> & sts & rest & num & A & ->).
  destruct (allocate_inv np tol phases tol_nonneg _ _ _ _ _ A) as ((Sh & Sm & _) & Hn & End).
  rewrite <- required_total in Hpos.
  assert (Hz' : forall l r, In (l, r) regs -> contains_zero r) by (intros l r Hr; apply (Hz l r); now apply in_regs).
  destruct (allocate_even np tol phases tol_nonneg up _ _ _ _ _ Hpos Hz' A) as (Rp & level & Lp & Lv).
  assert (ND : NoDup (map st_load sts)) by (rewrite (shape_loads _ Sh); apply regs_distinct).
  assert (T : forall q, (total_q np q == total q)%Q) by (intros q; apply (total_all np phases)).
  split.
  - exists (total level). intros l r Hr. destruct (shape_find sts l r Sh Hr) as (st & I & <- & <-). rewrite apply_at by assumption. destruct (Lv st I) as [_ L]. destruct (st_free st).
    + left. destruct L as [L1 L2]. split; [rewrite <- !T; apply (total_ext np phases); intros p _; apply L1|]. destruct L2 as [L2 L3]. split; intros m Em; rewrite <- T; auto.
    + right. destruct L as (m & E1 & E2 & E3). exists m. rewrite <- T. split; [exact E1|split; [exact E2|]]. rewrite <- T. exact E3.
  - intros Al.
    assert (B : forall p, (qsum (map (fun l => pw_q (apply_q s sts l) p) load_gens) + rest p == inj p)%Q).
    { intros p. rewrite split_sum. rewrite <- (shape_loads _ Sh), map_map. rewrite (qsum_eq (fun st => pw_q (apply_q s sts (st_load st)) p) (fun st => st_q st p) sts) by (intros st Hst; now rewrite apply_at).
      rewrite (qsum_eq (fun l => pw_q (apply_q s sts l) p) (fun l => pw_q (s l) p) (unregulated _ _ _)).
      * specialize (Sm p). rewrite required_value in Sm. unfold ReactivePowerSpec.required in Sm. lra.
      * intros l Hl. rewrite (not_regulating s sts l Sh); [reflexivity|]. intros r (_ & R2 & R3 & R4). unfold unregulated in Hl. apply filter_In in Hl. rewrite R3, R2, R4 in Hl. destruct Hl as [_ Hl]. discriminate. }
    assert (E : (total inj - total (fun p => qsum (map (fun l => pw_q (apply_q s sts l) p) load_gens)) == total_q np rest)%Q).
    { rewrite <- !T, <- (total_minus np). apply (total_ext np phases). intros p _. unfold vminus. specialize (B p). lra. }
    rewrite E. destruct End as [End|End]; [exact End|].
    assert (Free : forall st, In st sts -> exists m, bound up (st_reg st) = Some m /\ (total_q np (st_q st) == m)%Q).
    { intros st I. destruct (Lv st I) as [_ L]. rewrite (count_zero sts) in L by (congruence || exact I). destruct L as (m & E1 & E2 & _). eauto. }
    assert (Inr : forall l, In l (regulated load_gens status regulator_of) -> exists st, In st sts /\ st_load st = l /\ regulator_of l = Some (st_reg st)).
    { intros l Hl. unfold regulated in Hl. apply filter_In in Hl. destruct Hl as [Hl1 Hl2]. destruct (regulator_of l) as [r|] eqn:Er; [|discriminate]. apply andb_true_iff in Hl2. destruct Hl2 as [Q1 Q2].
      destruct (shape_find sts l r Sh) as (st & I & E1 & E2); [repeat split; assumption|]. exists st. split; [exact I|split; [exact E1|congruence]]. }
    assert (Order : map st_load sts = regulated load_gens status regulator_of).
    { rewrite (shape_loads _ Sh). clear. unfold regulated. induction load_gens as [|x ls IH]; cbn [regulating filter map]; [reflexivity|]. destruct (regulator_of x) as [r|]; [|exact IH]. destruct (status x && r_status r); [|exact IH]. cbn [map fst]. now rewrite IH. }
    destruct Al as [(l & r & Hl & Er & En)|(limit & Hlim & Hle)].
    + exfalso. destruct (Inr l Hl) as (st & I & E1 & E2). destruct (Free st I) as (m & E3 & _). congruence.
    + assert (S : (total_q np (vminus inj (others_q load_gens status regulator_of s)) == qsum (map limit (regulated load_gens status regulator_of)) + total_q np rest)%Q).
      { transitivity (qsum (map (fun st => total_q np (st_q st)) sts) + total_q np rest)%Q.
        - rewrite <- (total_sum np), <- (total_plus np). apply (total_ext np phases). intros p _. rewrite <- (Sm p). unfold vplus. reflexivity.
        - rewrite <- Order, map_map. rewrite (qsum_eq (fun st => total_q np (st_q st)) (fun st => limit (st_load st)) sts); [reflexivity|]. intros st I. destruct (Free st I) as (m & E1 & E2). rewrite E2.
          assert (Hs : In (st_load st) (regulated load_gens status regulator_of)) by (rewrite <- Order; now apply in_map).
          destruct (Inr _ Hs) as (st2 & I2 & E3 & E4). assert (st2 = st) by (apply (NoDup_map_eq st_load sts); assumption). subst st2. specialize (Hlim _ _ Hs E4). rewrite E1 in Hlim. inversion Hlim. reflexivity. }
      rewrite required_total in S. apply abs_le. destruct up; cbn [amount] in *; rewrite S in Hle; split; lra.
Qed.

(** ** A limit of the bus is violated: every regulator is at that limit. *)
Theorem C50_clamped : forall v s inj s' lims, v <> none -> result s inj v = Reported s' lims ->
  forall l r, regulates l r -> lims l = v /\ forall m, (match v with upper => q_max r | _ => q_min r end) = Some m -> (total (pw_q (s' l)) == m)%Q.
Proof.
  intros v s inj s' lims Hv H l r Hr. unfold calculate_voltage_regulator_result in H. pose proof (proj2 (in_regs l r) Hr) as Hin. destruct regs as [|x xs] eqn:Er; [destruct Hin|]. rewrite <- Er in *.
  set (sts := allocate_q_bus_limit_violated np tol v (fun l => pw_q (s l)) regs) in *.
  assert (H2 : Reported (apply_q s sts) (fun l => if existsb (fun r => l =? fst r) regs then v else none) = Reported s' lims) by (destruct v; [congruence|exact H|exact H]).
  inversion H2; subst. split.
  - replace (existsb (fun r0 => l =? fst r0) regs) with true; [reflexivity|]. symmetry. apply existsb_exists. exists (l, r). split; [exact Hin|apply Nat.eqb_refl].
  - intros m Em. assert (Sh : map st_load sts = map fst regs) by (unfold sts, allocate_q_bus_limit_violated; rewrite map_map; reflexivity).
    assert (I : In (mkSt l r false (distribute_q np tol m (pw_q (s l)))) sts) by (unfold sts, allocate_q_bus_limit_violated; apply in_map_iff; exists (l, r); split; [cbn [fst snd]; rewrite Em; reflexivity|exact Hin]).
    pose proof (apply_at sts s _ (eq_ind_r (fun x => NoDup x) regs_distinct Sh) I) as E. cbn [st_q st_load] in E. rewrite E. rewrite <- (total_all np phases). apply total_distribute; assumption.
Qed.
(** The limit of a bus is found violated exactly if every regulator has that limit and their sum does not allow what is required. *)
Theorem C50_bus_limit : forall s inj mismatch, (exists l r, regulates l r) ->
  (forall p, p < np -> (mismatch p == qsum (map (fun l => pw_q (s l) p) load_gens) - inj p)%Q) ->
  let v := enforce_q_limits np tol load_gens status regulator_of s mismatch in
  let q := total (required s inj) in
  let sum up := qsum (map (fun l => match regulator_of l with Some r => limit_or_zero (bound up r) | None => 0%Q end) (regulated load_gens status regulator_of)) in
  let all up := forall l r, regulates l r -> bound up r <> None in
  (v = upper <-> all true /\ (sum true + tol < q)%Q) /\
  (v = lower <-> ~ (all true /\ (sum true + tol < q)%Q) /\ all false /\ (q < sum false - tol)%Q).
Proof.
  intros s inj mismatch Ex Hm v q sum all.
  assert (Req : (total_q np (vminus (fold_right (fun r acc => vplus (pw_q (s (fst r))) acc) vzero regs) mismatch) == q)%Q).
  { unfold q. rewrite <- (total_all np phases). apply (total_ext np phases). intros p Hp. unfold vminus. rewrite (Hm p Hp), split_sum. unfold ReactivePowerSpec.required.
    assert (F : (fold_right (fun r acc => vplus (pw_q (s (fst r))) acc) vzero regs p == qsum (map (fun l => pw_q (s l) p) (map fst regs)))%Q).
    { clear. induction regs as [|r rs IH]; cbn [fold_right map]; [reflexivity|]. rewrite qsum_cons, <- IH. reflexivity. }
    rewrite F. lra. }
  assert (Order : map fst regs = regulated load_gens status regulator_of).
  { clear. unfold regulated. induction load_gens as [|x ls IH]; cbn [regulating filter map]; [reflexivity|]. destruct (regulator_of x) as [r|]; [|exact IH]. destruct (status x && r_status r); [|exact IH]. cbn [map fst]. now rewrite IH. }
  assert (Sum : forall up, (qsum (map (fun lr => limit_or_zero (bound up (snd lr))) regs) == sum up)%Q).
  { intros up. unfold sum. rewrite <- Order, map_map. apply qsum_eq. intros [l r] Hlr. cbn [fst snd]. apply in_regs in Hlr. destruct Hlr as (_ & _ & -> & _). reflexivity. }
  assert (Bus : forall up, match sum_limits (map (fun lr => bound up (snd lr)) regs) with Some x => all up /\ (x == sum up)%Q | None => ~ all up end).
  { intros up. pose proof (sum_limits_spec (fun lr : nat * regulator => bound up (snd lr)) regs) as L. destruct (sum_limits _) as [x|].
    - destruct L as [L1 L2]. split; [intros l r Hr; apply (L1 (l, r)); now apply in_regs|]. now rewrite L2, Sum.
    - destruct L as ([l r] & Hlr & E). intros Al. apply (Al l r); [now apply in_regs|exact E]. }
  pose proof (Bus true) as BT. pose proof (Bus false) as BF. cbn [bound] in BT, BF.
  assert (Ev : v = violated_limit np tol (vminus (fold_right (fun r acc => vplus (pw_q (s (fst r))) acc) vzero regs) mismatch) (bus_q_min regs) (bus_q_max regs)).
  { unfold v, enforce_q_limits. destruct Ex as (l & r & Hr). apply in_regs in Hr. destruct regs as [|x xs] eqn:E; [destruct Hr|]. rewrite <- E. destruct (bus_q_min regs), (bus_q_max regs); reflexivity. }
  rewrite Ev. unfold violated_limit, bus_q_min, bus_q_max.
  assert (U : exceeds tol (total_q np (vminus (fold_right (fun r acc => vplus (pw_q (s (fst r))) acc) vzero regs) mismatch)) (sum_limits (map (fun r => q_max (snd r)) regs)) = true <-> all true /\ (sum true + tol < q)%Q).
  { destruct (sum_limits (map (fun r => q_max (snd r)) regs)) as [x|]; cbn [exceeds]; [|split; [discriminate|intros [Al _]; contradiction]]. destruct BT as [B1 B2]. split.
    - intros G. apply gtb_true in G. rewrite Req in G. split; [exact B1|lra].
    - intros [_ G]. apply gtb_intro. rewrite Req. lra. }
  assert (L : below tol (total_q np (vminus (fold_right (fun r acc => vplus (pw_q (s (fst r))) acc) vzero regs) mismatch)) (sum_limits (map (fun r => q_min (snd r)) regs)) = true <-> all false /\ (q < sum false - tol)%Q).
  { destruct (sum_limits (map (fun r => q_min (snd r)) regs)) as [x|]; cbn [below]; [|split; [discriminate|intros [Al _]; contradiction]]. destruct BF as [B1 B2]. split.
    - intros G. apply ltb_true in G. rewrite Req in G. split; [exact B1|lra].
    - intros [_ G]. apply gtb_intro. rewrite Req. lra. }
  destruct (exceeds _ _ _).
  - split; [split; [intros _; now apply U|reflexivity]|]. split; [discriminate|]. intros (N & _). exfalso. apply N. now apply U.
  - assert (NU : ~ (all true /\ (sum true + tol < q)%Q)) by (intros C; apply U in C; discriminate). split.
    + split; [destruct (below _ _ _); discriminate|tauto].
    + destruct (below _ _ _); [split; [intros _; split; [exact NU|now apply L]|reflexivity]|split; [discriminate|]]. intros (_ & C). apply L in C. discriminate.
Qed.
End Props.

(** ** Cases *)
Definition reg (lo hi : option Q) : regulator := mkReg true lo hi.
Definition two_regs (a b : regulator) : nat -> option regulator := fun l => match l with 0 => Some a | 1 => Some b | _ => None end.
Definition flat (q : Q) : value := fun _ => q.
Definition no_q : nat -> power := fun _ => mkPower (flat 1) (flat 0).
Definition eps : Q := 1 # 100000000.
(** Three regulated generators and a load; the second generator may supply 1 only: the required 2 - (-4) = 6 become 5/2, 1, 5/2. *)
Definition ex_regs : nat -> option regulator := fun l => match l with 0 => Some (reg (Some (- 3)%Q) (Some 3%Q)) | 1 => Some (reg (Some (- 1)%Q) (Some 1%Q)) | 2 => Some (reg None None) | _ => None end.
Definition ex_load : nat -> power := fun l => mkPower (flat 1) (flat (if l =? 3 then (- 4)%Q else 0%Q)).
Definition reported_q (r : bus_result) (l : nat) : Q := match r with Reported s _ => Qred (pw_q (s l) 0) | _ => (- 77)%Q end.
Example division_example :
  map (reported_q (calculate_voltage_regulator_result 1 eps [0; 1; 2; 3] (fun _ => true) ex_regs ex_load (flat 2) none)) [0; 1; 2; 3] = [5 # 2; 1; 5 # 2; - 4]%Q.
Proof. vm_compute. reflexivity. Qed.
Definition ex_required : Q := all_phases 1 (required [0; 1; 2; 3] (fun _ => true) ex_regs ex_load (flat 2)).
Example hypotheses_example :
  (exists l r, regulates [0; 1; 2; 3] (fun _ => true) ex_regs l r) /\ NoDup [0; 1; 2; 3] /\ (eps < Qabs ex_required)%Q /\
  (forall l r, regulates [0; 1; 2; 3] (fun _ => true) ex_regs l r -> contains_zero r) /\
  allowed eps true (regulated [0; 1; 2; 3] (fun _ => true) ex_regs) ex_regs ex_required.
Proof.
  refine (conj _ (conj _ (conj _ (conj _ _)))).
  - exists 0, (reg (Some (- 3)%Q) (Some 3%Q)). repeat split. now left.
  - repeat constructor; cbn; intuition discriminate.
  - vm_compute. reflexivity.
  - intros l r (H & _ & E & _). destruct l as [|[|[|[|l]]]]; cbn in E; inversion E; subst; split; intros m Em; inversion Em; subst; vm_compute; discriminate.
  - left. exists 2, (reg None None). split; [cbn; tauto|split; reflexivity].
Qed.
(** A limit of the bus: two regulators with at most 1 and 2 supply both limits. *)
Example clamped_example :
  enforce_q_limits 1 eps [0; 1] (fun _ => true) (two_regs (reg None (Some 1%Q)) (reg (Some (- 2)%Q) (Some 2%Q))) no_q (flat (- 5)) = upper /\
  map (reported_q (calculate_voltage_regulator_result 1 eps [0; 1] (fun _ => true) (two_regs (reg None (Some 1%Q)) (reg (Some (- 2)%Q) (Some 2%Q))) no_q (flat 5) upper)) [0; 1] = [1; 2]%Q.
Proof. vm_compute. split; reflexivity. Qed.

(** ** Refuted *)
(** The limits are not respected when nothing is required: both regulators report 0, although one has to supply 1 at least. *)
Theorem C50_nothing_required_refuted : exists load_gens status regulator_of s inj s' lims l r,
  calculate_voltage_regulator_result 1 eps load_gens status regulator_of s inj none = Reported s' lims /\
  enforce_q_limits 1 eps load_gens status regulator_of s (fun p => qsum (map (fun l => pw_q (s l) p) load_gens) - inj p)%Q = none /\
  regulates load_gens status regulator_of l r /\ ~ within eps r (all_phases 1 (pw_q (s' l))).
Proof.
  exists [0; 1], (fun _ => true), (two_regs (reg (Some 1%Q) (Some 2%Q)) (reg (Some (- 3)%Q) (Some 3%Q))), no_q, (flat 0). eexists. eexists. exists 0, (reg (Some 1%Q) (Some 2%Q)).
  refine (conj eq_refl (conj _ (conj _ _))); [vm_compute; reflexivity|repeat split; now left|]. intros [_ W]. specialize (W 1%Q eq_refl). vm_compute in W. apply W. reflexivity.
Qed.
(** The calculation fails although the limits allow what is required: 2 = -1 + 3. *)
Theorem C50_error_refuted : exists load_gens status regulator_of s inj q,
  calculate_voltage_regulator_result 1 eps load_gens status regulator_of s inj none = CalculationError /\
  enforce_q_limits 1 eps load_gens status regulator_of s (fun p => qsum (map (fun l => pw_q (s l) p) load_gens) - inj p)%Q = none /\
  (forall l r, regulates load_gens status regulator_of l r -> within 0 r (q l)) /\ (qsum (map q load_gens) == inj 0%nat)%Q.
Proof.
  exists [0; 1], (fun _ => true), (two_regs (reg (Some (- 2)%Q) (Some (- 1)%Q)) (reg None None)), no_q, (flat 2), (fun l => match l with 0 => (- 1)%Q | _ => 3%Q end).
  refine (conj _ (conj _ (conj _ _))); [vm_compute; reflexivity|vm_compute; reflexivity| |vm_compute; reflexivity].
  intros l r (H & _ & E & _). destruct l as [|[|l]]; cbn in E; inversion E; subst; split; intros m Em; inversion Em; subst; vm_compute; discriminate.
Qed.
(** What is reported does not balance although the limits allow what is required: 7/2 = 1/2 + 3, but 1 and 3 are reported. *)
Theorem C50_balance_refuted : exists load_gens status regulator_of s inj s' lims q,
  calculate_voltage_regulator_result 1 eps load_gens status regulator_of s inj none = Reported s' lims /\
  enforce_q_limits 1 eps load_gens status regulator_of s (fun p => qsum (map (fun l => pw_q (s l) p) load_gens) - inj p)%Q = none /\
  (forall l r, regulates load_gens status regulator_of l r -> within 0 r (q l)) /\ (qsum (map q load_gens) == inj 0%nat)%Q /\
  (eps < Qabs (inj 0%nat - qsum (map (fun l => pw_q (s' l) 0%nat) load_gens)))%Q.
Proof.
  exists [0; 1], (fun _ => true), (two_regs (reg (Some 0%Q) (Some 1%Q)) (reg (Some 3%Q) (Some 5%Q))), no_q, (flat (7 # 2)). eexists. eexists. exists (fun l => match l with 0 => (1 # 2)%Q | _ => 3%Q end).
  refine (conj eq_refl (conj _ (conj _ (conj _ _)))); [vm_compute; reflexivity| |vm_compute; reflexivity|vm_compute; reflexivity].
  intros l r (H & _ & E & _). destruct l as [|[|l]]; cbn in E; inversion E; subst; split; intros m Em; inversion Em; subst; vm_compute; discriminate.
Qed.

Print Assumptions C50_terminates.
Print Assumptions C50_unchanged.
Print Assumptions C50_division.
Print Assumptions C50_limits_partial.
Print Assumptions C50_even.
Print Assumptions C50_clamped.
Print Assumptions C50_bus_limit.
Print Assumptions C50_nothing_required_refuted.
Print Assumptions C50_error_refuted.
Print Assumptions C50_balance_refuted.
