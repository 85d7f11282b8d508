(** Proofs about batch calculations: scenarios do not influence each other. *)
From Verif Require Import Common Container ContainerSpec ContainerFacts Component ComponentSpec ComponentFacts MainModel
  UpdateFacts UpdateData UpdateSpec UpdateDataFacts CacheSpec CacheFacts Copy CopyFacts JobDispatch JobSpec JobFacts Batch.
From Coq Require Import String.

Section Ext.
Context {O : DOps} {T P Opt R : Type} (orc : oracles T P Opt R).
Notation comps := (forall t, list (comp t)).
Notation mm := (mm (T := T) (P := P)).

(** The parts of the calculation that are left open see the components only through their values. *)
Definition same_comps (c c' : comps) : Prop := forall t, c t = c' t.
Definition reads_values : Prop :=
  forall c c', same_comps c c' ->
    check_valid orc c = check_valid orc c' /\
    (forall opts, sym_of orc opts c = sym_of orc opts c' /\ check_opts orc opts c = check_opts orc opts c') /\
    (forall sym top g m y opts, solve orc sym top g m y c opts = solve orc sym top g m y c' opts).

Lemma param_types_ext sym top (c c' : comps) ts : same_comps c c' -> param_types orc sym top c ts = param_types orc sym top c' ts.
Proof. intros H. induction ts as [|t ts IH]; simpl; auto. now rewrite H, IH. Qed.
Lemma solve_all_ext sym top y (c c' : comps) opts gs : reads_values -> same_comps c c' ->
  solve_all orc sym top y c opts gs = solve_all orc sym top y c' opts gs.
Proof.
  intros HR H. destruct (HR c c' H) as (_ & _ & HS). induction gs as [|g gs IH]; simpl; auto. rewrite IH, HS. reflexivity.
Qed.
Lemma pure_ext opts (c c' : comps) : reads_values -> same_comps c c' -> pure_calculation orc opts c = pure_calculation orc opts c'.
Proof.
  intros HR H. destruct (HR c c' H) as (HV & HO & _). destruct (HO opts) as [H1 H2]. unfold pure_calculation.
  rewrite H1, H2, HV. destruct (check_opts orc opts c'); auto.
  rewrite (connections_ext c' c) by (intros t; now rewrite (H t)).
  unfold get_math_param. rewrite (param_types_ext _ _ c c' _ H). destruct (param_types _ _ _ _ _); auto.
  destruct (check_valid orc c'); auto. now apply solve_all_ext.
Qed.

(** Models with the same component values and undo records. *)
Definition alike (a b : mm) : Prop := (forall t, m_comps a t = m_comps b t) /\ (forall t, m_inv a t = m_inv b t).
Lemma alike_refl a : alike a a. Proof. split; auto. Qed.
Lemma alike_sym a b : alike a b -> alike b a. Proof. intros [H1 H2]. split; auto. Qed.
Lemma alike_trans a b c : alike a b -> alike b c -> alike a c.
Proof. intros [H1 H2] [H3 H4]. split; intros t; [now rewrite H1|now rewrite H2]. Qed.

Lemma tset_ext {F : ctype -> Type} (f g : forall t, F t) t v t' : f t' = g t' -> tset f t v t' = tset g t v t'.
Proof. intros H. unfold tset. destruct (ctype_eq_dec t t'); auto. Qed.
Lemma update_component_alike cached t us sq (a b : mm) : alike a b ->
  alike (fst (update_component cached t us sq a)) (fst (update_component cached t us sq b)) /\
  snd (update_component cached t us sq a) = snd (update_component cached t us sq b).
Proof.
  intros H. pose proof H as (H1 & H2). unfold update_component. rewrite (H1 t), (H2 t).
  destruct (if cached then inverse_vec t (m_comps b t) us sq else Some []); [|auto].
  destruct (vr_out _); (split; [|reflexivity]); (split; intros t'; cbn [m_comps m_inv fst]; [apply (tset_ext (F := fun t => list (comp t)))|apply (tset_ext (F := fun t => list (comp_upd t)))]; auto).
Qed.
Lemma for_types_alike (f g : ctype -> mm -> mm * outcome) l :
  (forall t a b, alike a b -> alike (fst (f t a)) (fst (g t b)) /\ snd (f t a) = snd (g t b)) ->
  forall a b, alike a b -> alike (fst (for_types f l a)) (fst (for_types g l b)) /\ snd (for_types f l a) = snd (for_types g l b).
Proof.
  intros HF. induction l as [|t l IH]; intros a b H; simpl; auto.
  destruct (HF t a b H) as [A B]. destruct (f t a) as [a' oa], (g t b) as [b' ob]. cbn [fst snd] in *. subst ob.
  destruct oa; auto.
Qed.
Lemma update_components_alike cached us sq sq' (a b : mm) : (forall t, sq t = sq' t) -> alike a b ->
  alike (fst (update_components cached us sq a)) (fst (update_components cached us sq' b)) /\
  snd (update_components cached us sq a) = snd (update_components cached us sq' b).
Proof.
  intros HS H. unfold update_components. apply for_types_alike; auto. intros t x y Hxy. rewrite HS. now apply update_component_alike.
Qed.
Lemma restore_component_alike sq sq' t (a b : mm) : (forall t, sq t = sq' t) -> alike a b ->
  alike (fst (restore_component sq t a)) (fst (restore_component sq' t b)) /\
  snd (restore_component sq t a) = snd (restore_component sq' t b).
Proof.
  intros HS H. pose proof H as (H1 & H2). unfold restore_component. rewrite (H2 t), (HS t). destruct (m_inv b t) as [|u l]; auto.
  destruct (update_component_alike false t (u :: l) (sq' t) a b H) as [A B].
  destruct (update_component false t (u :: l) (sq' t) a) as [a' oa], (update_component false t (u :: l) (sq' t) b) as [b' ob].
  cbn [fst snd] in *. subst ob. destruct oa; auto. destruct A as (A1 & A2). split; auto. split; auto. intros t'. cbn [m_comps m_inv fst]. apply (tset_ext (F := fun t => list (comp_upd t))). auto.
Qed.
Lemma restore_components_alike sq sq' (a b : mm) : (forall t, sq t = sq' t) -> alike a b ->
  alike (fst (restore_components sq a)) (fst (restore_components sq' b)) /\
  snd (restore_components sq a) = snd (restore_components sq' b).
Proof.
  intros HS H. unfold restore_components.
  destruct (for_types_alike (restore_component sq) (restore_component sq') all_ctypes
    (fun t x y Hxy => restore_component_alike sq sq' t x y HS Hxy) a b H) as [A B].
  destruct (for_types _ _ a) as [a' oa], (for_types _ _ b) as [b' ob]. cbn [fst snd] in *. subst ob. destruct oa; auto.
Qed.
End Ext.

Section Facts.
Context {O : DOps} {T P Opt R : Type} (orc : oracles T P Opt R).
Notation comps := (forall t, list (comp t)).
Notation mm := (mm (T := T) (P := P)).
Notation adapter := (adapter (T := T) (P := P)).
Variable ck : ctype -> Z -> cinput -> option exn.
Variable data : ctype -> list (Z * cinput).
Variable c : mcontainer.
Hypothesis HC : create_model ck data = Ok c.
Variables (d : upd_data) (n : nat) (opts : Opt) (c0 : comps).
Hypothesis HN : n_scenarios d n.
Hypothesis Hlen : forall t, List.length (c0 t) = List.length (data t).
Hypothesis Hexact : exact_numbers.
Hypothesis Hbase : forall t i x, nth_error (c0 t) i = Some x -> well_formed t x /\ exact_factors t x /\ shunt_defined t x.
Hypothesis Hrec : forall s, s < n -> forall t i x, nth_error (c0 t) i = Some x ->
  Forall (fun u => base_available t x u /\ regulator_status_given t u) (meant_for data t (scenario_of (d t) s) i).
Hypothesis Hfault : forall x, In x (c0 Fault) -> fault_sane x.
Hypothesis Hfault1 : forall s, s < n -> forall i, List.length (meant_for data Fault (scenario_of (d Fault) s) i) <= 1.
Hypothesis HR : reads_values orc.
Hypothesis Hplain : forall top g, uses_fact orc top g opts = false.

Variable base : adapter.
Hypothesis Hprep : prepared c d base.
Hypothesis HbaseI : Inv orc (m_comps (ad_model base)) (m_cache (ad_model base)).
Hypothesis HbaseC : forall t, m_comps (ad_model base) t = c0 t.
Hypothesis HbaseU : forall t, m_inv (ad_model base) t = [].

Notation jb := (batch_job orc c d opts base).

Definition Good (a : adapter) : Prop :=
  ad_props a = ad_props base /\ ad_all a = ad_all base /\ Inv orc (m_comps (ad_model a)) (m_cache (ad_model a)) /\
  (forall t, m_comps (ad_model a) t = c0 t) /\ (forall t, m_inv (ad_model a) t = []).
Lemma good_copy : Good (copy_adapter base).
Proof. unfold Good, copy_adapter; cbn. auto. Qed.

(** The components during a scenario, or the exception of its setup. *)
Lemma scenario_steps s a : s < n -> Good a ->
  exists a1 o, setup c d s a = (a1, o) /\ o <> UB /\ Inv orc (m_comps (ad_model a1)) (m_cache (ad_model a1)) /\
    forall a1', ad_props a1' = ad_props a1 -> ad_all a1' = ad_all a1 -> ad_cur a1' = ad_cur a1 ->
      alike (ad_model a1') (ad_model a1) -> Inv orc (m_comps (ad_model a1')) (m_cache (ad_model a1')) ->
      exists a2, winddown a1' = (a2, Fine) /\ Good a2.
Proof.
  intros Hs (G1 & G2 & G3 & G4 & G5). destruct (setup c d s a) as [a1 o] eqn:E. exists a1, o. split; auto.
  assert (HP : prepared c d a) by (destruct Hprep as [Q1 Q2]; split; congruence).
  assert (HH : holds data (ad_model a)) by (intros t; now rewrite G4).
  assert (HB : base_ok (ad_model a)) by (intros t i x Hx; rewrite G4 in Hx; eauto).
  assert (HRO : adapter_records_ok data d s (ad_model a)) by (intros t i x Hx; rewrite G4 in Hx; eauto).
  pose proof (setup_no_UB ck data c HC d n a s a1 o HN Hs HP HH E) as HO. split; auto.
  assert (E1 : ad_props a1 = ad_props a /\ ad_all a1 = ad_all a /\ Inv orc (m_comps (ad_model a1)) (m_cache (ad_model a1))).
  { unfold setup in E. destruct (get_all_sequences c d s (ad_props a) true) as [cur|e]; [|now injection E as <- <-].
    destruct (update_components _ _ _ _) as [st1 o1] eqn:EU. injection E as <- <-. cbn. refine (conj eq_refl (conj eq_refl _)).
    refine (update_components_Inv _ _ _ _ _ _ _ EU _ _); auto. }
  destruct E1 as (E1 & E2 & E3). split; auto.
  intros a1' A1 A2 A3 A4 A5.
  destruct (setup_winddown_fine ck data c HC d n a s a1 o HN Hs HP HH Hexact G5 HB HRO) as [a2 W]; auto.
  { intros x Hx. rewrite G4 in Hx. auto. }
  destruct (setup_winddown ck data c HC d n a s a1 o a2 HN Hs HP HH Hexact G5 HB HRO E W) as (_ & X1 & X2 & _).
  assert (HV : forall t, view a1' t = view a1 t) by (intros t; unfold view; now rewrite A1, A2, A3).
  destruct (restore_components_alike (view a1') (view a1) (ad_model a1') (ad_model a1) HV A4) as [Y1 Y2].
  unfold winddown in W |- *. destruct (restore_components (view a1) (ad_model a1)) as [st2 o2].
  destruct (restore_components (view a1') (ad_model a1')) as [st2' o2'] eqn:EU. cbn [fst snd] in Y1, Y2. subst o2'.
  destruct o2; try discriminate. injection W as <-. eexists; split; [reflexivity|]. unfold Good; cbn in *.
  destruct Y1 as [Y1 Y3].
  refine (conj _ (conj _ (conj _ (conj _ _)))); try congruence.
  refine (step_Inv orc (ad_model a1') _ (OpRestore (view a1')) _ A5). simpl. now rewrite EU.
Qed.

Lemma one_scenario_good s a : s < n -> Good a ->
  exists a1 o a2, setup c d s a = (a1, o) /\ o <> UB /\ Good a2 /\
    one_scenario jb s a = Some (a2, match o with Fine => match pure_calculation orc opts (m_comps (ad_model a1)) with Ok r => Some r | Err _ => None end | _ => None end,
                                    match o with Fine => match pure_calculation orc opts (m_comps (ad_model a1)) with Ok _ => None | Err e => Some e end
                                               | Throw e => Some e | UB => None end).
Proof.
  intros Hs HG. destruct (scenario_steps s a Hs HG) as (a1 & o & E & HO & HI & HW). exists a1, o.
  enough (exists a2, Good a2 /\ one_scenario jb s a = Some (a2, match o with Fine => match pure_calculation orc opts (m_comps (ad_model a1)) with Ok r => Some r | Err _ => None end | _ => None end,
                                    match o with Fine => match pure_calculation orc opts (m_comps (ad_model a1)) with Ok _ => None | Err e => Some e end
                                               | Throw e => Some e | UB => None end)) as (a2 & X1 & X2) by (exists a2; auto).
  unfold one_scenario, batch_job. cbn [j_setup j_run j_winddown j_recover].
  rewrite E. destruct o as [|e|]; [| |congruence]; cbn [of_outcome].
  - unfold run_adapter. pose proof (calculate_plain orc opts (ad_model a1) HI Hplain) as HP.
    destruct (calculate_Inv orc opts (ad_model a1) HI) as (I1 & I2 & I3).
    destruct (calculate orc opts (ad_model a1)) as [st r]. cbn [fst snd] in *. subst r.
    destruct (HW (mkAdapter st (ad_props a1) (ad_all a1) (ad_cur a1))) as (a2 & W & G); cbn; auto.
    { split; intros t; congruence. }
    exists a2. split; [exact G|].
    destruct (pure_calculation orc opts (m_comps (ad_model a1))); rewrite W; reflexivity.
  - destruct (HW a1) as (a2 & W & G); auto using alike_refl. exists a2.
    split; [exact G|]. rewrite W. reflexivity.
Qed.

Lemma setup_alike s a b : Good a -> Good b ->
  alike (ad_model (fst (setup c d s a))) (ad_model (fst (setup c d s b))) /\ snd (setup c d s a) = snd (setup c d s b).
Proof.
  intros (A1 & A2 & _ & A4 & A5) (B1 & B2 & _ & B4 & B5).
  assert (HA : alike (ad_model a) (ad_model b)) by (split; intros t; congruence).
  unfold setup. rewrite A1, B1. destruct (get_all_sequences c d s (ad_props base) true) as [cur|e]; [|auto].
  cbn [ad_model].
  destruct (update_components_alike true (attributes d s) (view (mkAdapter (ad_model a) (ad_props base) (ad_all a) cur))
    (view (mkAdapter (ad_model b) (ad_props base) (ad_all b) cur)) (ad_model a) (ad_model b)) as [X Y]; auto.
  { intros t. unfold view; cbn. now rewrite A2, B2. }
  destruct (update_components true (attributes d s) _ (ad_model a)) as [x ox].
  destruct (update_components true (attributes d s) _ (ad_model b)) as [y oy]. cbn in *. auto.
Qed.

Lemma batch_isolated : isolated jb n.
Proof.
  exists Good. split; [apply good_copy|]. intros s a Hs HG.
  destruct (one_scenario_good s a Hs HG) as (a1 & o & a2 & E & HO & HG2 & H).
  destruct (one_scenario_good s (copy_adapter base) Hs good_copy) as (b1 & o' & b2 & E' & HO' & HG2' & H').
  destruct (setup_alike s a (copy_adapter base) HG good_copy) as [X Y]. rewrite E, E' in X, Y. cbn [fst snd] in X, Y. subst o'.
  rewrite (pure_ext orc opts _ (m_comps (ad_model a1)) HR) in H' by (intros t; symmetry; apply X).
  eexists a2, _, _. split; [exact H|]. split; auto. unfold alone. cbn [j_start batch_job]. unfold batch_job in *. cbn [j_start].
  now rewrite H'.
Qed.

(** What a scenario on its own gives. *)
Lemma alone_spec s : s < n ->
  exists a1 o, setup c d s (copy_adapter base) = (a1, o) /\ o <> UB /\
    alone jb s = Some (match o with Fine => match pure_calculation orc opts (m_comps (ad_model a1)) with Ok r => (Some r, None) | Err e => (None, Some e) end
                                  | Throw e => (None, Some e) | UB => (None, None) end).
Proof.
  intros Hs. destruct (one_scenario_good s (copy_adapter base) Hs good_copy) as (a1 & o & a2 & E & HO & _ & H).
  exists a1, o. split; auto. split; auto. unfold alone. unfold batch_job in *. cbn [j_start]. rewrite H.
  destruct o; auto. now destruct (pure_calculation _ _ _).
Qed.
End Facts.
