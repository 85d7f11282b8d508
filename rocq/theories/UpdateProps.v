(** Properties C06, C07 and C12: updates, undoing updates, and which component a record addresses. *)
From Verif Require Import Common Container ContainerSpec ContainerFacts ContainerProps Component ComponentSpec
  ComponentFacts MainModel UpdateFacts UpdateData UpdateSpec UpdateDataFacts.
From Coq Require Import SpecFloat.

(** ** Numbers for the concrete cases *)

(** Exact numbers with a NaN. *)
#[local] Instance ZOps : DOps := {
  D := option Z; dnan := None; done := Some 1%Z;
  isnan x := match x with None => true | _ => false end;
  dmul x y := match x, y with Some a, Some b => Some (a * b)%Z | _, _ => None end;
  deq x y := match x, y with Some a, Some b => Z.eqb a b | _, _ => false end }.
Lemma ZOps_exact : @exact_numbers ZOps.
Proof.
  constructor.
  - intros [x|]; [|reflexivity]. change (Some (1 * x)%Z = Some x). now rewrite Z.mul_1_l.
  - intros [x|] [y|]; cbn; intros H; try discriminate. apply Z.eqb_eq in H. congruence.
Qed.
(** IEEE 754 double precision numbers (the specification of the Coq standard library). *)
Definition FOps : DOps := {|
  D := spec_float; dnan := S754_nan; done := S754_finite false 4503599627370496 (-52);
  isnan x := match x with S754_nan => true | _ => false end;
  dmul := SFmul 53 1024; deq := SFeqb |}.

(** The grid [demo] of ContainerProps.v with an open line end, a transformer, and a disabled tap regulator. *)
Definition demo_comps : forall t, list (@comp ZOps t) := fun t =>
  match t return list (@comp ZOps t) with
  | Node => [tt; tt; tt]
  | Line => [mkBranch true false]
  | Transformer => [mkTransformer (mkBranch true true) (mkTap 3 (-5) 5)]
  | Source => [mkSource true (Some 1) (Some 0) (Some 100) (Some 2) (Some 3)]%Z
  | SymLoad => [@mkLoadGen ZOps (option Z) true (Some 7%Z) (Some 8%Z) (Some (-1)%Z) (Some (-1)%Z)]
  | SymPowerSensor =>
      let s := @mkPSensor ZOps (option Z) (Some 4%Z) (Some 5%Z) (Some 1%Z) None None (Some 1%Z) (Some 1%Z) (Some 1%Z) (Some 1%Z) in
      [s; s]
  | SymCurrentSensor => [@mkCSensor ZOps (option Z) (Some 4%Z) (Some 0%Z) (Some 1%Z) (Some 1%Z) (Some 1%Z) (Some 1%Z)]
  | TransformerTapRegulator => [@mkTapReg ZOps false (Some 10%Z) (Some 2%Z) (Some 0%Z) (Some 0%Z)]
  | _ => []
  end.
Definition demo_model : mm (O := ZOps) (T := unit) (P := unit) := fresh_mm demo_comps.

(** Updates with ids for the load (two records for the same load), without ids for both power sensors. *)
Definition demo_update : upd_data (O := ZOps) := fun t =>
  match t return option (@records ZOps t) with
  | Line => Some [[(4, mkBranchUpd na_IntS 1)]]%Z
  | Transformer => Some [[(5, mkTransformerUpd (mkBranchUpd na_IntS na_IntS) 100)]]%Z
  | SymLoad => Some [[(7, mkLoadGenUpd na_IntS (Some 20) None); (7, mkLoadGenUpd 0 (Some 21) None)]]%Z
  | SymPowerSensor =>
      Some [[(na_IntID, @mkPSensorUpd ZOps (option Z) (Some 1%Z) None None None None);
             (na_IntID, @mkPSensorUpd ZOps (option Z) None (Some 2%Z) None None None)]]
  | _ => None
  end.
Definition demo_container : mcontainer :=
  match create_model no_check demo with Ok c => c | Err _ => empty_container 0 end.

Example demo_update_runs :
  let st := fst (update_model demo_container demo_update demo_model) in
  snd (update_model demo_container demo_update demo_model) = Fine /\
  m_comps st Line = [mkBranch true true] /\
  m_comps st Transformer = [mkTransformer (mkBranch true true) (mkTap 5 (-5) 5)] /\
  map lg_p (m_comps st SymLoad) = [Some (-21)]%Z /\ map lg_q (m_comps st SymLoad) = [Some 8]%Z /\
  map lg_status (m_comps st SymLoad) = [false] /\
  map ps_p (m_comps st SymPowerSensor) = [Some 1; Some 4]%Z /\ map ps_q (m_comps st SymPowerSensor) = [Some 5; Some 2]%Z.
Proof. vm_compute. repeat split. Qed.

Section Props.
  Context {O : DOps}.
  Variable ck : ctype -> Z -> cinput -> option exn.
  Variable data : ctype -> list (Z * cinput).
  Variable c : mcontainer.
  Context {T P : Type}.
  Notation mm := (mm (T := T) (P := P)).
  Notation adapter := (adapter (T := T) (P := P)).

  (** A permanent update uses one scenario. *)
  Definition single_scenario (d : upd_data) : Prop := forall t r, d t = Some r -> length r = 1.

  (** ** C06 *)

  (** After a successful permanent update every component is what the records meant for it ask for, in order:
      per attribute the last given value (converted to the internal unit; a tap position is limited to the tap range),
      and the old value where none is given; other components are as before ([meant_for] is empty for them).
      Partial: records of regulators must state the status, see C06_regulator_status_refuted. *)
  Theorem C06_update_sets_given_attributes_partial : forall (d : upd_data) (st st' : mm),
    create_model ck data = Ok c -> single_scenario d ->
    (forall t x, In x (m_comps st t) -> well_formed t x) ->
    (forall t r, In r (scenario_of (d t) 0) -> regulator_status_given t (snd r)) ->
    update_model c d st = (st', Fine) ->
    forall t i old, nth_error (m_comps st t) i = Some old ->
      exists new, nth_error (m_comps st' t) i = Some new /\ well_formed t new /\
                  is_updated t old (meant_for data t (scenario_of (d t) 0) i) new.
  Proof.
    intros d st st' HC HS HW HG HU. unfold update_model in HU.
    destruct (get_all_sequences c d 0 (all_props c d) false) as [sq|e] eqn:E; [|discriminate].
    eapply located_updated; eauto. eapply located_of_fine; eauto.
    intros t r Hr ->. specialize (HS t _ Hr). discriminate.
  Qed.

  (** Components without a record keep every attribute. *)
  Theorem C06_unaddressed_untouched : forall (d : upd_data) (st st' : mm),
    create_model ck data = Ok c -> single_scenario d -> update_model c d st = (st', Fine) ->
    forall t i, meant_for data t (scenario_of (d t) 0) i = [] -> nth_error (m_comps st' t) i = nth_error (m_comps st t) i.
  Proof.
    intros d st st' HC HS HU t i HM. unfold update_model in HU.
    destruct (get_all_sequences c d 0 (all_props c d) false) as [sq|e] eqn:E; [|discriminate].
    rewrite (update_spec _ _ _ _ _ HU t i).
    assert (HL : scenario_of (d t) 0 = [] \/ located data t (map fst (scenario_of (d t) 0)) (sq t)).
    { eapply located_of_fine; eauto. intros t' r Hr ->. specialize (HS t' _ Hr). discriminate. }
    unfold attributes. destruct (nth_error (m_comps st t) i); auto. destruct HL as [->|HL]; auto.
    rewrite (located_meant ck data c HC t _ _ i HL), HM. reflexivity.
  Qed.

  (** If a record carries an id that no component of its type has, the update is refused and nothing has changed. *)
  Theorem C06_unknown_id_changes_nothing : forall (d : upd_data) (st : mm) t rs id,
    create_model ck data = Ok c -> d t = Some [rs] -> Forall (fun x => ~ no_id x) (map fst rs) ->
    In id (map fst rs) -> (forall n, ~ record_at data t n id) ->
    exists e, update_model c d st = (st, Throw e).
  Proof.
    intros d st t rs id HC HD HN HI HX. unfold update_model.
    enough (HE : exists e, sequence_for c d 0 (all_props c d) false t = Err e).
    { destruct HE as [e He]. destruct (all_sequences_fail _ _ _ _ _ _ _ He) as [e' ->]. eauto. }
    destruct (sequence_for c d 0 (all_props c d) false t) as [sq|e] eqn:E; eauto. exfalso.
    assert (HA : is_independent (all_props c d t) = true).
    { unfold all_props. rewrite HD. unfold check_component_independence. cbn [existsb].
      destruct rs as [|r rs]; [destruct HI|]. cbn [length Nat.eqb negb orb is_uniform forallb get_update_ids_match andb].
      unfold is_independent, provided_ids_valid. cbn [has_any negb ids_match ids_all_na ids_part_na orb andb].
      inversion HN as [|? ? N1 N2]; subst.
      assert (EX : get_any_ids_na [r :: rs] = false).
      { apply Bool.not_true_iff_false. intros HX'. unfold get_any_ids_na in HX'.
        apply existsb_exists in HX' as (l & [<-|[]] & HX'). apply existsb_exists in HX' as (y & Hy & Ey). apply Z.eqb_eq in Ey.
        rewrite Forall_forall in HN. exact (HN (fst y) (in_map fst (r :: rs) y Hy) Ey). }
      assert (EA : get_all_ids_na [r :: rs] = false).
      { unfold get_all_ids_na. cbn [forallb]. unfold id_na at 1. destruct (Z.eqb_spec (fst r) na_IntID); auto. contradiction. }
      rewrite EX, EA. now rewrite Bool.orb_true_r. }
    pose proof (sequence_located ck data c HC d t [rs] 0 false sq HD ltac:(simpl; lia) HA E) as HL.
    rewrite HD in HL. cbn in HL. apply located_usable in HL. destruct HL as [(F & _)|(_ & F)].
    - rewrite Forall_forall in F, HN. exact (HN id HI (F id HI)).
    - rewrite Forall_forall in F. destruct (F id HI) as [n Hn]. exact (HX n Hn).
  Qed.

  (** ** C12 *)

  (** In a batch, the positions used for scenario [s] are right for scenario [s], whether they were looked up for the
      first scenario only (independent component types) or for this scenario: the scenario is applied only if its ids
      can be used, and then every component is what the records meant for it ask for. *)
  Theorem C12_scenario_reaches_its_components_partial : forall (d : upd_data) n (st0 : mm) (a0 a a' : adapter) s,
    create_model ck data = Ok c -> n_scenarios d n -> s < n ->
    prepare c d st0 = Ok a0 -> ad_props a = ad_props a0 -> ad_all a = ad_all a0 ->
    setup c d s a = (a', Fine) ->
    (forall t, ids_usable data t (map fst (scenario_of (d t) s))) /\
    ((forall t x, In x (m_comps (ad_model a) t) -> well_formed t x) ->
     (forall t r, In r (scenario_of (d t) s) -> regulator_status_given t (snd r)) ->
     forall t i old, nth_error (m_comps (ad_model a) t) i = Some old ->
       exists new, nth_error (m_comps (ad_model a') t) i = Some new /\ well_formed t new /\
                   is_updated t old (meant_for data t (scenario_of (d t) s) i) new).
  Proof.
    intros d n st0 a0 a a' s HC HN Hs H0 HP1 HP2 H.
    destruct (prepare_prepared c d st0 a0 H0) as ((P1 & P2) & _).
    assert (HP : prepared c d a) by (split; congruence).
    unfold setup in H. destruct (get_all_sequences c d s (ad_props a) true) as [cur|e] eqn:E; [|discriminate].
    pose proof (view_located ck data c HC d n a s cur HN Hs HP E) as HL.
    split; [intros t; eapply located_usable; eauto|].
    cbn [ad_model] in H. destruct (update_components _ _ _ _) as [st o] eqn:E1. injection H as <- ->.
    intros HW HG. cbn [ad_model]. eapply located_updated; eauto.
  Qed.

  (** The two lookups agree: using the positions of the first scenario gives what a lookup of scenario [s] gives. *)
  Theorem C12_first_lookup_valid_for_all : forall (d : upd_data) n t s sq,
    create_model ck data = Ok c -> n_scenarios d n -> s < n -> d t <> None ->
    is_independent (all_props c d t) = true -> sequence_for c d 0 (all_props c d) false t = Ok sq ->
    (Forall (fun id => ~ no_id id) (map fst (scenario_of (d t) s)) /\
     get_indexer c t (map fst (scenario_of (d t) s)) = Ok sq) \/
    (Forall no_id (map fst (scenario_of (d t) s)) /\ length (scenario_of (d t) s) = length (data t) /\
     sq = seq 0 (length (data t))).
  Proof.
    intros d n t s sq HC HN Hs HD HI HS. destruct (d t) as [r|] eqn:ED; [|congruence]. rewrite <- ED in *.
    assert (HL : located data t (map fst (scenario_of (d t) s)) sq).
    { specialize (HN t r ED). eapply independent_all_scenarios; eauto; try lia.
      eapply sequence_located; eauto; try lia. }
    destruct HL as [(A & B & ->)|(A & B)].
    - right. rewrite map_length in *. rewrite B. auto.
    - left. split; auto. now apply (get_indexer_ok ck data c t _ _ HC).
  Qed.

  (** A scenario with ids that cannot be used (some given and some not, an id of no component of the type, or no ids
      and not one record per component) is refused, without touching the model. *)
  Theorem C12_unusable_ids_refused : forall (d : upd_data) n (st0 : mm) (a0 a : adapter) s t,
    create_model ck data = Ok c -> n_scenarios d n -> s < n ->
    prepare c d st0 = Ok a0 -> ad_props a = ad_props a0 -> ad_all a = ad_all a0 ->
    ~ ids_usable data t (map fst (scenario_of (d t) s)) ->
    exists e, setup c d s a = (a, Throw e).
  Proof.
    intros d n st0 a0 a s t HC HN Hs H0 HP1 HP2 HU. destruct (prepare_prepared c d st0 a0 H0) as ((P1 & P2) & _).
    eapply not_located_not_ok; eauto. split; congruence.
  Qed.

  (** No scenario makes the code write outside the component vectors. *)
  Theorem C12_scenario_no_out_of_range : forall (d : upd_data) n (st0 : mm) (a0 a a' : adapter) s o,
    create_model ck data = Ok c -> n_scenarios d n -> s < n ->
    prepare c d st0 = Ok a0 -> ad_props a = ad_props a0 -> ad_all a = ad_all a0 ->
    (forall t, length (m_comps (ad_model a) t) = length (data t)) ->
    setup c d s a = (a', o) -> o <> UB.
  Proof.
    intros d n st0 a0 a a' s o HC HN Hs H0 HP1 HP2 HH H. destruct (prepare_prepared c d st0 a0 H0) as ((P1 & P2) & _).
    eapply setup_no_UB; eauto. split; congruence.
  Qed.

  (** A permanent update is applied only with usable ids. *)
  Theorem C12_permanent_update_needs_usable_ids_partial : forall (d : upd_data) (st st' : mm),
    create_model ck data = Ok c -> single_scenario d -> update_model c d st = (st', Fine) ->
    forall t, d t <> None -> scenario_of (d t) 0 <> [] -> ids_usable data t (map fst (scenario_of (d t) 0)).
  Proof.
    intros d st st' HC HS HU t HD HE. unfold update_model in HU.
    destruct (get_all_sequences c d 0 (all_props c d) false) as [sq|e] eqn:E; [|discriminate].
    destruct (located_of_fine ck data c HC d sq st st') with (t := t) as [HL|HL]; auto.
    - intros t' r Hr ->. specialize (HS t' _ Hr). discriminate.
    - contradiction.
    - eapply located_usable; eauto.
  Qed.

  (** ** C07 *)

  (** A scenario is set up (successfully or not) and wound down: all components are as before, and the adapter
      is ready for the next scenario. Partial: exact numbers, attributes that the scenario changes have a value in the base model, and
      records of regulators state the status; see the refutations below. *)
  Theorem C07_scenario_undone_partial : forall (d : upd_data) n (st0 : mm) (a0 a a1 a2 : adapter) s o,
    create_model ck data = Ok c -> n_scenarios d n -> s < n ->
    prepare c d st0 = Ok a0 -> ad_props a = ad_props a0 -> ad_all a = ad_all a0 ->
    (forall t, length (m_comps (ad_model a) t) = length (data t)) -> (forall t, m_inv (ad_model a) t = []) ->
    exact_numbers ->
    (forall t i x, nth_error (m_comps (ad_model a) t) i = Some x ->
       well_formed t x /\ exact_factors t x /\ shunt_defined t x /\
       Forall (fun u => base_available t x u /\ regulator_status_given t u)
              (meant_for data t (scenario_of (d t) s) i)) ->
    setup c d s a = (a1, o) -> winddown a1 = (a2, Fine) ->
    (forall t, m_comps (ad_model a2) t = m_comps (ad_model a) t) /\
    (forall t, m_inv (ad_model a2) t = []) /\ ad_props a2 = ad_props a0 /\ ad_all a2 = ad_all a0.
  Proof.
    intros d n st0 a0 a a1 a2 s o HC HN Hs H0 HP1 HP2 HH HI Ex HB H1 H2.
    destruct (prepare_prepared c d st0 a0 H0) as ((P1 & P2) & _).
    assert (HP : prepared c d a) by (split; congruence).
    destruct (setup_winddown ck data c HC d n a s a1 o a2) as ((Q1 & Q2) & A & B & C'); auto.
    - intros t i x Hx. destruct (HB t i x Hx) as (X1 & X2 & X3 & _). auto.
    - intros t i x Hx. destruct (HB t i x Hx) as (_ & _ & _ & X4). auto.
    - repeat split; auto; congruence.
  Qed.

  (** Winding down succeeds when no fault has two records in the scenario. *)
  Theorem C07_winddown_succeeds_partial : forall (d : upd_data) n (st0 : mm) (a0 a a1 : adapter) s o,
    create_model ck data = Ok c -> n_scenarios d n -> s < n ->
    prepare c d st0 = Ok a0 -> ad_props a = ad_props a0 -> ad_all a = ad_all a0 ->
    (forall t, length (m_comps (ad_model a) t) = length (data t)) -> (forall t, m_inv (ad_model a) t = []) ->
    exact_numbers ->
    (forall t i x, nth_error (m_comps (ad_model a) t) i = Some x ->
       well_formed t x /\ exact_factors t x /\ shunt_defined t x /\
       Forall (fun u => base_available t x u /\ regulator_status_given t u)
              (meant_for data t (scenario_of (d t) s) i)) ->
    (forall x, In x (m_comps (ad_model a) Fault) -> fault_sane x) ->
    (forall i, length (meant_for data Fault (scenario_of (d Fault) s) i) <= 1) ->
    setup c d s a = (a1, o) -> exists a2, winddown a1 = (a2, Fine).
  Proof.
    intros d n st0 a0 a a1 s o HC HN Hs H0 HP1 HP2 HH HI Ex HB HF H1r H1.
    destruct (prepare_prepared c d st0 a0 H0) as ((P1 & P2) & _).
    eapply (setup_winddown_fine ck data c HC d n a s a1 o); eauto.
    - split; congruence.
    - intros t i x Hx. destruct (HB t i x Hx) as (X1 & X2 & X3 & _). auto.
    - intros t i x Hx. destruct (HB t i x Hx) as (_ & _ & _ & X4). auto.
  Qed.
End Props.

(** ** Concrete cases that meet the hypotheses *)

Definition demo_batch : upd_data (O := ZOps) := fun t =>
  match t return option (@records ZOps t) with
  | Line => Some [[(4, mkBranchUpd 0 1)]; []]%Z
  | Transformer => Some [[(na_IntID, mkTransformerUpd (mkBranchUpd na_IntS na_IntS) 100)];
                         [(na_IntID, mkTransformerUpd (mkBranchUpd na_IntS 0) na_IntS)]]%Z
  | SymLoad => Some [[(7, mkLoadGenUpd na_IntS (Some 20) None)]; [(7, mkLoadGenUpd 0 (Some 21) None)]]%Z
  | TransformerTapRegulator =>
      Some [[(11%Z, @mkTapRegUpd ZOps 1 (Some 12%Z) None None None)]; [(11%Z, @mkTapRegUpd ZOps 0 None None None None)]]
  | _ => None
  end.
Example demo_batch_flags :
  is_independent (all_props demo_container demo_batch Line) = false /\
  is_independent (all_props demo_container demo_batch Transformer) = true /\
  is_independent (all_props demo_container demo_batch SymLoad) = true.
Proof. vm_compute. auto. Qed.
Example demo_batch_scenario :
  match prepare demo_container demo_batch demo_model with
  | Ok a =>
      let a1 := fst (setup demo_container demo_batch 0 a) in
      snd (setup demo_container demo_batch 0 a) = Fine /\
      m_comps (ad_model a1) Line = [mkBranch false true] /\
      m_comps (ad_model a1) Transformer = [mkTransformer (mkBranch true true) (mkTap 5 (-5) 5)] /\
      snd (winddown a1) = Fine /\
      map lg_p (m_comps (ad_model (fst (winddown a1))) SymLoad) = [Some 7%Z] /\
      m_comps (ad_model (fst (winddown a1))) Line = demo_comps Line /\
      snd (setup demo_container demo_batch 1 (fst (winddown a1))) = Fine
  | Err _ => False
  end.
Proof. vm_compute. repeat split. Qed.
Lemma unit_factors k : (k * k = 1)%Z -> @inverse_factors ZOps (Some k) (Some k).
Proof.
  intros Hk [v|] H; [|discriminate]. split; [reflexivity|].
  split; [change (Some (k * (v * k))%Z = Some v)|change (Some (v * k * k)%Z = Some v)]; f_equal; transitivity (v * (k * k))%Z; try ring; rewrite Hk; ring.
Qed.
Example demo_batch_meets_C07 : forall s, s < 2 -> forall t i x, nth_error (m_comps demo_model t) i = Some x ->
  well_formed t x /\ exact_factors t x /\ shunt_defined t x /\
  Forall (fun u => base_available t x u /\ regulator_status_given t u)
         (meant_for demo t (scenario_of (demo_batch t) s) i).
Proof.
  intros s Hs t i x Hx.
  destruct s as [|[|s]]; [| |lia]; destruct t; destruct i as [|[|[|i]]]; cbn in Hx; try discriminate Hx;
    try (destruct i; discriminate Hx); injection Hx as <-;
    (split; [try exact I; cbn; try (unfold in_tap_range; cbn; lia)|];
     split; [try exact I; cbn [exact_factors]; try (apply unit_factors; reflexivity); try (split; apply unit_factors; reflexivity)|];
     split; [exact I|]; cbn; repeat constructor; cbn;
     try (intros k v o Hk Ho; do 6 (destruct k as [|k]; [cbn in *; try discriminate; injection Ho as <-; cbn; auto; try (unfold na_IntS, na_IntID; split; discriminate)|]); destruct k; discriminate);
     try discriminate; auto).
Qed.

(** ** Refutations *)

(** C06 does not hold for regulators: a record that gives only a new set point switches a disabled tap regulator on. *)
Definition regulator_update : upd_data (O := ZOps) := fun t =>
  match t return option (@records ZOps t) with
  | TransformerTapRegulator => Some [[(11%Z, @mkTapRegUpd ZOps na_IntS (Some 12%Z) None None None)]]
  | _ => None
  end.
Theorem C06_regulator_status_refuted :
  exists (d : upd_data (O := ZOps)) (st st' : mm (T := unit) (P := unit)) old new,
    single_scenario d /\ update_model demo_container d st = (st', Fine) /\
    (forall t x, In x (m_comps st t) -> well_formed t x) /\
    nth_error (m_comps st TransformerTapRegulator) 0 = Some old /\
    nth_error (m_comps st' TransformerTapRegulator) 0 = Some new /\
    rg_status old = false /\ rg_status new = true /\
    ~ is_updated TransformerTapRegulator old (meant_for demo TransformerTapRegulator (scenario_of (d TransformerTapRegulator) 0) 0) new.
Proof.
  exists regulator_update, demo_model, (fst (update_model demo_container regulator_update demo_model)).
  do 2 eexists. split; [intros t r; destruct t; cbn; intros H; try discriminate; injection H as <-; reflexivity|].
  split. { rewrite (surjective_pairing (update_model _ _ _)) at 1. f_equal. }
  split. { intros t x Hx. destruct t; try exact I; cbn in Hx; intuition subst. cbn [well_formed]; unfold in_tap_range; cbn; lia. }
  split; [vm_compute; reflexivity|]. split; [vm_compute; reflexivity|]. split; [reflexivity|]. split; [reflexivity|].
  intros (_ & _ & H). specialize (H 0 (AStatus false) (AStatus true) eq_refl eq_refl). cbn in H. discriminate.
Qed.

(** A batch of one scenario on a model with the given components: set up, wound down. *)
Definition scenario_round {O : DOps} (c : mcontainer) (d : upd_data) (comps : forall t, list (comp t))
  : option ((forall t, list (comp t)) * outcome * outcome) :=
  match prepare c d (fresh_mm comps : mm (T := unit) (P := unit)) with
  | Err _ => None
  | Ok a =>
      let '(a1, o1) := setup c d 0 a in
      let '(a2, o2) := winddown a1 in Some (m_comps (ad_model a2), o1, o2)
  end.

(** C07, regulators: the disabled regulator is still enabled after the scenario has been undone. *)
Theorem C07_regulator_status_refuted :
  match scenario_round demo_container regulator_update demo_comps with
  | Some (after_, Fine, Fine) =>
      map rg_status (demo_comps TransformerTapRegulator) = [false] /\
      map rg_status (after_ TransformerTapRegulator) = [true]
  | _ => False
  end.
Proof. vm_compute. auto. Qed.

(** C07, values that are not available in the base: a voltage sensor without angle keeps the angle of the scenario. *)
Definition sensor_grid (t : ctype) : list (Z * cinput) :=
  match t with Node => [(1, IBare)]%Z | SymVoltageSensor => [(2, IVoltageSensor 1)]%Z | _ => [] end.
Definition sensor_container : mcontainer :=
  match create_model no_check sensor_grid with Ok c => c | Err _ => empty_container 0 end.
Definition sensor_comps : forall t, list (@comp ZOps t) := fun t =>
  match t return list (@comp ZOps t) with
  | Node => [tt]
  | SymVoltageSensor => [@mkVSensor ZOps (option Z) (Some 10%Z) None (Some 1%Z) (Some 1%Z) (Some 1%Z)]
  | _ => []
  end.
Definition sensor_update : upd_data (O := ZOps) := fun t =>
  match t return option (@records ZOps t) with
  | SymVoltageSensor => Some [[(2%Z, @mkVSensorUpd ZOps (option Z) None (Some 3%Z) None)]]
  | _ => None
  end.
Theorem C07_missing_base_value_refuted :
  match scenario_round sensor_container sensor_update sensor_comps with
  | Some (after_, Fine, Fine) =>
      map vs_angle (sensor_comps SymVoltageSensor) = [None] /\ map vs_angle (after_ SymVoltageSensor) = [Some 3%Z]
  | _ => False
  end.
Proof. vm_compute. auto. Qed.

(** C07, double precision: a generator specified with 15 W has a different power after a scenario has been undone,
    because the inverse record is converted to W and back. *)
Definition dbl (z : Z) : spec_float := binary_normalize 53 1024 z 0 false.
Definition gen_grid (t : ctype) : list (Z * cinput) :=
  match t with Node => [(1, IBare)]%Z | SymGenerator => [(2, IAppliance 1)]%Z | _ => [] end.
Definition gen_container : mcontainer :=
  match create_model no_check gen_grid with Ok c => c | Err _ => empty_container 0 end.
(** The factors of load_gen.hpp 88 and 108 for a generator, with base_power_3p = 1e6 (common.hpp 93-96). *)
Definition per_mw : spec_float := SFdiv 53 1024 (dbl 1) (dbl 1000000).
Definition gen_comps : forall t, list (@comp FOps t) := fun t =>
  match t return list (@comp FOps t) with
  | Node => [tt]
  | SymGenerator =>
      [@mkLoadGen FOps spec_float true (SFmul 53 1024 per_mw (dbl 15)) (dbl 0) per_mw (SFmul 53 1024 (dbl 1) (dbl 1000000))]
  | _ => []
  end.
Definition gen_update : upd_data (O := FOps) := fun t =>
  match t return option (@records FOps t) with
  | SymGenerator => Some [[(2%Z, @mkLoadGenUpd spec_float na_IntS (dbl 20) S754_nan)]]
  | _ => None
  end.
Theorem C07_rounding_refuted :
  match scenario_round gen_container gen_update gen_comps with
  | Some (after_, Fine, Fine) =>
      map (@lg_p FOps spec_float) (after_ SymGenerator) <> map (@lg_p FOps spec_float) (gen_comps SymGenerator)
  | _ => False
  end.
Proof. vm_compute. discriminate. Qed.

(** C07, faults: three valid records for one fault cannot be undone, because the records are undone one by one and an
    intermediate state is rejected. *)
Definition fault_grid (t : ctype) : list (Z * cinput) :=
  match t with Node => [(1, IBare)]%Z | Fault => [(2, IFault 1)]%Z | _ => [] end.
Definition fault_container : mcontainer :=
  match create_model no_check fault_grid with Ok c => c | Err _ => empty_container 0 end.
Definition fault_comps : forall t, list (@comp ZOps t) := fun t =>
  match t return list (@comp ZOps t) with
  | Node => [tt]
  | Fault => [@mkFault ZOps true 0 0 1 (Some 0%Z) (Some 0%Z)]
  | _ => []
  end.
Definition fault_updates : upd_data (O := ZOps) := fun t =>
  match t return option (@records ZOps t) with
  | Fault => Some [[(2%Z, @mkFaultUpd ZOps na_IntS na_IntS (-1) na_IntID None None);
                    (2%Z, @mkFaultUpd ZOps na_IntS 1 na_IntS na_IntID None None);
                    (2%Z, @mkFaultUpd ZOps na_IntS na_IntS 2 na_IntID None None)]]
  | _ => None
  end.
Theorem C07_fault_records_refuted :
  match scenario_round fault_container fault_updates fault_comps with
  | Some (_, Fine, Throw InvalidShortCircuitPhases) => True
  | _ => False
  end.
Proof. vm_compute. exact I. Qed.

(** C12: in a permanent update, records without ids that are not one per component are not refused: the code reads past
    the end of the (empty) sequence. *)
Definition two_sensors_one_record : upd_data (O := ZOps) := fun t =>
  match t return option (@records ZOps t) with
  | SymPowerSensor => Some [[(na_IntID, @mkPSensorUpd ZOps (option Z) (Some 1%Z) None None None None)]]
  | _ => None
  end.
Definition some_ids_missing : upd_data (O := ZOps) := fun t =>
  match t return option (@records ZOps t) with
  | SymPowerSensor => Some [[(8%Z, @mkPSensorUpd ZOps (option Z) (Some 1%Z) None None None None);
                             (na_IntID, @mkPSensorUpd ZOps (option Z) (Some 1%Z) None None None None)]]
  | _ => None
  end.
Theorem C12_permanent_update_unchecked_refuted :
  snd (update_model demo_container two_sensors_one_record demo_model) = UB /\
  snd (update_model demo_container some_ids_missing demo_model) = UB /\
  (** whereas the same records as a batch scenario are refused *)
  match prepare demo_container two_sensors_one_record demo_model with
  | Ok a => snd (setup demo_container two_sensors_one_record 0 a) = Throw DatasetError
  | Err _ => False
  end.
Proof. vm_compute. auto. Qed.

Print Assumptions C06_update_sets_given_attributes_partial.
Print Assumptions C06_unaddressed_untouched.
Print Assumptions C06_unknown_id_changes_nothing.
Print Assumptions C06_regulator_status_refuted.
Print Assumptions C12_scenario_reaches_its_components_partial.
Print Assumptions C12_first_lookup_valid_for_all.
Print Assumptions C12_unusable_ids_refused.
Print Assumptions C12_scenario_no_out_of_range.
Print Assumptions C12_permanent_update_needs_usable_ids_partial.
Print Assumptions C12_permanent_update_unchecked_refuted.
Print Assumptions C07_scenario_undone_partial.
Print Assumptions C07_winddown_succeeds_partial.
Print Assumptions C07_regulator_status_refuted.
Print Assumptions C07_missing_base_value_refuted.
Print Assumptions C07_rounding_refuted.
Print Assumptions C07_fault_records_refuted.
