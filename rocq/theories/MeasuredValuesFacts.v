(** Proofs about the measurements of the state estimation. *)
From Coq Require Import QArith Qcanon.
From Verif Require Import Common NatMap Ext Statistics StatisticsSpec StatisticsFacts MeasuredValues MeasuredValuesSpec.
Local Open Scope nat_scope.

Section Facts.
Variable phases : nat.
Hypothesis PH : 0 < phases.
(** A measurement with finite values and positive finite variances. *)
Definition certain (d : decomposed) : Prop := forall im_ p, p < phases -> finite (value (part im_ d) p) /\ exists q, variance (part im_ d) p = Fin q /\ (0 < q)%Qc.
Lemma certain_sure d : certain d -> uncertain phases d = false.
Proof.
  intros C. unfold uncertain, any_inf. apply orb_false_iff. split; apply Bool.not_true_is_false; intros H; apply existsb_exists in H; destruct H as [p [Hp I]]; apply in_seq in Hp.
  - destruct (C false p ltac:(lia)) as [_ [q [E _]]]. cbn in E. rewrite E in I. discriminate.
  - destruct (C true p ltac:(lia)) as [_ [q [E _]]]. cbn in E. rewrite E in I. discriminate.
Qed.
Lemma usable_certain ds : (forall d, In d ds -> valid_dec phases d) -> usable_dec phases ds -> certain (combine_decomposed phases ds).
Proof.
  intros V U. destruct (valid_parts phases ds V) as [Vr Vi]. pose proof (decomposed_valid phases ds V) as [[Dr Dr'] [Di Di']]. rewrite decomposed_usable in * by assumption.
  destruct (combine_usable _ (independent_ok phases) _ Vr (fun p Hp => proj1 (U p Hp))) as [_ Cr]. destruct (combine_usable _ (independent_ok phases) _ Vi (fun p Hp => proj2 (U p Hp))) as [_ Ci].
  intros [|] p Hp; cbn [part re im]; (split; [auto|]).
  - destruct (Di' p Hp) as [E|E]; [cbn [im] in E; rewrite Ci in E by exact Hp; discriminate|]. destruct E as [q [E L]]. exists q. auto.
  - destruct (Dr' p Hp) as [E|E]; [cbn [re] in E; rewrite Cr in E by exact Hp; discriminate|]. destruct E as [q [E L]]. exists q. auto.
Qed.
Lemma unusable_uncertain ds : (forall d, In d ds -> valid_dec phases d) -> ~ usable_dec phases ds -> uncertain phases (combine_decomposed phases ds) = true.
Proof. intros V U. rewrite decomposed_unusable by assumption. unfold uncertain, any_inf. cbn [re im variance]. apply orb_true_iff. left. apply existsb_exists. exists 0. split; [apply in_seq; lia|reflexivity]. Qed.

(** ** One object *)
Definition known (on : bool) (ds ex : list decomposed) (k : Z) : Prop :=
  (on = false /\ k = disconnected) \/ (on = true /\ ~ usable_dec phases ds /\ k = unmeasured) \/ (on = true /\ usable_dec phases ds /\ (0 <= k)%Z /\ nth_error ex (Z.to_nat k) = Some (combine_decomposed phases ds)).
Lemma known_more on ds ex t k : known on ds ex k -> known on ds (ex ++ t) k.
Proof.
  intros [H|[H|[H1 [H2 [H3 H4]]]]]; [left; assumption|right; left; assumption|]. right. right. refine (conj H1 (conj H2 (conj H3 _))). rewrite nth_error_app1; [assumption|]. apply nth_error_Some. congruence.
Qed.
Lemma process_one_ok on ds result : (forall d, In d ds -> valid_dec phases d) -> exists t, snd (process_one phases on ds result) = result ++ t /\ known on ds (result ++ t) (fst (process_one phases on ds result)).
Proof.
  intros V. unfold process_one, known. cbv zeta. destruct on; cbn [negb]; [|exists []; rewrite app_nil_r; cbn; auto]. destruct (usable_dec_dec phases ds V) as [U|U].
  - destruct ds as [|d ds]; [exfalso; destruct (U 0 PH) as [[m [[] _]] _]|]. rewrite (certain_sure (combine_decomposed phases (d :: ds))) by now apply usable_certain. cbn [fst snd]. eexists. split; [reflexivity|]. right. right. refine (conj eq_refl (conj U (conj _ _))); [lia|].
    rewrite Nat2Z.id, nth_error_app2, Nat.sub_diag by lia. reflexivity.
  - exists []. rewrite app_nil_r.
    destruct ds as [|d ds]; [split; [reflexivity|]; right; left; auto|].
    rewrite (unusable_uncertain (d :: ds)) by assumption. split; [reflexivity|]; right; left; auto.
Qed.
Definition fine (ex : list decomposed) (k : Z) : Prop := k = disconnected \/ k = unmeasured \/ ((0 <= k)%Z /\ exists d, nth_error ex (Z.to_nat k) = Some d /\ certain d).
Lemma known_fine on ds ex k : (forall d, In d ds -> valid_dec phases d) -> known on ds ex k -> fine ex k.
Proof. intros V [[_ H]|[[_ [_ H]]|[_ [U [H1 H2]]]]]; [left; assumption|right; left; assumption|]. right. right. split; [assumption|]. eexists. split; [eassumption|]. now apply usable_certain. Qed.
(** what an object adds to the sums at its bus *)
Definition entry (ex : list decomposed) (k : Z) : decomposed := nth (Z.to_nat k) ex zero_dec.
Definition add_value (ex : list decomposed) (i : bool) (p : nat) (k : Z) : Qc := if (0 <=? k)%Z then number (value (part i (entry ex k)) p) else 0%Qc.
Definition add_variance (ex : list decomposed) (i : bool) (p : nat) (k : Z) : Qc := if (0 <=? k)%Z then number (variance (part i (entry ex k)) p) else 0%Qc.
Definition is_unmeasured (k : Z) : bool := (k =? unmeasured)%Z.
Definition count_unmeasured (ks : list Z) : nat := length (filter is_unmeasured ks).
Lemma add_all ex : forall ks acc, (forall k, In k ks -> fine ex k) ->
  let r := fold_left (add_appliance phases ex) ks acc in
  snd r = snd acc + count_unmeasured ks /\
  forall i p, p < phases -> (forall a, value (part i (fst acc)) p = Fin a -> value (part i (fst r)) p = Fin (a + qsum (map (add_value ex i p) ks))%Qc) /\
                            (forall a, variance (part i (fst acc)) p = Fin a -> variance (part i (fst r)) p = Fin (a + qsum (map (add_variance ex i p) ks))%Qc).
Proof.
  induction ks as [|k ks IH]; intros acc F; cbn [fold_left].
  - cbn. split; [lia|]. intros i p _. split; intros a ->; f_equal; ring.
  - specialize (IH (add_appliance phases ex acc k) (fun x Hx => F x (or_intror Hx))). cbv zeta in *. destruct IH as [I1 I2]. split.
    + rewrite I1. unfold count_unmeasured. cbn [filter]. unfold is_unmeasured at 2, add_appliance. destruct (F k (or_introl eq_refl)) as [->|[->|[H [d [Ed C]]]]].
      * cbn. lia. * cbn. lia.
      * replace (k =? unmeasured)%Z with false by (unfold unmeasured; lia). replace (k =? disconnected)%Z with false by (unfold disconnected; lia). rewrite (nth_error_nth _ _ _ Ed). rewrite certain_sure by assumption. reflexivity.
    + intros i p Hp. destruct (I2 i p Hp) as [J1 J2]. cbn [map]. rewrite !qsum_cons.
      assert (G : (forall a, value (part i (fst acc)) p = Fin a -> value (part i (fst (add_appliance phases ex acc k))) p = Fin (a + add_value ex i p k)%Qc) /\
                  (forall a, variance (part i (fst acc)) p = Fin a -> variance (part i (fst (add_appliance phases ex acc k))) p = Fin (a + add_variance ex i p k)%Qc)).
      { unfold add_appliance, add_value, add_variance. destruct (F k (or_introl eq_refl)) as [->|[->|[H [d [Ed C]]]]].
        - cbn. split; intros a ->; f_equal; ring.
        - cbn. split; intros a ->; f_equal; ring.
        - replace (k =? unmeasured)%Z with false by (unfold unmeasured; lia). replace (k =? disconnected)%Z with false by (unfold disconnected; lia). replace (0 <=? k)%Z with true by lia. unfold entry. rewrite !(nth_error_nth _ _ _ Ed). rewrite certain_sure by assumption.
          destruct (C i p Hp) as [[x Ex] [q [Eq _]]]. rewrite Ex, Eq. cbn [number fst]. destruct i; cbn [part re im value variance] in *; unfold plus; rewrite ?Ex, ?Eq; split; intros a ->; reflexivity. }
      destruct G as [G1 G2]. split; intros a Ea; [rewrite (J1 _ (G1 a Ea))|rewrite (J2 _ (G2 a Ea))]; f_equal; ring.
Qed.
Lemma entry_more ex t k : fine ex k -> (0 <=? k)%Z = true -> entry (ex ++ t) k = entry ex k.
Proof. intros [->|[->|[H [d [Ed _]]]]] L; try discriminate. unfold entry. apply app_nth1. apply nth_error_Some. congruence. Qed.
Lemma add_more ex t i p k : fine ex k -> add_value (ex ++ t) i p k = add_value ex i p k /\ add_variance (ex ++ t) i p k = add_variance ex i p k.
Proof. intros F. unfold add_value, add_variance. destruct (0 <=? k)%Z eqn:L; [|auto]. now rewrite (entry_more _ _ _ F L). Qed.

(** ** The objects at a bus *)
Lemma process_objects_ok sensors status data : (forall o d, In d (pick zero_dec data (sensors o)) -> valid_dec phases d) ->
  forall objects ex idx, NoDup objects -> (forall o, In o objects -> o < length idx) ->
  let r := process_objects phases objects sensors status data (ex, idx) in
  (exists t, fst r = ex ++ t) /\ length (snd r) = length idx /\ (forall o, In o objects -> known (status o) (pick zero_dec data (sensors o)) (fst r) (nth o (snd r) 0%Z)) /\ (forall o, ~ In o objects -> nth o (snd r) 0%Z = nth o idx 0%Z).
Proof.
  intros V. unfold process_objects. induction objects as [|x objects IH]; intros ex idx N L; cbn [fold_left fst snd].
  - refine (conj _ (conj eq_refl (conj _ _))); [exists []; now rewrite app_nil_r|intros ? []|auto].
  - inversion N as [|? ? Nx N']; subst. destruct (process_one_ok (status x) (pick zero_dec data (sensors x)) ex (V x)) as [t [E K]]. destruct (process_one phases (status x) (pick zero_dec data (sensors x)) ex) as [k result]. cbn [fst snd] in E, K. subst result.
    destruct (IH (ex ++ t) (upd x k idx) N') as [[t' E'] [L' [K' O']]]; [intros o Ho; rewrite upd_length; apply L; now right|]. cbv zeta in *. refine (conj _ (conj _ (conj _ _))).
    + exists (t ++ t'). rewrite E'. now rewrite app_assoc.
    + rewrite L'. apply upd_length.
    + intros o [<-|Ho]; [|now apply K']. rewrite (O' x Nx), nth_upd_eq by (apply L; now left). rewrite E'. now apply known_more.
    + intros o Ho. rewrite O' by (intros Q; apply Ho; now right). apply nth_upd_neq. intros ->. apply Ho. now left.
Qed.
End Facts.

Section Grid.
Variable phases : nat.
Variable cabs : ext -> ext -> ext.
Variable topo : topology.
Variable inp : input.
Hypothesis WF : well_formed phases topo inp.
Let PH := wf_phases _ _ _ WF.
Notation known := (known phases).
Notation fine := (fine phases).
Definition lg_idx (st : measured) (b : nat) : list Z := map (fun o => nth o (idx_load_gen st) 0%Z) (load_gens_at topo b).
Definition src_idx (st : measured) (b : nat) : list Z := map (fun o => nth o (idx_source st) 0%Z) (sources_at topo b).
Definition idx_at (st : measured) (b : nat) : list Z := lg_idx st b ++ src_idx st b.
(** the injection measurement of a bus *)
Definition injection_known (main : list decomposed) (k : Z) (n : nat) (app direct : decomposed) (usable : Prop) : Prop :=
  (0 < n /\ ~ usable /\ k = unmeasured) \/
  ((0 <= k)%Z /\ ((0 < n /\ usable /\ nth_error main (Z.to_nat k) = Some direct) \/
    (n = 0 /\ (~ usable \/ any_zero phases (variance (re app)) = true \/ any_zero phases (variance (im app)) = true) /\ nth_error main (Z.to_nat k) = Some app) \/
    (n = 0 /\ usable /\ any_zero phases (variance (re app)) = false /\ any_zero phases (variance (im app)) = false /\ nth_error main (Z.to_nat k) = Some (combine_decomposed phases [direct; app])))).
Record bus_done (st : measured) (b : nat) : Prop := {
  d_lg : forall o, In o (load_gens_at topo b) -> known (load_gen_status inp o) (load_gen_measurements topo inp o) (extra st) (nth o (idx_load_gen st) 0%Z);
  d_src : forall o, In o (sources_at topo b) -> known (source_status inp o) (source_measurements topo inp o) (extra st) (nth o (idx_source st) 0%Z);
  d_shunt : forall o, In o (shunts_at topo b) -> known (shunt_status inp o) (shunt_measurements topo inp o) (power_main st) (nth o (idx_shunt st) 0%Z);
  d_count : nth b (n_unmeasured st) 0 = count_unmeasured (idx_at st b);
  d_value : forall i p, p < phases -> value (part i (nth b (appliance_injection st) zero_dec)) p = Fin (qsum (map (add_value (extra st) i p) (idx_at st b)));
  d_variance : forall i p, p < phases -> variance (part i (nth b (appliance_injection st) zero_dec)) p = Fin (qsum (map (add_variance (extra st) i p) (idx_at st b)));
  d_injection : injection_known (power_main st) (nth b (idx_injection st) 0%Z) (nth b (n_unmeasured st) 0) (nth b (appliance_injection st) zero_dec)
                  (combine_decomposed phases (bus_measurements topo inp b)) (usable_dec phases (bus_measurements topo inp b))
}.
Record sized (st : measured) : Prop := {
  s_lg : length (idx_load_gen st) = n_load_gen topo; s_src : length (idx_source st) = n_source topo; s_shunt : length (idx_shunt st) = n_shunt topo;
  s_app : length (appliance_injection st) = n_bus topo; s_n : length (n_unmeasured st) = n_bus topo; s_inj : length (idx_injection st) = n_bus topo
}.
Lemma known_all st b : bus_done st b -> forall k, In k (idx_at st b) -> fine (extra st) k.
Proof.
  intros D k Hk. apply in_app_or in Hk. destruct Hk as [Hk|Hk]; apply in_map_iff in Hk; destruct Hk as [o [<- Ho]].
  - eapply known_fine; [|now apply (d_lg _ _ D)]. apply (wf_load_gen_data _ _ _ WF).
  - eapply known_fine; [|now apply (d_src _ _ D)]. apply (wf_source_data _ _ _ WF).
Qed.
Lemma injection_more main t k n app direct (u : Prop) : injection_known main k n app direct u -> injection_known (main ++ t) k n app direct u.
Proof.
  assert (M : forall j (x : decomposed), nth_error main j = Some x -> nth_error (main ++ t) j = Some x) by (intros j x H; rewrite nth_error_app1; [assumption|apply nth_error_Some; congruence]).
  intros [H|[H [[A [B C]]|[[A [B C]]|[A [B [C [D E]]]]]]]]; [left; assumption|right; split; [assumption|]..].
  - left. auto. - right. left. auto. - right. right. auto 10.
Qed.
(** One bus more; the others stay. *)
Lemma process_bus_ok st b : sized st -> b < n_bus topo -> sized (process_appliances phases topo inp st b) /\ bus_done (process_appliances phases topo inp st b) b /\
  (forall b', b' <> b -> bus_done st b' -> bus_done (process_appliances phases topo inp st b) b') /\
  voltage_main (process_appliances phases topo inp st b) = voltage_main st /\ idx_voltage (process_appliances phases topo inp st b) = idx_voltage st.
Proof.
  intros S Hb. unfold process_appliances.
  destruct (process_objects_ok phases PH (shunt_sensors topo) (shunt_status inp) (shunt_data inp) (wf_shunt_data _ _ _ WF) (shunts_at topo b) (power_main st) (idx_shunt st) (proj1 (wf_shunts _ _ _ WF b))) as [[ts Es] [Ls [Ks Os]]];
    [intros o Ho; rewrite (s_shunt _ S); now apply (wf_shunts _ _ _ WF b)|].
  destruct (process_objects phases (shunts_at topo b) (shunt_sensors topo) (shunt_status inp) (shunt_data inp) (power_main st, idx_shunt st)) as [main shunts]. cbn [fst snd] in Es, Ls, Ks, Os. subst main.
  destruct (process_objects_ok phases PH (load_gen_sensors topo) (load_gen_status inp) (load_gen_data inp) (wf_load_gen_data _ _ _ WF) (load_gens_at topo b) (extra st) (idx_load_gen st) (proj1 (wf_load_gens _ _ _ WF b))) as [[tl El] [Ll [Kl Ol]]];
    [intros o Ho; rewrite (s_lg _ S); now apply (wf_load_gens _ _ _ WF b)|].
  destruct (process_objects phases (load_gens_at topo b) (load_gen_sensors topo) (load_gen_status inp) (load_gen_data inp) (extra st, idx_load_gen st)) as [ex lgs]. cbn [fst snd] in El, Ll, Kl, Ol. subst ex.
  destruct (process_objects_ok phases PH (source_sensors topo) (source_status inp) (source_data inp) (wf_source_data _ _ _ WF) (sources_at topo b) (extra st ++ tl) (idx_source st) (proj1 (wf_sources _ _ _ WF b))) as [[tr Er] [Lr [Kr Or]]];
    [intros o Ho; rewrite (s_src _ S); now apply (wf_sources _ _ _ WF b)|].
  destruct (process_objects phases (sources_at topo b) (source_sensors topo) (source_status inp) (source_data inp) (extra st ++ tl, idx_source st)) as [ex srcs]. cbn [fst snd] in Er, Lr, Kr, Or. subst ex.
  set (ex := (extra st ++ tl) ++ tr) in *. unfold combine_appliances. cbn [extra idx_load_gen idx_source power_main voltage_main current_main appliance_injection idx_voltage idx_injection n_unmeasured idx_from idx_to idx_shunt idx_from_current idx_to_current].
  set (kl := map (fun o => nth o lgs 0%Z) (load_gens_at topo b)). set (kr := map (fun o => nth o srcs 0%Z) (sources_at topo b)).
  assert (Kl' : forall o, In o (load_gens_at topo b) -> known (load_gen_status inp o) (load_gen_measurements topo inp o) ex (nth o lgs 0%Z)) by (intros o Ho; apply known_more; now apply Kl).
  assert (Fl : forall k, In k kl -> fine ex k) by (intros k Hk; apply in_map_iff in Hk; destruct Hk as [o [<- Ho]]; eapply known_fine; [|now apply Kl']; apply (wf_load_gen_data _ _ _ WF)).
  assert (Fr : forall k, In k kr -> fine ex k) by (intros k Hk; apply in_map_iff in Hk; destruct Hk as [o [<- Ho]]; eapply known_fine; [|now apply Kr]; apply (wf_source_data _ _ _ WF)).
  pose proof (add_all phases PH ex (kl ++ kr) (zero_dec, 0)) as A. rewrite fold_left_app in A. specialize (A ltac:(intros k Hk; apply in_app_or in Hk; destruct Hk; auto)). cbv zeta in A.
  destruct (fold_left (add_appliance phases ex) kr (fold_left (add_appliance phases ex) kl (zero_dec, 0))) as [app n] eqn:Ef. cbn [fst snd] in A. destruct A as [An Av].
  set (direct := combine_decomposed phases (pick zero_dec (bus_data inp) (bus_sensors topo b))).
  assert (Ud : (usable_dec phases (bus_measurements topo inp b) /\ uncertain phases direct = false) \/ (~ usable_dec phases (bus_measurements topo inp b) /\ uncertain phases direct = true)).
  { pose proof (wf_bus_data _ _ _ WF b) as V. destruct (usable_dec_dec phases _ V) as [U|U]; [left|right]; (split; [assumption|]); [now apply certain_sure, usable_certain|now apply unusable_uncertain]. }
  match goal with |- context [let '(k, main) := ?c in _] => assert (J : exists k t, c = (k, (power_main st ++ ts) ++ t) /\ injection_known ((power_main st ++ ts) ++ t) k n app direct (usable_dec phases (bus_measurements topo inp b))) end.
  { assert (At : forall x, nth_error ((power_main st ++ ts) ++ [x]) (Z.to_nat (Z.of_nat (length (power_main st ++ ts)))) = Some x) by (intros; rewrite Nat2Z.id, nth_error_app2, Nat.sub_diag by lia; reflexivity).
    unfold injection_known. destruct (0 <? n) eqn:En.
    - destruct Ud as [[U ->]|[U ->]]; [|exists unmeasured, []; rewrite app_nil_r; split; [reflexivity|left; refine (conj _ (conj U eq_refl)); lia]]. eexists _, _. split; [reflexivity|]. right. split; [lia|]. left. rewrite At. refine (conj _ (conj U eq_refl)). lia.
    - destruct (uncertain phases direct || any_zero phases (variance (re app)) || any_zero phases (variance (im app))) eqn:Ez; eexists _, _; (split; [reflexivity|]); right; (split; [lia|]); right; [left|right]; rewrite At.
      + refine (conj _ (conj _ eq_refl)); [lia|]. destruct Ud as [[U Eu]|[U Eu]]; [|auto]. rewrite Eu in Ez. cbn in Ez. apply orb_true_iff in Ez. destruct Ez; auto.
      + apply orb_false_iff in Ez. destruct Ez as [Ez Z2]. apply orb_false_iff in Ez. destruct Ez as [Z0 Z1]. destruct Ud as [[U Eu]|[U Eu]]; [|congruence]. refine (conj _ (conj U (conj Z1 (conj Z2 eq_refl)))). lia. }
  destruct J as [k [t [-> J]]]. refine (conj _ (conj _ (conj _ (conj eq_refl eq_refl)))).
  - constructor; cbn; rewrite ?upd_length; try apply S; [rewrite Ll; apply S|rewrite Lr; apply S|rewrite Ls; apply S].
  - constructor; unfold idx_at, lg_idx, src_idx; cbn [extra idx_load_gen idx_source power_main appliance_injection idx_injection n_unmeasured idx_shunt].
    + exact Kl'.
    + exact Kr.
    + intros o Ho. apply known_more. now apply Ks.
    + rewrite nth_upd_eq by (rewrite (s_n _ S); assumption). exact An.
    + intros i p Hp. rewrite nth_upd_eq by (rewrite (s_app _ S); assumption). destruct (Av i p Hp) as [V1 _]. rewrite (V1 0%Qc) by (destruct i; reflexivity). f_equal. apply Qcplus_0_l.
    + intros i p Hp. rewrite nth_upd_eq by (rewrite (s_app _ S); assumption). destruct (Av i p Hp) as [_ V2]. rewrite (V2 0%Qc) by (destruct i; reflexivity). f_equal. apply Qcplus_0_l.
    + rewrite !nth_upd_eq by (rewrite ?(s_app _ S), ?(s_inj _ S), ?(s_n _ S); assumption). exact J.
  - intros b' Nb D.
    assert (El : forall o, In o (load_gens_at topo b') -> nth o lgs 0%Z = nth o (idx_load_gen st) 0%Z) by (intros o Ho; apply Ol; intros Q; apply Nb; eapply (wf_load_gen_bus _ _ _ WF); eassumption).
    assert (Er : forall o, In o (sources_at topo b') -> nth o srcs 0%Z = nth o (idx_source st) 0%Z) by (intros o Ho; apply Or; intros Q; apply Nb; eapply (wf_source_bus _ _ _ WF); eassumption).
    assert (Es : forall o, In o (shunts_at topo b') -> nth o shunts 0%Z = nth o (idx_shunt st) 0%Z) by (intros o Ho; apply Os; intros Q; apply Nb; eapply (wf_shunt_bus _ _ _ WF); eassumption).
    assert (Ei : map (fun o => nth o lgs 0%Z) (load_gens_at topo b') ++ map (fun o => nth o srcs 0%Z) (sources_at topo b') = idx_at st b') by (unfold idx_at, lg_idx, src_idx; f_equal; apply map_ext_in; auto).
    pose proof (known_all st b' D) as F.
    constructor; unfold idx_at, lg_idx, src_idx; cbn [extra idx_load_gen idx_source power_main appliance_injection idx_injection n_unmeasured idx_shunt]; rewrite ?nth_upd_neq by congruence.
    + intros o Ho. rewrite El by assumption. unfold ex. rewrite <- app_assoc. apply known_more. now apply D.
    + intros o Ho. rewrite Er by assumption. unfold ex. rewrite <- app_assoc. apply known_more. now apply D.
    + intros o Ho. rewrite Es by assumption. rewrite <- app_assoc. apply known_more. now apply D.
    + rewrite Ei. apply D.
    + intros i p Hp. rewrite ?nth_upd_neq by congruence. rewrite Ei, (d_value _ _ D) by assumption. f_equal. apply qsum_ext. intros x Hx. symmetry. unfold ex. rewrite <- app_assoc. eapply add_more. now apply F.
    + intros i p Hp. rewrite ?nth_upd_neq by congruence. rewrite Ei, (d_variance _ _ D) by assumption. f_equal. apply qsum_ext. intros x Hx. symmetry. unfold ex. rewrite <- app_assoc. eapply add_more. now apply F.
    + rewrite <- app_assoc. apply injection_more. apply D.
Qed.
Lemma process_buses_ok : forall bs st, sized st -> NoDup bs -> (forall b, In b bs -> b < n_bus topo) ->
  let r := fold_left (process_appliances phases topo inp) bs st in
  sized r /\ (forall b, In b bs -> bus_done r b) /\ (forall b, ~ In b bs -> bus_done st b -> bus_done r b) /\ voltage_main r = voltage_main st /\ idx_voltage r = idx_voltage st.
Proof.
  induction bs as [|x bs IH]; intros st S N L; cbn [fold_left]; [refine (conj S (conj _ (conj _ (conj eq_refl eq_refl)))); [intros ? []|auto]|]. inversion N as [|? ? Nx N']; subst.
  destruct (process_bus_ok st x S (L x (or_introl eq_refl))) as [S1 [D1 [O1 [V1 I1]]]]. destruct (IH _ S1 N' (fun b Hb => L b (or_intror Hb))) as [S2 [D2 [O2 [V2 I2]]]]. cbv zeta in *.
  refine (conj S2 (conj _ (conj _ (conj (eq_trans V2 V1) (eq_trans I2 I1))))).
  - intros b [<-|Hb]; [|now apply D2]. now apply O2.
  - intros b Hb Db. apply O2; [intros Q; apply Hb; now right|]. apply O1; [intros ->; apply Hb; now left|assumption].
Qed.
Lemma voltage_sized st b : sized st -> sized (process_voltage phases cabs topo inp st b).
Proof. intros S. unfold process_voltage. destruct (isinf _); constructor; apply S. Qed.
Lemma voltages_sized bs : forall st, sized st -> sized (fold_left (process_voltage phases cabs topo inp) bs st).
Proof. induction bs as [|b bs IH]; intros st S; [assumption|]. cbn [fold_left]. apply IH. now apply voltage_sized. Qed.
Lemma empty_sized : sized (empty topo).
Proof. constructor; cbn; apply repeat_length. Qed.
Lemma buses_done : sized (process_buses phases cabs topo inp) /\ forall b, b < n_bus topo -> bus_done (process_buses phases cabs topo inp) b.
Proof.
  unfold process_buses. destruct (process_buses_ok (seq 0 (n_bus topo)) _ (voltages_sized (seq 0 (n_bus topo)) _ empty_sized) (seq_NoDup _ _)) as [S [D _]]; [intros b Hb; apply in_seq in Hb; lia|].
  split; [exact S|]. intros b Hb. apply D. apply in_seq. lia.
Qed.
(** the branches and the normalisation leave what the reported powers use *)
Record alike (st st' : measured) : Prop := {
  a_extra : extra st' = extra st; a_app : appliance_injection st' = appliance_injection st; a_n : n_unmeasured st' = n_unmeasured st; a_lg : idx_load_gen st' = idx_load_gen st; a_src : idx_source st' = idx_source st;
  a_shunt : idx_shunt st' = idx_shunt st; a_inj : idx_injection st' = idx_injection st; a_voltage : idx_voltage st' = idx_voltage st
}.
Lemma branches_alike : forall bs st st', fold_left (process_branch phases topo inp) bs (Some st) = Some st' -> alike st st' /\ (exists t, power_main st' = power_main st ++ t) /\ voltage_main st' = voltage_main st.
Proof.
  induction bs as [|b bs IH]; intros st st' E; cbn [fold_left] in E; [inversion E; subst; split; [constructor; reflexivity|]; split; [exists []; now rewrite app_nil_r|reflexivity]|].
  assert (NoneFold : forall l, fold_left (process_branch phases topo inp) l None = None) by (clear; induction l; auto).
  unfold process_branch at 2 in E.
  assert (P1 : forall on ds r, exists t, snd (process_one phases on ds r) = r ++ t).
  { intros on ds r. unfold process_one. destruct on; cbn [negb]; [|exists []; now rewrite app_nil_r]. destruct ds; [exists []; now rewrite app_nil_r|]. destruct (uncertain _ _); [exists []; now rewrite app_nil_r|eexists; reflexivity]. }
  destruct (P1 (branch_from topo b) (pick zero_dec (from_data inp) (from_sensors topo b)) (power_main st)) as [t1 E1]. destruct (process_one phases (branch_from topo b) _ _) as [kf main1]. cbn [snd] in E1. subst main1.
  destruct (P1 (branch_to topo b) (pick zero_dec (to_data inp) (to_sensors topo b)) (power_main st ++ t1)) as [t2 E2]. destruct (process_one phases (branch_to topo b) _ _) as [kt main2]. cbn [snd] in E2. subst main2.
  destruct (process_one_current phases (branch_from topo b) _ _) as [[cf cm]|]; [|rewrite NoneFold in E; discriminate]. destruct (process_one_current phases (branch_to topo b) _ _) as [[ct cm']|]; [|rewrite NoneFold in E; discriminate].
  apply IH in E. destruct E as [A [[t Et] V]]. split; [destruct A; constructor; assumption|]. split; [|exact V]. exists (t1 ++ t2 ++ t). rewrite Et. cbn [power_main]. now rewrite !app_assoc.
Qed.
Lemma construct_alike st : construct phases cabs topo inp = Some st -> alike (process_buses phases cabs topo inp) st /\ (exists t c, power_main st = map (scale_dec c) (power_main (process_buses phases cabs topo inp) ++ t)) .
Proof.
  unfold construct. destruct (fold_left (process_branch phases topo inp) (seq 0 (n_branch topo)) (Some (process_buses phases cabs topo inp))) as [st1|] eqn:E; [|discriminate]. intros [= <-]. apply branches_alike in E. destruct E as [A [[t Et] V]].
  split; [destruct A; constructor; assumption|]. exists t, (ediv (Fin 1%Qc) (min_variance phases st1)). cbn [normalize power_main]. now rewrite Et.
Qed.

(** ** The reported powers *)
Lemma fold_flows (f : list power -> nat -> list power) (g : nat -> power -> power) : (forall flow o, f flow o = upd o (g o (nth o flow no_power)) flow) ->
  forall os flow, NoDup os -> (forall o, In o os -> o < length flow) ->
  length (fold_left f os flow) = length flow /\ (forall o, In o os -> nth o (fold_left f os flow) no_power = g o (nth o flow no_power)) /\ (forall o, ~ In o os -> nth o (fold_left f os flow) no_power = nth o flow no_power).
Proof.
  intros Hf. induction os as [|x os IH]; intros flow N L; cbn [fold_left]; [refine (conj eq_refl (conj _ _)); [intros ? []|auto]|]. inversion N as [|? ? Nx N']; subst. rewrite Hf.
  destruct (IH (upd x (g x (nth x flow no_power)) flow) N') as [I1 [I2 I3]]; [intros o Ho; rewrite upd_length; apply L; now right|]. rewrite upd_length in I1. refine (conj I1 (conj _ _)).
  - intros o [<-|Ho]; [rewrite I3 by assumption; apply nth_upd_eq; apply L; now left|]. rewrite I2 by assumption. rewrite nth_upd_neq; [reflexivity|]. intros ->. contradiction.
  - intros o Ho. rewrite I3 by (intros Q; apply Ho; now right). apply nth_upd_neq. intros ->. apply Ho. now left.
Qed.
Lemma upd_self {A} (d : A) : forall l o, upd o (nth o l d) l = l.
Proof. induction l as [|x l IH]; intros [|o]; cbn; [reflexivity|reflexivity|reflexivity|]. now rewrite IH. Qed.
Definition non_over_of (ex : list decomposed) (r : power) (k : Z) (old : power) : power := if (0 <=? k)%Z then value_of (entry ex k) else if is_unmeasured k then r else old.
Definition over_of (ex : list decomposed) (mu : power) (k : Z) (old : power) : power := if (0 <=? k)%Z then adjusted mu (entry ex k) else old.
Lemma non_over_upd ex r idx flow o : non_over ex r idx flow o = upd o (non_over_of ex r (nth o idx 0%Z) (nth o flow no_power)) flow.
Proof. unfold non_over, non_over_of, is_unmeasured, entry. destruct (0 <=? _)%Z; [reflexivity|]. destruct (_ =? _)%Z; [reflexivity|]. symmetry. apply upd_self. Qed.
Lemma over_upd ex mu idx flow o : over ex mu idx flow o = upd o (over_of ex mu (nth o idx 0%Z) (nth o flow no_power)) flow.
Proof. unfold over, over_of, entry. destruct (0 <=? _)%Z; [reflexivity|]. symmetry. apply upd_self. Qed.
(** the power reported for an object with index [k] at bus [b] *)
Definition reported_of (st : measured) (s : power) (b : nat) (k : Z) : power :=
  let app := nth b (appliance_injection st) zero_dec in
  if 0 <? nth b (n_unmeasured st) 0 then non_over_of (extra st) (residual (nth b (n_unmeasured st) 0) app s) k no_power else over_of (extra st) (multiplier app s) k no_power.
Lemma at_bus_ok st s b flows : length (fst flows) = n_load_gen topo -> length (snd flows) = n_source topo ->
  (forall o, In o (load_gens_at topo b) -> nth o (fst flows) no_power = no_power) -> (forall o, In o (sources_at topo b) -> nth o (snd flows) no_power = no_power) ->
  let r := at_bus topo st s flows b in
  length (fst r) = n_load_gen topo /\ length (snd r) = n_source topo /\
  (forall o, In o (load_gens_at topo b) -> nth o (fst r) no_power = reported_of st (s b) b (nth o (idx_load_gen st) 0%Z)) /\ (forall o, In o (sources_at topo b) -> nth o (snd r) no_power = reported_of st (s b) b (nth o (idx_source st) 0%Z)) /\
  (forall o, ~ In o (load_gens_at topo b) -> nth o (fst r) no_power = nth o (fst flows) no_power) /\ (forall o, ~ In o (sources_at topo b) -> nth o (snd r) no_power = nth o (snd flows) no_power).
Proof.
  intros L1 L2 Z1 Z2. unfold at_bus, reported_of. destruct (wf_load_gens _ _ _ WF b) as [N1 B1]. destruct (wf_sources _ _ _ WF b) as [N2 B2]. rewrite <- L1 in B1. rewrite <- L2 in B2. destruct (0 <? nth b (n_unmeasured st) 0); cbv zeta; cbn [fst snd].
  - set (r := residual (nth b (n_unmeasured st) 0) (nth b (appliance_injection st) zero_dec) (s b)).
    destruct (fold_flows _ (fun o => non_over_of (extra st) r (nth o (idx_load_gen st) 0%Z)) (non_over_upd (extra st) r (idx_load_gen st)) (load_gens_at topo b) (fst flows) N1 B1) as [A1 [A2 A3]]. destruct (fold_flows _ (fun o => non_over_of (extra st) r (nth o (idx_source st) 0%Z)) (non_over_upd (extra st) r (idx_source st)) (sources_at topo b) (snd flows) N2 B2) as [C1 [C2 C3]].
    rewrite A1, C1. refine (conj L1 (conj L2 (conj _ (conj _ (conj A3 C3))))); intros o Ho; [rewrite A2, Z1 by assumption|rewrite C2, Z2 by assumption]; reflexivity.
  - set (mu := multiplier (nth b (appliance_injection st) zero_dec) (s b)).
    destruct (fold_flows _ (fun o => over_of (extra st) mu (nth o (idx_load_gen st) 0%Z)) (over_upd (extra st) mu (idx_load_gen st)) (load_gens_at topo b) (fst flows) N1 B1) as [A1 [A2 A3]]. destruct (fold_flows _ (fun o => over_of (extra st) mu (nth o (idx_source st) 0%Z)) (over_upd (extra st) mu (idx_source st)) (sources_at topo b) (snd flows) N2 B2) as [C1 [C2 C3]].
    rewrite A1, C1. refine (conj L1 (conj L2 (conj _ (conj _ (conj A3 C3))))); intros o Ho; [rewrite A2, Z1 by assumption|rewrite C2, Z2 by assumption]; reflexivity.
Qed.
Lemma flows_ok st s : forall bs flows, NoDup bs -> length (fst flows) = n_load_gen topo -> length (snd flows) = n_source topo ->
  (forall b o, In b bs -> In o (load_gens_at topo b) -> nth o (fst flows) no_power = no_power) -> (forall b o, In b bs -> In o (sources_at topo b) -> nth o (snd flows) no_power = no_power) ->
  let r := fold_left (at_bus topo st s) bs flows in
  (forall b o, In b bs -> In o (load_gens_at topo b) -> nth o (fst r) no_power = reported_of st (s b) b (nth o (idx_load_gen st) 0%Z)) /\
  (forall b o, In b bs -> In o (sources_at topo b) -> nth o (snd r) no_power = reported_of st (s b) b (nth o (idx_source st) 0%Z)) /\
  (forall o, (forall b, In b bs -> ~ In o (load_gens_at topo b)) -> nth o (fst r) no_power = nth o (fst flows) no_power) /\ (forall o, (forall b, In b bs -> ~ In o (sources_at topo b)) -> nth o (snd r) no_power = nth o (snd flows) no_power).
Proof.
  induction bs as [|x bs IH]; intros flows N L1 L2 Z1 Z2; cbn [fold_left]; [refine (conj _ (conj _ (conj _ _))); [intros ? ? []|intros ? ? []|auto|auto]|]. inversion N as [|? ? Nx N']; subst.
  destruct (at_bus_ok st s x flows L1 L2 (fun o => Z1 x o (or_introl eq_refl)) (fun o => Z2 x o (or_introl eq_refl))) as [K1 [K2 [R1 [R2 [O1 O2]]]]]. cbv zeta in *.
  assert (D1 : forall b o, In b bs -> In o (load_gens_at topo b) -> ~ In o (load_gens_at topo x)) by (intros b o Hb Ho Q; rewrite (wf_load_gen_bus _ _ _ WF b x o Ho Q) in Hb; contradiction).
  assert (D2 : forall b o, In b bs -> In o (sources_at topo b) -> ~ In o (sources_at topo x)) by (intros b o Hb Ho Q; rewrite (wf_source_bus _ _ _ WF b x o Ho Q) in Hb; contradiction).
  destruct (IH (at_bus topo st s flows x) N' K1 K2) as [I1 [I2 [I3 I4]]].
  - intros b o Hb Ho. rewrite O1 by (eapply D1; eassumption). eapply Z1; [right; exact Hb|assumption].
  - intros b o Hb Ho. rewrite O2 by (eapply D2; eassumption). eapply Z2; [right; exact Hb|assumption].
  - refine (conj _ (conj _ (conj _ _))).
    + intros b o [<-|Hb] Ho; [|now apply I1]. rewrite I3; [now apply R1|]. intros b Hb Q. eapply D1; eassumption.
    + intros b o [<-|Hb] Ho; [|now apply I2]. rewrite I4; [now apply R2|]. intros b Hb Q. eapply D2; eassumption.
    + intros o Ho. rewrite I3 by (intros b Hb; apply Ho; now right). apply O1. apply Ho. now left.
    + intros o Ho. rewrite I4 by (intros b Hb; apply Ho; now right). apply O2. apply Ho. now left.
Qed.
Lemma load_gen_source_ok st s b : b < n_bus topo ->
  (forall o, In o (load_gens_at topo b) -> nth o (fst (load_gen_source topo st s)) no_power = reported_of st (s b) b (nth o (idx_load_gen st) 0%Z)) /\
  (forall o, In o (sources_at topo b) -> nth o (snd (load_gen_source topo st s)) no_power = reported_of st (s b) b (nth o (idx_source st) 0%Z)).
Proof.
  intros Hb. unfold load_gen_source. assert (R : forall m o, nth o (repeat no_power m) no_power = no_power) by (intros; apply nth_repeat).
  destruct (flows_ok st s (seq 0 (n_bus topo)) (repeat no_power (n_load_gen topo), repeat no_power (n_source topo)) (seq_NoDup _ _) (repeat_length _ _) (repeat_length _ _) (fun _ o _ _ => R _ o) (fun _ o _ _ => R _ o)) as [I1 [I2 _]].
  split; intros o Ho; [apply I1|apply I2]; auto; apply in_seq; lia.
Qed.
End Grid.
