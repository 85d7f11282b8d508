(** Properties C08, C09 and C10: batches. *)
From Verif Require Import Common Container ContainerSpec ContainerFacts ContainerProps Component ComponentSpec ComponentFacts
  MainModel UpdateFacts UpdateData UpdateSpec UpdateDataFacts UpdateProps CacheSpec CacheFacts Copy CopyFacts CacheProps
  JobDispatch JobSpec JobFacts Batch BatchSpec BatchFacts.
From Coq Require Import String Permutation.

(** ** C08 *)

(** Whatever the adapter does, for every batch size, threading option, hardware concurrency and interleaving of the
    workers: when the workers have been joined, each scenario of the batch has been started exactly once, and nothing
    else has. *)
Theorem C08_each_scenario_once : forall {A R} (j : job A R) what hardware n threading sched out out' failed log,
  0 < n -> dispatch j what hardware n threading sched out = Some (out', failed, log) ->
  Permutation (map snd log) (seq 0 n).
Proof.
  intros A R j what hw n th sched out out' failed log Hn H. unfold dispatch in H.
  pose proof (n_threads_pos hw n th Hn) as Hk. destruct (exec _ _ _ _ _ _) as [g|] eqn:E; [|discriminate].
  destruct (all_joined g) eqn:EJ; [|discriminate]. injection H as <- <- <-. eapply joined_log; eauto.
  eapply exec_LogInv; eauto. now apply start_LogInv.
Qed.

(** No access outside the batch: with results for [n] scenarios and an adapter without undefined behaviour on
    scenarios below [n], no interleaving leads to undefined behaviour. *)
Theorem C08_no_access_outside : forall {A R} (j : job A R) what hardware n threading sched out,
  0 < n -> List.length out = n ->
  (forall s a, s < n -> j_setup j s a <> None) -> (forall s a, s < n -> j_run j s a <> None) ->
  (forall a, j_winddown j a <> None) ->
  exec j what n (n_threads hardware n threading) sched (start_dispatch n (n_threads hardware n threading) out) <> None.
Proof.
  intros A R j what hw n th sched out Hn Ho H1 H2 H3. pose proof (n_threads_pos hw n th Hn) as Hk.
  apply exec_defined; auto; [now apply start_LogInv|now split|cbn; now rewrite repeat_length].
Qed.

(** The workers stop: with [n] scenarios each makes a bounded number of steps. *)
Theorem C08_workers_stop : forall {A R} (j : job A R) what hardware n threading out, 0 < n ->
  exists bound, forall sched g,
    (forall w, w < n_threads hardware n threading -> bound <= count_occ Nat.eq_dec sched w) ->
    exec j what n (n_threads hardware n threading) sched (start_dispatch n (n_threads hardware n threading) out) = Some g ->
    all_joined g = true.
Proof.
  intros A R j what hw n th out Hn. exists (7 * n + 8). intros sched g HF H. pose proof (n_threads_pos hw n th Hn) as Hk.
  exact (fair_joined j what n _ Hk sched out g H HF).
Qed.

(** At least one worker, and no worker without a scenario. *)
Theorem C08_worker_count : forall hardware n threading, 0 < n ->
  1 <= n_threads hardware n threading <= n.
Proof. intros. split; [now apply n_threads_pos|now apply n_threads_le]. Qed.

(** ** C09 and C10 for any adapter whose scenarios do not influence each other *)

Theorem C09_results_as_alone : forall {A R} (j : job A R) what hardware n threading sched out out' failed log,
  0 < n -> List.length out = n -> isolated j n ->
  dispatch j what hardware n threading sched out = Some (out', failed, log) -> out' = expected_results j n out.
Proof. intros. apply (dispatch_isolated j what hardware n threading sched out _ H H0 H1 H2). Qed.

Theorem C09_threading_irrelevant : forall {A R} (j : job A R) what n out hw1 th1 sched1 hw2 th2 sched2 r1 r2,
  0 < n -> List.length out = n -> isolated j n ->
  dispatch j what hw1 n th1 sched1 out = Some r1 -> dispatch j what hw2 n th2 sched2 out = Some r2 ->
  fst r1 = fst r2.
Proof.
  intros A R j what n out hw1 th1 sched1 hw2 th2 sched2 [[o1 f1] l1] [[o2 f2] l2] Hn Ho HI H1 H2.
  destruct (dispatch_isolated _ _ _ _ _ _ _ _ Hn Ho HI H1) as [A1 B1]. destruct (dispatch_isolated _ _ _ _ _ _ _ _ Hn Ho HI H2) as [A2 B2].
  cbn in *. congruence.
Qed.

Lemma flat_map_msgs {A R} (j : job A R) what n : (forall e, what e <> EmptyString) -> forall a,
  flat_map (fun s => if String.eqb (final_msg j what s) EmptyString then [] else [(s, final_msg j what s)]) (seq a n) =
  flat_map (fun s => match failure_alone j s with Some e => [(s, what e)] | None => [] end) (seq a n).
Proof.
  intros HW. induction n as [|n IH]; intros a; simpl; auto. rewrite IH. f_equal. unfold final_msg.
  destruct (failure_alone j a) as [e|]; auto. destruct (String.eqb_spec (what e) EmptyString) as [E|]; auto. now apply HW in E.
Qed.
Lemma failed_list {A R} (j : job A R) what n : (forall e, what e <> EmptyString) ->
  handle_batch_exceptions (map (final_msg j what) (seq 0 n)) =
  match expected_failures j what n with [] => None | l => Some l end.
Proof.
  intros HW. unfold handle_batch_exceptions, failures. rewrite map_length, seq_length, failures_spec.
  rewrite flat_map_msgs by auto. reflexivity.
Qed.

(** The report lists exactly the scenarios that fail, in ascending order, with their messages; there is no report if
    none fails. *)
Theorem C10_failures_reported : forall {A R} (j : job A R) what hardware n threading sched out out' failed log,
  0 < n -> List.length out = n -> isolated j n -> (forall e, what e <> EmptyString) ->
  dispatch j what hardware n threading sched out = Some (out', failed, log) ->
  failed = match expected_failures j what n with [] => None | l => Some l end.
Proof.
  intros A R j what hw n th sched out out' failed log Hn Ho HI HW H.
  destruct (dispatch_isolated _ _ _ _ _ _ _ _ Hn Ho HI H) as [_ B]. cbn in B. rewrite B. now apply failed_list.
Qed.
Lemma expected_failures_exact : forall {A R} (j : job A R) what n s m,
  In (s, m) (expected_failures j what n) <-> s < n /\ exists e, failure_alone j s = Some e /\ m = what e.
Proof.
  intros. unfold expected_failures. rewrite in_flat_map. split.
  - intros (s' & Hin & H). apply in_seq in Hin. destruct (failure_alone j s') eqn:E; [|destruct H].
    destruct H as [[= <- <-]|[]]. split; [lia|eauto].
  - intros (Hs & e & E & ->). exists s. rewrite in_seq, E. split; [lia|]. left. reflexivity.
Qed.

(** An exception whose text is empty would be taken for success. (No exception class of common/exception.hpp has an
    empty text, but user code may run under std::exception subclasses of other libraries.) *)
Theorem C10_empty_message_refuted :
  exists (j : job unit nat) what out' log,
    isolated j 1 /\ failure_alone j 0 = Some SparseMatrixError /\
    dispatch j what 1 1 1 (repeat 0 20) [7] = Some (out', None, log).
Proof.
  exists (mkJob tt (fun a => a) (fun _ a => Some (a, None)) (fun _ a => Some (a, Err SparseMatrixError)) (fun a => Some (a, None))),
    (fun _ => EmptyString). do 2 eexists. split; [|split; [reflexivity|vm_compute; reflexivity]].
  exists (fun _ => True). split; auto. intros s a Hs _. exists tt, None, (Some SparseMatrixError). destruct a. repeat split.
Qed.

(** ** C09 and C10 for models *)

Section Model.
Context {O : DOps} {T P Opt R : Type} (orc : oracles T P Opt R).
Notation comps := (forall t, list (comp t)).
Notation mm := (mm (T := T) (P := P)).
Variable ck : ctype -> Z -> cinput -> option exn.
Variable data : ctype -> list (Z * cinput).
Variable c : mcontainer.

Lemma public_no_undo ops : forall (st st' : mm), run orc st ops = Some st' -> Forall public_op ops ->
  (forall t, m_inv st t = []) -> forall t, m_inv st' t = [].
Proof.
  induction ops as [|o ops IH]; intros st st' H HF HI t; simpl in H; [now injection H as <-|].
  destruct (step orc st o) as [s|] eqn:E; [|discriminate]. inversion HF as [|? ? Ho HF']; subst. refine (IH s st' H HF' _ t).
  clear t. destruct o as [cached us sq|sq|opts]; simpl in E, Ho; [|contradiction|].
  - subst cached. unfold update_components in E.
    assert (G : forall l (a : mm), (forall t, m_inv a t = []) -> forall t, m_inv (fst (for_types (fun t => update_component false t (us t) (sq t)) l a)) t = []).
    { induction l as [|t0 l IHl]; intros a Ha t; simpl; auto.
      assert (X : forall t, m_inv (fst (update_component false t0 (us t0) (sq t0) a)) t = []).
      { intros t'. unfold update_component. assert (Y : tset (F := fun t => list (comp_upd t)) (m_inv a) t0 (m_inv a t0 ++ []) t' = []).
        { unfold tset. destruct (ctype_eq_dec t0 t') as [<-|]; auto. now rewrite Ha. }
        destruct (vr_out _); exact Y. }
      destruct (update_component false t0 (us t0) (sq t0) a) as [b [| |]]; cbn [fst] in *; auto. }
    specialize (G all_ctypes st HI). destruct (for_types _ all_ctypes st) as [x [| |]]; cbn [fst] in G; try discriminate; injection E as <-; auto.
  - pose proof (calculate_data orc opts st) as (_ & D & _). destruct (calculate orc opts st) as [x [r|]]; [|discriminate].
    injection E as <-. cbn in D. intros t. rewrite D. auto.
Qed.

(** The batch calculation on a model with any history of permanent updates and calculations, for every threading option,
    hardware concurrency and interleaving. Scenario [s] ends as [f s] says: either its records are refused with this
    exception, or [f s] is the calculation on the base components with the records of scenario [s] applied, and the
    same as the calculation after a permanent update with the records of [s] alone. All results and the whole report are
    determined by this, and the components of the model are unchanged.
    Partial: the solver keeps no factorised matrix between calculations (C09_threading_refuted), the scenarios can be
    undone exactly (the conditions of C07) and the call gets past its first steps (C10_base_refused_refuted). *)
Theorem C09_batch_results_partial : forall c0 ops (st st' : mm) what cache_opts d n opts hardware threading sched out out' failed,
  create_model ck data = Ok c -> run orc (fresh_mm c0) ops = Some st -> Forall public_op ops ->
  no_data d = false -> 0 < n -> n_scenarios d n -> List.length out = n ->
  (forall t, List.length (m_comps st t) = List.length (data t)) ->
  exact_numbers -> undoable data d n (m_comps st) -> reads_values orc -> (forall e, what e <> EmptyString) ->
  (forall top g, uses_fact orc top g opts = false) ->
  batch_calculation orc what cache_opts c d n opts hardware threading sched out st = (st', Batch out' failed) ->
  m_comps st' = m_comps st /\
  exists f : nat -> res (list R), out' = results_of f out /\ failed = report_of what f n /\
    forall s, s < n ->
      (exists (a a' : adapter) e, prepare c d st' = Ok a /\ setup c d s (copy_adapter a) = (a', Throw e) /\ f s = Err e) \/
      (exists c', scenario_components data d s (m_comps st) c' /\ pure_calculation orc opts c' = f s /\
         forall st1, update_model c (only_scenario d s) st = (st1, Fine) -> snd (calculate orc opts st1) = Some (f s)).
Proof.
  intros c0 ops st st' what copts d n opts hw th sched out out' failed HC HRun HPub HND Hn HN Ho HL HE (U1 & U2 & U5 & U3 & U4) HRV HW HP HB.
  unfold batch_calculation in HB. rewrite HND in HB. destruct (Nat.eqb_spec n 0); [lia|].
  pose proof (run_Inv orc ops _ _ HRun (proj1 (fresh_ok orc c0))) as HI.
  pose proof (public_no_undo ops _ _ HRun HPub (fun _ => eq_refl)) as HU.
  destruct (calculate_Inv orc (copts opts) st HI) as (I1 & I2 & I3).
  destruct (calculate orc (copts opts) st) as [st2 [r|]]; [|discriminate]. cbn [fst] in *.
  destruct (match r with Ok _ => None | Err e => if ignored_at_first e then None else Some e end); [discriminate|].
  destruct (prepare c d st2) as [base|] eqn:EP; [|discriminate].
  destruct (prepare_prepared c d st2 base EP) as (Q1 & Q2 & Q3).
  destruct (dispatch _ _ _ _ _ _ _) as [[[o2 f2] l2]|] eqn:ED; [|discriminate]. injection HB as <- <- <-.
  split; [exact I2|].
  assert (HbI : Inv orc (m_comps (ad_model base)) (m_cache (ad_model base))) by now rewrite Q2.
  assert (HbC : forall t, m_comps (ad_model base) t = m_comps st t) by (intros t; now rewrite Q2, I2).
  assert (HbU : forall t, m_inv (ad_model base) t = []) by (intros t; rewrite Q2, I3; auto).
  pose proof (batch_isolated orc ck data c HC d n opts (m_comps st) HN HL HE U1 U2 U3 U4 HRV HP base Q1 HbI HbC HbU) as HIso.
  pose proof (alone_spec orc ck data c HC d n opts (m_comps st) HN HL HE U1 U2 U3 U4 HP base Q1 HbI HbC HbU) as HA.
  destruct (dispatch_isolated _ _ _ _ _ _ _ _ Hn Ho HIso ED) as [D1 D2]. cbn in D1, D2.
  set (jb := batch_job orc c d opts base) in *.
  set (f := fun s => match alone jb s with Some (_, Some e) => Err e | Some (Some v, None) => Ok v | _ => Err DatasetError end).
  assert (Hf : forall s, s < n -> (exists v, alone jb s = Some (Some v, None) /\ f s = Ok v) \/ (exists e, alone jb s = Some (None, Some e) /\ f s = Err e)).
  { intros s Hs. destruct (HA s Hs) as (a1 & o & _ & Hoo & E). unfold f. rewrite E. destruct o as [|e|]; [|eauto|congruence].
    destruct (pure_calculation _ _ _); eauto. }
  exists f. refine (conj _ (conj _ _)).
  - rewrite D1. unfold expected_results, results_of. rewrite Ho. apply map_ext_in. intros [s r0] Hin. apply in_combine_l in Hin as Hs. apply in_seq in Hs. cbn.
    unfold result_alone. destruct (Hf s ltac:(lia)) as [(v & -> & ->)|(e & -> & ->)]; reflexivity.
  - rewrite D2, failed_list by auto. unfold report_of, expected_failures.
    replace (flat_map (fun s => match failure_alone jb s with Some e => [(s, what e)] | None => [] end) (seq 0 n))
      with (flat_map (fun s => match f s with Ok _ => [] | Err e => [(s, what e)] end) (seq 0 n)); auto.
    rewrite !flat_map_concat_map. f_equal. apply map_ext_in. intros s Hs. apply in_seq in Hs. unfold failure_alone.
    destruct (Hf s ltac:(lia)) as [(v & -> & ->)|(e & -> & ->)]; reflexivity.
  - intros s Hs. destruct (HA s Hs) as (a1 & o & ES & Hoo & EA). destruct o as [|e|]; [|left|congruence].
    2:{ exists base, a1, e. split; [exact EP|]. split; auto. unfold f. now rewrite EA. }
    right. exists (m_comps (ad_model a1)).
    assert (Ef : f s = pure_calculation orc opts (m_comps (ad_model a1))).
    { unfold f. rewrite EA. now destruct (pure_calculation _ _ _). }
    assert (HPr : prepared c d (copy_adapter base)) by exact Q1.
    unfold setup in ES. destruct (get_all_sequences c d s (ad_props (copy_adapter base)) true) as [cur|] eqn:EC; [|discriminate].
    pose proof (view_located ck data c HC d n (copy_adapter base) s cur HN Hs HPr EC) as HV.
    destruct (update_components true (attributes d s) _ _) as [st1 o1] eqn:EU. injection ES as <- ->. cbn [ad_model] in *.
    refine (conj _ (conj (eq_sym Ef) _)).
    + split.
      * intros t. pose proof (update_spec true _ _ _ _ EU t) as HS. cbn in HS. rewrite Q2, I2 in HS.
        apply Nat.le_antisymm; apply Nat.nlt_ge; intros HX.
        -- destruct (nth_error (m_comps st1 t) (List.length (m_comps st t))) eqn:E1; [|apply nth_error_None in E1; lia].
           rewrite HS, (proj2 (nth_error_None _ _)) in E1 by lia. discriminate.
        -- destruct (nth_error (m_comps st t) (List.length (m_comps st1 t))) eqn:E1; [|apply nth_error_None in E1; lia].
           specialize (HS (List.length (m_comps st1 t))). rewrite E1, (proj2 (nth_error_None _ _)) in HS by lia. discriminate.
      * intros t i old Hold.
        destruct (located_updated ck data c HC true d s _ (ad_model (copy_adapter base)) st1 (fun t => or_intror (HV t))) with (t := t) (i := i) (old := old) as (new & X1 & _ & X2).
        -- intros t' x Hx. cbn in Hx. rewrite Q2, I2 in Hx. apply In_nth_error in Hx as [k Hk]. apply (U1 _ _ _ Hk).
        -- intros t' r' Hr'. exact (U5 s Hs t' r' Hr').
        -- exact EU.
        -- cbn. now rewrite Q2, I2.
        -- eauto.
    + intros st3 HUM. rewrite Ef. unfold update_model in HUM.
      destruct (get_all_sequences c (only_scenario d s) 0 _ false) as [sq|] eqn:ESQ; [|discriminate].
      assert (I3' : Inv orc (m_comps st3) (m_cache st3)).
      { refine (step_Inv orc st st3 (OpUpdate false (attributes (only_scenario d s) 0) sq) _ HI). simpl. now rewrite HUM. }
      rewrite (calculate_plain orc opts st3 I3' HP). f_equal. apply pure_ext; auto.
      intros t. apply nth_error_ext. intros i.
      rewrite (update_spec _ _ _ _ _ HUM t i), (update_spec _ _ _ _ _ EU t i).
      replace (m_comps (ad_model (copy_adapter base)) t) with (m_comps st t) by (cbn; now rewrite Q2, I2).
      destruct (nth_error (m_comps st t) i) as [x|]; auto. do 2 f_equal.
      assert (ES : scenario_of (only_scenario d s t) 0 = scenario_of (d t) s) by (unfold only_scenario; now destruct (d t)).
      assert (HLoc : scenario_of (only_scenario d s t) 0 = [] \/ located data t (map fst (scenario_of (only_scenario d s t) 0)) (sq t)).
      { refine (located_of_fine ck data c HC (only_scenario d s) sq st st3 _ ESQ HUM t). intros t' r' Hr' ->.
        unfold only_scenario in Hr'. destruct (d t'); discriminate. }
      rewrite ES in HLoc. unfold attributes. rewrite ES, (located_meant ck data c HC t _ _ i (HV t)).
      destruct HLoc as [HE0|HLoc]; [|now rewrite (located_meant ck data c HC t _ _ i HLoc)].
      rewrite HE0. cbn. unfold meant_for. cbn. now destruct i.
Qed.
End Model.

(** A base model without a solution for lack of data (singular matrix, not observable) does not refuse the batch: the
    missing data may be in the scenarios. *)
Theorem C09_base_may_lack_data : forall {O : DOps} {T P Opt R : Type} (orc : oracles T P Opt R) (c : mcontainer) what cache_opts d n opts
    hardware threading sched out (st st' : mm (T := T) (P := P)) e res,
  e = SparseMatrixError \/ e = NotObservableError -> no_data d = false -> 0 < n ->
  snd (calculate orc (cache_opts opts) st) = Some (Err e) ->
  (exists base, prepare c d (fst (calculate orc (cache_opts opts) st)) = Ok base) ->
  batch_calculation orc what cache_opts c d n opts hardware threading sched out st = (st', res) ->
  res = Undefined \/ exists out' failed, res = Batch out' failed.
Proof.
  intros O T P Opt R orc c what copts d n opts hw th sched out st st' e res He HND Hn HC (base & HB) H. unfold batch_calculation in H.
  rewrite HND in H. destruct (Nat.eqb_spec n 0); [lia|]. destruct (calculate orc (copts opts) st) as [st2 r]. cbn in HC, HB. subst r.
  replace (ignored_at_first e) with true in H by (destruct He; subst; reflexivity). rewrite HB in H. injection H as <- <-.
  destruct (dispatch _ _ _ _ _ _ _) as [[[o f] l]|]; eauto.
Qed.

(** ** Concrete batches *)

Local Existing Instance ZOps.

(** Scenario 0 opens the line, scenario 1 moves the tap of the transformer, scenario 2 has an unknown line. *)
Definition show_batch : upd_data (O := ZOps) := fun t =>
  match t return option (@records ZOps t) with
  | Line => Some [[(4, mkBranchUpd 0 na_IntS)]; []; [(99, mkBranchUpd 0 0)]]%Z
  | Transformer => Some [[]; [(5, mkTransformerUpd (mkBranchUpd na_IntS na_IntS) 5)]; []]%Z
  | _ => None
  end.
Definition tell (e : exn) : string := match e with IDNotFound _ => "id not found" | _ => "error" end.
Definition no_result : list (list (list (option pkey)) * list (list (option pkey))) := [].
(** the tap position of the matrix that was used, and the one of the components *)
Definition taps_used (r : list (list (list (option pkey)) * list (list (option pkey)))) :=
  map (fun my => (nth (ctype_idx Transformer) (fst my) [], nth (ctype_idx Transformer) (snd my) [])) r.
Definition show_run (fact : bool) (threading : Z) (sched : list nat) :=
  snd (batch_calculation show_orc tell (fun o => o) demo_container show_batch 3 fact 4 threading sched
         [no_result; no_result; no_result] (fresh_mm demo_comps)).
Definition one_after_the_other : list nat := repeat 0 60.
Definition in_turns : list nat := List.concat (repeat [0; 1; 2] 40).

(** A batch of the theorem above: results, and the failed scenario, whatever the threads. *)
Example C09_demo :
  match show_run false 1 one_after_the_other with
  | Batch [r0; r1; r2] (Some [(2, m)]) =>
      m = "id not found"%string /\ r2 = no_result /\
      taps_used r0 = [([Some (KTrafo true true 3)], [Some (KTrafo true true 3)])] /\
      taps_used r1 = [([Some (KTrafo true true 5)], [Some (KTrafo true true 5)])] /\
      map (fun my => nth (ctype_idx Line) (snd my) []) r0 = [[Some (KBranch false false)]]
  | _ => False
  end /\
  match show_run false 3 in_turns with
  | Batch [r0; r1; r2] (Some [(2, m)]) =>
      m = "id not found"%string /\ r2 = no_result /\
      taps_used r0 = [([Some (KTrafo true true 3)], [Some (KTrafo true true 3)])] /\
      taps_used r1 = [([Some (KTrafo true true 5)], [Some (KTrafo true true 5)])]
  | _ => False
  end.
Proof. vm_compute. repeat split. Qed.

Example C09_demo_hypotheses :
  no_data show_batch = false /\ n_scenarios show_batch 3 /\ undoable demo show_batch 3 demo_comps /\ reads_values show_orc /\
  (forall e, tell e <> EmptyString) /\ (forall t, List.length (demo_comps t) = List.length (demo t)).
Proof.
  refine (conj eq_refl (conj _ (conj _ (conj _ (conj _ _))))).
  - intros t r H. destruct t; cbn in H; try discriminate; injection H as <-; reflexivity.
  - assert (HB : forall s, s < 3 -> forall t i x, nth_error (demo_comps t) i = Some x ->
      (well_formed t x /\ exact_factors t x /\ shunt_defined t x) /\
      Forall (fun u => base_available t x u /\ regulator_status_given t u)
             (meant_for demo t (scenario_of (show_batch t) s) i)).
    { intros s Hs t i x Hx.
      destruct s as [|[|[|s]]]; [| | |lia]; destruct t; destruct i as [|[|[|i]]]; cbn in Hx; try discriminate Hx;
        try (destruct i; discriminate Hx); injection Hx as <-;
        (split; [split; [try exact I; cbn; try (unfold in_tap_range; cbn; lia)|
                 split; [try exact I; cbn [exact_factors]; try (apply unit_factors; reflexivity); try (split; apply unit_factors; reflexivity)|exact I]]|];
         cbn; repeat constructor; cbn;
         try (intros k v o Hk Ho; do 6 (destruct k as [|k]; [cbn in *; try discriminate; injection Ho as <-; cbn; auto; try (unfold na_IntS, na_IntID; split; discriminate)|]); destruct k; discriminate);
         try discriminate; auto). }
    refine (conj _ (conj _ (conj _ (conj _ _)))).
    + intros t i x H. exact (proj1 (HB 0 ltac:(lia) t i x H)).
    + intros s Hs t i x H. exact (proj2 (HB s Hs t i x H)).
    + intros s Hs t r H. destruct t; cbn; auto; cbn in H; destruct s as [|[|[|s]]]; cbn in H; tauto.
    + intros x H. destruct H.
    + intros s Hs i. destruct s as [|[|[|s]]]; cbn; destruct i; cbn; lia.
  - intros c c' H. split; [|split]; auto.
  - intros e. destruct e; discriminate.
  - intros t. destruct t; reflexivity.
Qed.

(** C09 is refuted for solvers that keep a factorised matrix (iterative current): scenario 1 is calculated with the
    tap position 3 of the base model if it runs on a worker of its own, with its own tap position 5 if it runs after
    scenario 0 on the same worker. The result depends on the threading option and is wrong in the first case. *)
Theorem C09_threading_refuted :
  match show_run true 3 in_turns, show_run true 1 one_after_the_other with
  | Batch [_; r1; _] _, Batch [_; r1'; _] _ =>
      taps_used r1 = [([Some (KTrafo true true 3)], [Some (KTrafo true true 5)])] /\
      taps_used r1' = [([Some (KTrafo true true 5)], [Some (KTrafo true true 5)])]
  | _, _ => False
  end.
Proof. vm_compute. repeat split. Qed.

(** C10 is refuted for failures of the base model: here the base model is refused (its tap position is 3) although
    every scenario is fine on its own (tap position 5); the whole call fails and no scenario is calculated. *)
Definition no_tap_3 : oracles unit pkey bool (list (list (option pkey)) * list (list (option pkey))) :=
  {| build_topo := fun _ => tt; group_of := fun _ _ _ => Some 0; n_math := fun _ => 1;
     calc_par := fun _ _ _ k => Some k;
     check_valid := fun c => match c Transformer with [x] => if (tap_pos (tr_tap x) =? 3)%Z then Some ConflictVoltageError else None | _ => None end;
     sym_of := fun _ _ => true;
     check_opts := fun _ _ => None; uses_fact := fun _ _ o => o; prefactor := fun _ _ _ _ => None;
     solve := fun _ _ _ m y _ _ => Ok (m, y) |}.
Definition tap_batch : upd_data (O := ZOps) := fun t =>
  match t return option (@records ZOps t) with
  | Transformer => Some [[(5, mkTransformerUpd (mkBranchUpd na_IntS na_IntS) 5)]]%Z
  | _ => None
  end.
Theorem C10_base_refused_refuted :
  match snd (batch_calculation no_tap_3 tell (fun o => o) demo_container tap_batch 1 false 4 1 one_after_the_other
               [no_result] (fresh_mm demo_comps)),
        update_model demo_container tap_batch (fresh_mm demo_comps) with
  | Refused e, (st1, Fine) =>
      e = ConflictVoltageError /\
      match snd (calculate no_tap_3 false st1) with Some (Ok _) => True | _ => False end
  | _, _ => False
  end.
Proof. vm_compute. repeat split. Qed.

(** C08 is refuted for batch datasets of several scenarios without any component: the call takes them for "no update
    data" and makes one calculation only, for scenario 0 (job_dispatch.hpp 40-43). *)
Theorem C08_empty_dataset_refuted :
  match snd (batch_calculation show_orc tell (fun o => o) demo_container (fun _ => None) 3 false 4 1 one_after_the_other
               [no_result; no_result; no_result] (fresh_mm demo_comps)) with
  | Single (Ok _) => True
  | _ => False
  end.
Proof. vm_compute. exact I. Qed.

Print Assumptions C08_each_scenario_once.
Print Assumptions C08_empty_dataset_refuted.
Print Assumptions C08_no_access_outside.
Print Assumptions C08_workers_stop.
Print Assumptions C08_worker_count.
Print Assumptions C09_results_as_alone.
Print Assumptions C09_threading_irrelevant.
Print Assumptions C09_batch_results_partial.
Print Assumptions C09_base_may_lack_data.
Print Assumptions C09_threading_refuted.
Print Assumptions C10_failures_reported.
Print Assumptions C10_empty_message_refuted.
Print Assumptions C10_base_refused_refuted.
