(** Facts about the preparation of solver input. *)
From Verif Require Import Common NatMap SparseOrdering GroupedIdx GroupedIdxFacts GroupedIdxProps Container ContainerSpec ContainerFacts ContainerProps Topology TopologySpec TopologyFacts TopologyProps
  Coupling CouplingSpec CouplingFacts CouplingProps Registration RegistrationSpec RegistrationFacts Output OutputSpec OutputFacts CalcInput CalcInputSpec.

Lemma foldM_app {A B} (f : B -> A -> option B) l1 l2 b : foldM_opt f (l1 ++ l2) b = bindO (foldM_opt f l1 b) (foldM_opt f l2).
Proof. revert b. induction l1 as [|a l1 IH]; intros b; simpl; auto. destruct (f b a); simpl; auto. Qed.
Lemma at2_set {A} (vs vs' : list (list A)) g p v : set_at vs g p v = Some vs' ->
  length vs' = length vs /\ (forall i, option_map (@length A) (nth_error vs' i) = option_map (@length A) (nth_error vs i)) /\
  forall i q, at2 vs' i q = if (i =? g) && (q =? p) then Some v else at2 vs i q.
Proof.
  unfold set_at. destruct (nth_error vs g) as [l|] eqn:E; [|discriminate]. simpl. destruct (p <? length l) eqn:Hp; [|discriminate]. intros [= <-]. apply Nat.ltb_lt in Hp.
  assert (Hg : g < length vs) by (apply nth_error_Some; congruence).
  split; [apply upd_length|]. split.
  - intros i. destruct (Nat.eq_dec i g) as [->|Hi]; [|now rewrite nth_error_upd_neq by auto]. rewrite nth_error_upd_eq by auto. rewrite E. simpl. now rewrite upd_length.
  - intros i q. unfold at2. destruct (Nat.eqb_spec i g) as [->|Hi]; [|rewrite nth_error_upd_neq by auto; reflexivity]. rewrite nth_error_upd_eq by auto. rewrite E.
    destruct (Nat.eqb_spec q p) as [->|Hq]; simpl; [now rewrite nth_error_upd_eq|now rewrite nth_error_upd_neq by auto].
Qed.
Lemma set_at_ok {A} (vs : list (list A)) g p v l : nth_error vs g = Some l -> p < length l -> exists vs', set_at vs g p v = Some vs'.
Proof. intros E H. unfold set_at. rewrite E. simpl. apply Nat.ltb_lt in H. rewrite H. eauto. Qed.

Lemma nth_firstn {A} (l : list A) m q : q < m -> nth_error (firstn m l) q = nth_error l q.
Proof. revert m q. induction l as [|x l IH]; intros [|m] [|q] H; simpl; auto; try lia. apply IH. lia. Qed.

Section Prepare.
Variable c : mcontainer.
Context {A : Type}.
Variable kind : gettable.
Variable n : nat.
Variable place : nat -> option (nat * nat).
Variable include : nat -> bool.
Variable pfun : centry -> option A.
Variable vs : list (list A).
Variable item : nat -> option centry.
Hypothesis Hitem : forall k g q, k < n -> include k = true -> place k = Some (g, q) ->
  get_item_by_seq (is_base kind) c k = item k /\ exists e v, item k = Some e /\ pfun e = Some v.
Hypothesis Hroom : forall k g q, k < n -> include k = true -> place k = Some (g, q) -> exists l, nth_error vs g = Some l /\ q < length l.
Hypothesis Honce : forall k k' a, k < n -> k' < n -> include k = true -> include k' = true -> place k = Some a -> place k' = Some a -> k = k'.
Definition writes (m g q : nat) (v : A) : Prop := exists k e, k < m /\ include k = true /\ place k = Some (g, q) /\ item k = Some e /\ pfun e = Some v.
Definition untouched (m g q : nat) : Prop := forall k, k < m -> include k = true -> place k <> Some (g, q).
Lemma prepare_prefix m : m <= n -> exists vs', prepare_input c kind m place include pfun vs = Some vs' /\ length vs' = length vs /\
  (forall i, option_map (@length A) (nth_error vs' i) = option_map (@length A) (nth_error vs i)) /\
  forall g q v, at2 vs' g q = Some v <-> writes m g q v \/ (untouched m g q /\ at2 vs g q = Some v).
Proof.
  unfold prepare_input. induction m as [|m IH]; intros Hm.
  - exists vs. split; auto. split; auto. split; auto. intros g q v. split; [intros H; right; split; auto; intros k Hk; lia|]. intros [(k & e & Hk & _)|[_ H]]; auto. lia.
  - destruct IH as (v1 & E1 & L1 & S1 & W1); [lia|]. rewrite seq_S, foldM_app, E1. cbn [bindO foldM_opt Nat.add].
    assert (Hskip : (include m = true -> place m = None) -> forall g q v, writes m g q v \/ (untouched m g q /\ at2 vs g q = Some v) <-> writes (S m) g q v \/ (untouched (S m) g q /\ at2 vs g q = Some v)).
    { intros Hno g q v. split.
      - intros [(k & e & Hk & H)|[H H']]; [left; exists k, e; split; [lia|exact H]|right; split; auto]. intros k Hk Hi Hp. assert (Hkm : k < m \/ k = m) by lia. destruct Hkm as [Hkm| ->]; [exact (H k Hkm Hi Hp)|]. rewrite Hno in Hp by auto. discriminate.
      - intros [(k & e & Hk & Hi & Hp & H)|[H H']].
        + assert (Hkm : k < m \/ k = m) by lia. destruct Hkm as [Hkm| ->]; [left; exists k, e; auto|]. rewrite Hno in Hp by auto. discriminate.
        + right. split; auto. intros k Hk. apply H. lia. }
    destruct (include m) eqn:Ei.
    2:{ exists v1. do 3 (split; auto). intros g q v. rewrite W1. apply Hskip. congruence. }
    destruct (place m) as [[g0 q0]|] eqn:Ep.
    2:{ exists v1. do 3 (split; auto). intros g q v. rewrite W1. apply Hskip. auto. }
    destruct (Hitem m g0 q0) as (Eg & e & v0 & Ee & Ev); auto. rewrite Eg, Ee. cbn [bindO]. rewrite Ev. cbn [bindO].
    destruct (Hroom m g0 q0) as (l & El & Hl); auto. specialize (S1 g0) as S1'. rewrite El in S1'. destruct (nth_error v1 g0) as [l1|] eqn:El1; [|discriminate]. simpl in S1'. injection S1' as S1'.
    destruct (set_at_ok v1 g0 q0 v0 l1 El1) as [v2 E2]; [lia|]. rewrite E2. destruct (at2_set _ _ _ _ _ E2) as (L2 & S2 & W2). exists v2. split; auto. split; [congruence|]. split; [intros i; now rewrite S2, S1|].
    intros g q v. rewrite W2. destruct ((g =? g0) && (q =? q0)) eqn:Egq.
    + apply andb_true_iff in Egq as [Egg Eqq]. apply Nat.eqb_eq in Egg, Eqq. subst g q. split.
      * intros [= <-]. left. exists m, e. repeat split; auto.
      * intros [(k & e' & Hk & Hi & Hp & He & Hv)|[H _]].
        -- assert (k = m) as -> by (eapply Honce; eauto; lia). congruence.
        -- exfalso. apply (H m); auto.
    + rewrite W1. assert (Hne : forall k, k = m -> place k <> Some (g, q)).
      { intros k ->. rewrite Ep. intros [= <- <-]. rewrite !Nat.eqb_refl in Egq. discriminate. }
      split.
      * intros [(k & e' & Hk & H)|[H H']]; [left; exists k, e'; split; [lia|exact H]|right; split; auto]. intros k Hk Hi Hp. assert (Hkm : k < m \/ k = m) by lia. destruct Hkm as [Hkm| Hkm]; [exact (H k Hkm Hi Hp)|exact (Hne k Hkm Hp)].
      * intros [(k & e' & Hk & Hi & Hp & H)|[H H']].
        -- assert (Hkm : k < m \/ k = m) by lia. destruct Hkm as [Hkm|Hkm]; [left; exists k, e'; auto|]. exfalso. exact (Hne k Hkm Hp).
        -- right. split; auto. intros k Hk. apply H. lia.
Qed.
End Prepare.

Lemma coupled_range_any sort criterion : sort_contract sort -> forall n_topo sp n_obj find include n cp0,
  (forall k g p, k < n -> include k = true -> find k = Some (g, p) -> g < n_topo /\ p < n_obj g) ->
  (forall k, cp0 k = None) ->
  let r := couple_objects sort criterion sp n_topo n_obj find include n cp0 in
  attached n_topo n (fun k => include k = true) find (fst r) (snd r) /\
  (forall k g p, snd r k = Some (g, p) -> g < n_topo /\ p < element_size (fst r g)) /\
  (forall k, ~ (k < n /\ include k = true) -> snd r k = None).
Proof.
  intros sort_ok n_topo sp n_obj find include n cp0 HF H0 r. destruct (couple_spec sort criterion sort_ok find include sp n_topo n_obj n cp0 HF (fun k _ _ => H0 k)) as [HA HB].
  fold r in HA, HB. split; auto. split; [|intros k Hk; now rewrite HB by auto]. intros k g p E.
  assert (Hk : k < n /\ include k = true).
  { destruct (Nat.lt_ge_cases k n) as [Hk|Hk]; [|rewrite HB in E by lia; congruence]. destruct (include k) eqn:Ei; [auto|].
    rewrite HB in E by (intros [_ ?]; congruence). congruence. }
  destruct Hk as [Hk Hi]. destruct (find k) as [[g' p']|] eqn:Ef; [|rewrite (att_off _ _ _ _ _ _ HA k Hk Hi Ef) in E; discriminate].
  destruct (HF k g' p' Hk Hi Ef) as [Hg _]. destruct (att_own _ _ _ _ _ _ HA k g' p' Hk Hi Ef) as (q & Eq & _). rewrite Eq in E. injection E as -> ->.
  split; auto. apply (att_dense _ _ _ _ _ _ HA g p Hg). eauto.
Qed.

Section State.
Variable ck : ctype -> Z -> cinput -> option exn.
Variable data : ctype -> list (Z * cinput).
Variable c : mcontainer.
Hypothesis Hc : create_model ck data = Ok c.
Hypothesis HL : layouts_ok data.
Context {P LT : Type} (at_ : attributes P LT) (padd : P -> P -> P) (p0 : P) (popp : P -> P).
Variable s : model_state (P := P) (LT := LT).
Hypothesis OK : state_ok data at_ padd p0 popp s.
Notation n_topo := (length (models (st_search s))).
Notation components := (components data).
Notation number_of := (number_of data).

Lemma resized_nth {A} (size : nat -> nat) (d : A) g : g < n_topo -> nth_error (resized s size d) g = Some (repeat d (size g)).
Proof. intros H. unfold resized. rewrite nth_error_map. destruct (nth_error (seq 0 n_topo) g) as [x|] eqn:E; [|apply nth_error_None in E; rewrite seq_length in E; lia]. apply nth_seq in E as [_ ->]. reflexivity. Qed.
Lemma resized_len {A} (size : nat -> nat) (d : A) : length (resized s size d) = n_topo.
Proof. unfold resized. now rewrite map_length, seq_length. Qed.
Lemma group_at_lt gr q p : group_at gr q = Some p -> q < element_size gr.
Proof.
  unfold group_at, element_size. destruct gr as [d|ip].
  - unfold dense_group, dense_element_size. intros H. apply nth_error_Some. congruence.
  - destruct (q <? sparse_element_size ip) eqn:E; [|discriminate]. intros _. now apply Nat.ltb_lt.
Qed.

(** the general case: components that are attached to places get their parameter there *)
Lemma given_ok {A} (kget kind : gettable) (n : nat) takes own gr cp include (pfun : centry -> option A) (param : centry -> A -> Prop) (T : centry -> Prop) belongs d :
  attached n_topo n takes own gr cp ->
  n = length (components kind) ->
  (forall k e, nth_error (components kind) k = Some e -> (takes k <-> T e)) ->
  (forall k, k < n -> takes k -> include k = true) ->
  (forall k, k < n -> include k = true -> cp k <> None -> takes k) ->
  (forall k g q, k < n -> include k = true -> cp k = Some (g, q) -> get_item_by_seq (is_base kget) c k = nth_error (components kind) k) ->
  (forall k e, nth_error (components kind) k = Some e -> takes k -> exists v, pfun e = Some v) ->
  (forall e v, In e (components kind) -> T e -> (pfun e = Some v <-> param e v)) ->
  (forall k e g p, nth_error (components kind) k = Some e -> takes k -> (own k = Some (g, p) <-> belongs e g p)) ->
  (forall k g p, k < n -> takes k -> own k = Some (g, p) -> g < n_topo) ->
  exists vs, prepare_input c kget n cp include pfun (resized s (fun g => element_size (gr g)) d) = Some vs /\ given data n_topo kind T belongs gr cp param vs.
Proof.
  intros HA Hn HT Hin1 Hin2 Hget Hpf Hpar Hown Hownr.
  assert (Hcomp : forall k, k < n -> exists e, nth_error (components kind) k = Some e).
  { intros k Hk. destruct (nth_error (components kind) k) eqn:E; eauto. apply nth_error_None in E. lia. }
  assert (Hlt : forall k e, nth_error (components kind) k = Some e -> k < n) by (intros k e E; rewrite Hn; apply nth_error_Some; congruence).
  assert (Hcp : forall k g q, k < n -> takes k -> cp k = Some (g, q) -> exists p, own k = Some (g, p) /\ group_at (gr g) q = Some p).
  { intros k g q Hk Ht E. destruct (own k) as [[g' p]|] eqn:Eo; [|rewrite (att_off _ _ _ _ _ _ HA k Hk Ht Eo) in E; discriminate].
    destruct (att_own _ _ _ _ _ _ HA k g' p Hk Ht Eo) as (q' & E1 & E2). rewrite E1 in E. injection E as -> ->. eauto. }
  destruct (prepare_prefix c kget n cp include pfun (resized s (fun g => element_size (gr g)) d) (nth_error (components kind))) with (m := n) as (vs & E & L & S & W); auto.
  - intros k g q Hk Hi Hp. split; [eapply Hget; eauto|]. destruct (Hcomp k Hk) as [e Ee]. assert (Ht : takes k) by (apply Hin2; auto; congruence). destruct (Hpf k e Ee Ht) as [v Ev]. eauto.
  - intros k g q Hk Hi Hp. assert (Ht : takes k) by (apply Hin2; auto; congruence). destruct (Hcp k g q Hk Ht Hp) as (p & Ho & Hg). eexists. split; [apply resized_nth; eapply Hownr; eauto|]. rewrite repeat_length. eapply group_at_lt; eauto.
  - intros k k' a Hk Hk' Hi Hi' Hp Hp'. apply (att_once _ _ _ _ _ _ HA k k' a); auto; apply Hin2; auto; congruence.
  - exists vs. split; auto. split; [split|split].
    + rewrite L. apply resized_len.
    + intros g q v. rewrite W. split.
      * intros [(k & e & Hk & Hi & Hp & He & Hv)|[Hu Hd]].
        -- assert (Ht : takes k) by (apply Hin2; auto; congruence). destruct (Hcp k g q Hk Ht Hp) as (p & Ho & Hg). assert (HTe : T e) by (eapply HT; eauto).
           exists k, e, p. repeat split; auto; [eapply Hown; eauto|]. apply Hpar; auto. eapply nth_error_In; eauto.
        -- exfalso. unfold at2 in Hd. destruct (nth_error (resized s _ d) g) as [l|] eqn:El; [|discriminate]. assert (Hg : g < n_topo) by (rewrite <- (resized_len (fun g => element_size (gr g)) d); apply nth_error_Some; congruence).
           rewrite resized_nth in El by auto. injection El as <-. assert (Hq : q < element_size (gr g)) by (rewrite <- (repeat_length d (element_size (gr g))); apply nth_error_Some; congruence).
           apply (att_dense _ _ _ _ _ _ HA g q Hg) in Hq as (k & Hk & Ht & Hp). apply (Hu k Hk); auto.
      * intros (k & e & p & He & HTe & Hp & Hg & Hb & Hv). left. exists k, e. pose proof (Hlt k e He) as Hk. assert (Ht : takes k) by (eapply HT; eauto). repeat split; auto. apply Hpar; auto. eapply nth_error_In; eauto.
    + intros k e g p He HTe Hb. assert (Ht : takes k) by (eapply HT; eauto). apply (Hown k e g p He Ht) in Hb. destruct (att_own _ _ _ _ _ _ HA k g p (Hlt k e He) Ht Hb) as (q & E1 & _). eauto.
    + intros k k' e e' a He He' HTe HTe' Hp Hp'. apply (att_once _ _ _ _ _ _ HA k k' a); eauto; eapply HT; eauto.
Qed.

(** ** Appliances and voltage sensors *)
Lemma at_node_bus kind nodes (shape : Z -> cinput) :
  (forall x, shape x = IAppliance x) \/ (forall x, shape x = IVoltageSensor x) ->
  Forall2 (fun e i => exists x, e_in e = shape x /\ number_of (GExact Node) x i) (components kind) nodes ->
  forall k e g p, nth_error (components kind) k = Some e -> (at_node (st_search s) nodes k = Some (g, p) <-> at_bus data s e g p).
Proof.
  intros HS HF k e g p He. destruct (Forall2_nth_l _ _ _ _ _ HF He) as (i & Ei & x & Ex & Hx). unfold at_node. rewrite Ei. split.
  - intros H. exists x, i. split; [|split; auto]. destruct HS as [HS|HS]; rewrite HS in Ex; auto.
  - intros (y & j & Hy & Hj & Hb). assert (y = x) as -> by (destruct HS as [HS|HS]; rewrite HS in Ex; rewrite Ex in Hy; destruct Hy as [Hy|[Hy|Hy]]; congruence).
    rewrite (number_unique ck data c Hc _ _ _ _ Hx Hj). exact Hb.
Qed.

Lemma simple_given {A} kind nodes (shape : Z -> cinput) (x : (nat -> grouped) * (nat -> Coupling.idx2d)) d (param : centry -> A) :
  (forall x, shape x = IAppliance x) \/ (forall x, shape x = IVoltageSensor x) ->
  Forall2 (fun e i => exists x, e_in e = shape x /\ number_of (GExact Node) x i) (components kind) nodes ->
  attached n_topo (length nodes) (fun _ => True) (at_node (st_search s) nodes) (fst x) (snd x) ->
  exists vs, prepare_input c kind (length nodes) (snd x) include_all (fun e => Some (param e)) (resized s (fun g => element_size (fst x g)) d) = Some vs /\
    given data n_topo kind (fun _ => True) (at_bus data s) (fst x) (snd x) (fun e v => v = param e) vs.
Proof.
  intros HS HF HA. eapply (given_ok kind kind (length nodes) (fun _ => True)); eauto.
  - symmetry. eapply Forall2_same_len; eauto.
  - tauto.
  - intros. apply (seq_component ck data c Hc).
  - intros e v _ _. split; congruence.
  - intros k e g p He _. eapply at_node_bus; eauto.
  - intros k g p _ _. apply (at_node_range data at_ padd p0 popp s OK).
Qed.
Lemma sources_given {A} (pfun : centry -> option A) (param : centry -> A -> Prop) d :
  (forall e, In e (components (GExact Source)) -> exists v, pfun e = Some v) ->
  (forall e v, In e (components (GExact Source)) -> (pfun e = Some v <-> param e v)) ->
  exists vs, prepare_input c (GExact Source) (length (source_node_idx (st_topo s))) (snd (sources (st_coupled s))) include_all pfun
      (resized s (fun g => element_size (fst (sources (st_coupled s)) g)) d) = Some vs /\
    given data n_topo (GExact Source) (fun e => at_source_status at_ e = true) (at_bus data s) (fst (sources (st_coupled s))) (snd (sources (st_coupled s))) param vs.
Proof.
  intros HP HP'. pose proof (ok_reg _ _ _ _ _ _ OK) as HR. pose proof (ok_att _ _ _ _ _ _ OK) as HA.
  assert (HT : forall k e, nth_error (components (GExact Source)) k = Some e -> (nth_error (source_connected (st_conn s)) k = Some true <-> at_source_status at_ e = true)).
  { intros k e He. rewrite (rg_source_on _ _ _ _ _ HR), nth_error_map, He. simpl. split; congruence. }
  eapply (given_ok (GExact Source) (GExact Source) _ _ _ _ _ _ pfun param); eauto using (aa_sources _ _ _ _ _ HA).
  - symmetry. eapply Forall2_same_len. apply (rg_source _ _ _ _ _ HR).
  - intros k Hk _ Hcp. destruct (nth_error (source_connected (st_conn s)) k) as [[]|] eqn:E; auto; rewrite (aa_sources_off _ _ _ _ _ HA k) in Hcp; congruence.
  - intros. apply (seq_component ck data c Hc).
  - intros k e He _. apply HP. eapply nth_error_In; eauto.
  - intros k e g p He _. eapply (at_node_bus (GExact Source) _ IAppliance); eauto. apply (rg_source _ _ _ _ _ HR).
  - intros k g p _ _. apply (at_node_range data at_ padd p0 popp s OK).
Qed.

(** ** Voltage regulators *)
Lemma no_tap_regulators : (forall e, In e (components GRegulator) -> e_type e <> TransformerTapRegulator) -> components GRegulator = components (GExact VoltageRegulator).
Proof.
  intros H. unfold RegistrationSpec.components in *. simpl in *. rewrite !app_nil_r in *. destruct (data TransformerTapRegulator) as [|r l] eqn:E; [reflexivity|].
  exfalso. eapply (H (mkEntry TransformerTapRegulator (fst r) (snd r))); [|reflexivity]. left. reflexivity.
Qed.
Lemma load_gen_topo x i g p : number_of GGenericLoadGen x i -> snd (load_gens (st_coupled s)) i = Some (g, p) -> g < n_topo.
Proof.
  intros (e & He & _) H. apply (load_gen_range data at_ padd p0 popp s OK) in H; [tauto|]. rewrite <- (Forall2_same_len _ _ _ (rg_load_gen _ _ _ _ _ (ok_reg _ _ _ _ _ _ OK))). apply nth_error_Some. congruence.
Qed.
Lemma regulators_given {A} (param : centry -> A) d : regulators_allowed c = true ->
  exists vs, prepare_input c (GExact VoltageRegulator) (length (regulators (st_objects s))) (snd (voltage_regulators (st_coupled s))) include_all (fun e => Some (param e))
      (resized s (fun g => element_size (fst (voltage_regulators (st_coupled s)) g)) d) = Some vs /\
    given data n_topo GRegulator (fun e => e_type e = VoltageRegulator) (at_generator data s) (fst (voltage_regulators (st_coupled s)))
      (snd (voltage_regulators (st_coupled s))) (fun e v => v = param e) vs.
Proof.
  intros HV. pose proof (ok_reg _ _ _ _ _ _ OK) as HR. pose proof (ok_att _ _ _ _ _ _ OK) as HA. pose proof (rg_regulator _ _ _ _ _ HR) as HF.
  assert (HT : forall k e, nth_error (components GRegulator) k = Some e -> ((exists x, nth_error (regulators (st_objects s)) k = Some (x, true)) <-> e_type e = VoltageRegulator)).
  { intros k e He. destruct (Forall2_nth_l _ _ _ _ _ HF He) as ([x b] & Eb & HX). rewrite Eb. destruct (refs_of ck data c Hc HL e GRegulator (nth_error_In _ _ He)) as (_ & HLy & Hd). cbn [fst snd] in HX.
    assert (Ht : e_type e = TransformerTapRegulator \/ e_type e = VoltageRegulator) by (destruct (e_type e); cbn in Hd; auto; discriminate).
    destruct HX as [(y & sd & Ei & -> & _)|(y & Ei & -> & _)]; rewrite Ei in HLy; destruct Ht as [Ht|Ht]; rewrite Ht in HLy |- *; cbn in HLy; try tauto; split; intros H; eauto; try discriminate; destruct H; discriminate. }
  assert (Hget : forall k g q, k < length (regulators (st_objects s)) -> include_all k = true -> snd (voltage_regulators (st_coupled s)) k = Some (g, q) ->
    get_item_by_seq (is_base (GExact VoltageRegulator)) c k = nth_error (components GRegulator) k).
  { intros k g q Hk _ Hp. destruct (nth_error (components GRegulator) k) as [e|] eqn:He; [|apply nth_error_None in He; rewrite (Forall2_same_len _ _ _ HF) in He; lia].
    destruct (nth_error (regulators (st_objects s)) k) as [[x b]|] eqn:Eb; [|apply nth_error_None in Eb; lia].
    destruct b; [|rewrite (aa_regulators_off _ _ _ _ _ HA k) in Hp; [discriminate|intros y; rewrite Eb; congruence]].
    assert (Hv : e_type e = VoltageRegulator) by (apply (HT k e He); eauto).
    assert (HN : 0 < size_of (is_base (GExact VoltageRegulator)) c).
    { rewrite (size_components ck data c Hc). assert (HI : In e (components (GExact VoltageRegulator))).
      { apply in_components. apply nth_error_In in He. apply in_components in He as (t & r & Hd & Hr & ->). cbn in Hv. subst t. exists VoltageRegulator, r. auto. }
      destruct (components (GExact VoltageRegulator)); [destruct HI|simpl; lia]. }
    unfold regulators_allowed in HV. apply Nat.ltb_lt in HN. rewrite HN in HV. apply negb_true_iff, Nat.ltb_ge in HV. rewrite (size_components ck data c Hc) in HV.
    rewrite (seq_component ck data c Hc). rewrite <- no_tap_regulators; auto. intros e' He' Ht. apply in_components in He' as (t & r & Hd & Hr & ->). cbn in Ht. subst t.
    assert (HI : In (mkEntry TransformerTapRegulator (fst r) (snd r)) (components (GExact TransformerTapRegulator))) by (apply in_components; exists TransformerTapRegulator, r; auto).
    destruct (components (GExact TransformerTapRegulator)); [destruct HI|simpl in HV; lia]. }
  eapply (given_ok (GExact VoltageRegulator) GRegulator); eauto using (aa_regulators _ _ _ _ _ HA).
  - symmetry. eapply Forall2_same_len; eauto.
  - intros k Hk _ Hcp. destruct (nth_error (regulators (st_objects s)) k) as [[x []]|] eqn:E; [eauto| |]; exfalso; apply Hcp, (aa_regulators_off _ _ _ _ _ HA); intros y; rewrite E; congruence.
  - intros e v _ _. split; congruence.
  - intros k e g p He [x Hx]. destruct (Forall2_nth_l _ _ _ _ _ HF He) as (kb & Eb & HX). rewrite Eb in Hx. injection Hx as ->. unfold at_object. rewrite Eb. cbn [fst snd] in HX.
    destruct HX as [(y & sd & Ei & ? & _)|(y & Ei & _ & Hn)]; [discriminate|]. split.
    + intros H. exists y, x. auto.
    + intros (y' & i & Ey & Hi & Hl). assert (y' = y) as -> by congruence. now rewrite (number_unique ck data c Hc _ _ _ _ Hn Hi).
  - intros k g p Hk [x Hx] Ho. unfold at_object in Ho. rewrite Hx in Ho.
    destruct (Forall2_nth_r _ _ _ _ _ HF Hx) as (e & He & [(y & sd & _ & ? & _)|(y & _ & _ & Hn)]); [discriminate|eapply load_gen_topo; eauto].
Qed.

(** ** Sensors *)
Definition object_place (ty : Coupling.terminal) (i : nat) : option (nat * nat) :=
  let b := cp_branches (st_coupled s) in
  match ty with
  | T_branch_from | T_branch_to => owner_pos b (From_branch i)
  | T_branch3_1 => owner_pos b (From_branch3 i Side1)
  | T_branch3_2 => owner_pos b (From_branch3 i Side2)
  | T_branch3_3 => owner_pos b (From_branch3 i Side3)
  | T_source => snd (sources (st_coupled s)) i
  | T_shunt => snd (shunts (st_coupled s)) i
  | T_load | T_generator => snd (load_gens (st_coupled s)) i
  | T_node => bus (st_search s) i
  end.
Lemma object_at_place ty ty' x g p : same_terminal ty ty' -> (object_at data s ty x g p <-> exists i, number_of (measured_kind ty') x i /\ object_place ty' i = Some (g, p)).
Proof. destruct ty, ty'; cbn [same_terminal object_at measured_kind object_place]; intros H; tauto. Qed.
Lemma object_place_topo ty x i g p : number_of (measured_kind ty) x i -> object_place ty i = Some (g, p) -> g < n_topo.
Proof.
  pose proof (ok_reg _ _ _ _ _ _ OK) as HR. intros Hn Hp.
  destruct ty; cbn [measured_kind object_place] in Hn, Hp; try (apply (ok_branch _ _ _ _ _ _ OK) in Hp; tauto); try (eapply load_gen_topo; eauto; fail).
  - apply (source_range data at_ padd p0 popp s OK) in Hp; [tauto|]. destruct Hn as (e & He & _). rewrite <- (Forall2_same_len _ _ _ (rg_source _ _ _ _ _ HR)). apply nth_error_Some. congruence.
  - apply (shunt_range data at_ padd p0 popp s OK) in Hp; [tauto|]. destruct Hn as (e & He & _). rewrite <- (Forall2_same_len _ _ _ (rg_shunt _ _ _ _ _ HR)). apply nth_error_Some. congruence.
  - apply (ok_bus _ _ _ _ _ _ OK) in Hp. tauto.
Qed.
Lemma sensors_given {A} kind (shape : Z -> Container.terminal -> cinput) l tys tys' f own gr cp (param : centry -> A) d :
  (forall x ty, shape x ty = IPowerSensor x ty) \/ (forall x ty, shape x ty = ICurrentSensor x ty) ->
  Forall2 (fun e kt => exists x ty, e_in e = shape x ty /\ same_terminal ty (snd kt) /\ number_of (measured_kind (snd kt)) x (fst kt)) (components kind) l ->
  attached n_topo (length l) (measures l tys) own gr cp ->
  (forall a b, same_terminal a b -> (In a tys' <-> In b tys)) -> (forall b, f b = true <-> In b tys) ->
  (forall k x ty, nth_error l k = Some (x, ty) -> In ty tys -> own k = object_place ty x) ->
  exists vs, prepare_input c kind (length l) cp (terminal_is l f) (fun e => Some (param e)) (resized s (fun g => element_size (gr g)) d) = Some vs /\
    given data n_topo kind (sensor_of tys') (at_measured data s) gr cp (fun e v => v = param e) vs.
Proof.
  intros HS HF HA HY Hf Hown.
  assert (Hshape : forall e x ty y ty', e_in e = shape x ty -> e_in e = IPowerSensor y ty' \/ e_in e = ICurrentSensor y ty' -> y = x /\ ty' = ty).
  { intros e x ty y ty' E E'. destruct HS as [HS|HS]; rewrite HS in E; destruct E' as [E'|E']; split; congruence. }
  assert (Hkind : forall e x ty, e_in e = shape x ty -> e_in e = IPowerSensor x ty \/ e_in e = ICurrentSensor x ty).
  { intros e x ty E. destruct HS as [HS|HS]; rewrite HS in E; auto. }
  assert (Hinc : forall k, terminal_is l f k = true <-> measures l tys k).
  { intros k. unfold terminal_is, measures. destruct (nth_error l k) as [[x ty]|]; [rewrite Hf|].
    - split; [eauto|intros (? & ? & [= <- <-] & H); exact H].
    - split; [discriminate|intros (? & ? & ? & _); discriminate]. }
  eapply (given_ok kind kind (length l) (measures l tys)); eauto.
  - symmetry. eapply Forall2_same_len; eauto.
  - intros k e He. destruct (Forall2_nth_l _ _ _ _ _ HF He) as ([i ty'] & Ek & x & ty & Ei & Hst & _). cbn [fst snd] in Hst. unfold measures, sensor_of. rewrite Ek. split.
    + intros (? & ? & [= <- <-] & H). exists x, ty. split; [auto|]. now apply (HY ty ty' Hst).
    + intros (y & ty2 & E & H). destruct (Hshape e x ty y ty2 Ei E) as [-> ->]. exists i, ty'. split; [auto|]. now apply (HY ty ty' Hst).
  - intros k _ Ht. now apply Hinc.
  - intros k _ Ht _. now apply Hinc.
  - intros. apply (seq_component ck data c Hc).
  - intros e v _ _. split; congruence.
  - intros k e g p He (i & ty' & Ek & Hty). destruct (Forall2_nth_l _ _ _ _ _ HF He) as (kt & Ek' & x & ty & Ei & Hst & Hn). rewrite Ek in Ek'. injection Ek' as <-. cbn [fst snd] in Hst, Hn.
    rewrite (Hown k i ty' Ek Hty). unfold at_measured. split.
    + intros Hp. exists x, ty. split; [auto|]. apply (object_at_place ty ty' x g p Hst). eauto.
    + intros (y & ty2 & E & H). destruct (Hshape e x ty y ty2 Ei E) as [-> ->]. apply (object_at_place ty ty' x g p Hst) in H as (j & Hj & Hp). now rewrite (number_unique ck data c Hc _ _ _ _ Hn Hj).
  - intros k g p Hk (i & ty' & Ek & Hty) Ho. rewrite (Hown k i ty' Ek Hty) in Ho. destruct (Forall2_nth_r _ _ _ _ _ HF Ek) as (e & _ & x & ty & _ & _ & Hn). eapply object_place_topo; eauto.
Qed.

(** ** Faults *)
Section Faults.
Variable sort : list (nat * nat) -> list (nat * nat).
Variable criterion : nat -> nat -> bool.
Hypothesis Hsort : sort_contract sort.
Variable fault_on : centry -> bool.
Lemma fault_item e : In e (components (GExact Fault)) -> exists o, e_in e = IFault o /\ has_kind data (GExact Node) o.
Proof.
  intros He. destruct (refs_of ck data c Hc HL e _ He) as (HR & HLy & Hd). apply ctype_eqb_eq in Hd. rewrite <- Hd in HLy. destruct (e_in e) eqn:Ei; cbn in HLy; try tauto; try discriminate. eexists. split; [reflexivity|]. exact HR.
Qed.
Lemma node_item_ok x : has_kind data (GExact Node) x -> exists n, node_item c x = Some n /\ In n (components (GExact Node)) /\ e_id n = x.
Proof.
  intros H. destruct (seq_of_id_ok ck data c Hc _ _ H) as (k & Ek & e & He & Hx). exists e. unfold node_item. rewrite Ek. cbn [bindO]. rewrite (seq_component ck data c Hc). split; auto. split; auto. eapply nth_error_In; eauto.
Qed.
Lemma fault_nodes_ok : exists nodes, fault_nodes c fault_on = Some nodes /\
  Forall2 (fun e i => fault_on e = true -> exists o, e_in e = IFault o /\ number_of (GExact Node) o i) (components (GExact Fault)) nodes.
Proof.
  unfold fault_nodes. rewrite (citer_components ck data c Hc). cbn [bindO].
  destruct (mapO_ok (fun e => if fault_on e then match e_in e with IFault o => seq_of_id (GExact Node) c o | _ => None end else Some 0) (components (GExact Fault))) as (l & E & HF).
  - intros e He. destruct (fault_on e); [|eauto]. destruct (fault_item e He) as (o & -> & Hk). destruct (seq_of_id_ok ck data c Hc _ _ Hk) as (k & Ek & _). eauto.
  - exists l. split; auto. eapply Forall2_impl_in; [exact HF|]. intros e i He H Hon. cbn beta in H. rewrite Hon in H. destruct (fault_item e He) as (o & Eo & Hk). rewrite Eo in H. exists o. split; auto.
    destruct (seq_of_id_ok ck data c Hc _ _ Hk) as (k & Ek & HN). congruence.
Qed.
Context {F : Type} (d_f : F).
Variable fault_param : centry -> centry -> F.
Variable unused : F -> bool.
Hypothesis Hdefault : unused d_f = true.
Hypothesis Hused : forall e n, In e (components (GExact Fault)) -> fault_on e = true -> node_entry data e n -> unused (fault_param e n) = false.
Lemma truncate_nth l m : m <= length l -> (forall q v, q < m -> nth_error l q = Some v -> unused v = false) -> (forall v, nth_error l m = Some v -> unused v = true) ->
  truncate unused l = firstn m l.
Proof.
  revert m. induction l as [|x l IH]; intros [|m] Hm H1 H2; simpl in *; auto; try lia.
  - rewrite (H2 x); auto.
  - rewrite (H1 0 x); auto with arith. f_equal. apply IH; [lia| |auto]. intros q v Hq. apply (H1 (S q)). lia.
Qed.
Lemma attached_size n takes own gr cp g : attached n_topo n takes own gr cp -> g < n_topo -> element_size (gr g) <= n.
Proof.
  intros HA Hg.
  assert (X : forall m, m <= element_size (gr g) -> exists ks, length ks = m /\ NoDup ks /\ forall k, In k ks -> k < n /\ takes k /\ exists q, q < m /\ cp k = Some (g, q)).
  { induction m as [|m IH]; intros Hm; [exists []; split; [reflexivity|split; [constructor|intros k []]]|]. destruct IH as (ks & L & ND & H); [lia|].
    destruct (proj1 (att_dense _ _ _ _ _ _ HA g m Hg) ltac:(lia)) as (k & Hk & Ht & E). exists (k :: ks). split; [simpl; lia|]. split.
    - constructor; auto. intros Hi. destruct (H k Hi) as (_ & _ & q & Hq & E'). rewrite E in E'. injection E' as ->. lia.
    - intros k' [<-|Hi]; [split; auto; split; auto; exists m; auto|]. destruct (H k' Hi) as (? & ? & q & ? & ?). split; auto. split; auto. exists q. auto. }
  destruct (X (element_size (gr g)) (le_n _)) as (ks & L & ND & H). rewrite <- L, <- (seq_length n 0). apply NoDup_incl_length; auto. intros k Hk. apply in_seq. destruct (H k Hk). lia.
Qed.
Lemma bus_in_topo x g p : bus (st_search s) x = Some (g, p) -> g < n_topo /\ p < (match nth_error (models (st_search s)) g with Some m => n_bus m | None => 0 end).
Proof. apply (ok_bus _ _ _ _ _ _ OK). Qed.
Lemma at2_map {A} (f : list A -> list A) vs g q : at2 (map f vs) g q = match nth_error vs g with Some l => nth_error (f l) q | None => None end.
Proof. unfold at2. rewrite nth_error_map. destruct (nth_error vs g); reflexivity. Qed.
Lemma faults_given nodes gr cp : fault_nodes c fault_on = Some nodes -> fault_places c s sort criterion fault_on nodes = (gr, cp) ->
  exists v1, prepare_input c (GExact Fault) (size_of (is_base (GExact Fault)) c) cp include_all
      (fun e => match e_in e with IFault o => option_map (fault_param e) (node_item c o) | _ => None end) (resized s (fun _ => size_of (is_base (GExact Fault)) c) d_f) = Some v1 /\
    given data n_topo (GExact Fault) (fun e => fault_on e = true) (at_bus data s) gr cp (fun e v => exists n, node_entry data e n /\ v = fault_param e n) (map (truncate unused) v1) /\
    (forall g l, nth_error (map (truncate unused) v1) g = Some l -> length l = element_size (gr g)) /\
    (forall k g q, cp k = Some (g, q) -> g < n_topo /\ q < element_size (gr g)) /\
    (forall k e, nth_error (components (GExact Fault)) k = Some e -> fault_on e = false -> cp k = None).
Proof.
  intros En Ep. destruct fault_nodes_ok as (nodes' & En' & HF). rewrite En in En'. injection En' as <-.
  unfold fault_places in Ep. set (own := find_single nodes (bus (st_search s))) in *.
  assert (Hown : forall k g p, k < length nodes -> fault_is_on c fault_on k = true -> own k = Some (g, p) -> g < n_topo /\ p < match nth_error (models (st_search s)) g with Some m => n_bus m | None => 0 end).
  { intros k g p _ _. unfold own, find_single. destruct (nth_error nodes k); [apply bus_in_topo|discriminate]. }
  pose proof (coupled_range_any sort criterion Hsort n_topo false _ own (fault_is_on c fault_on) (length nodes) (fun _ => None) Hown (fun _ => eq_refl)) as HH. cbv zeta in HH. rewrite Ep in HH. cbn [fst snd] in HH. destruct HH as (HA & HR & HN).
  pose proof (Forall2_same_len _ _ _ HF) as HLen. rewrite (size_components ck data c Hc). set (n := length (components (GExact Fault))) in *.
  assert (Hon : forall k e, nth_error (components (GExact Fault)) k = Some e -> fault_is_on c fault_on k = fault_on e).
  { intros k e He. unfold fault_is_on. now rewrite (seq_component ck data c Hc), He. }
  assert (Hcomp : forall k, k < n -> exists e, nth_error (components (GExact Fault)) k = Some e).
  { intros k Hk. destruct (nth_error (components (GExact Fault)) k) eqn:E; eauto. apply nth_error_None in E. unfold n in Hk. lia. }
  assert (Hlt : forall k e, nth_error (components (GExact Fault)) k = Some e -> k < n) by (intros k e E; unfold n; apply nth_error_Some; congruence).
  assert (Hpar : forall e, In e (components (GExact Fault)) -> exists o nd, e_in e = IFault o /\ node_item c o = Some nd /\ node_entry data e nd).
  { intros e He. destruct (fault_item e He) as (o & Eo & Hk). destruct (node_item_ok o Hk) as (nd & End & Hin & Hid). exists o, nd. split; auto. split; auto. exists o. auto. }
  assert (Hunique : forall e nd nd', node_entry data e nd -> node_entry data e nd' -> nd = nd').
  { intros e nd nd' (x & Hx & Hi & Hid) (x' & Hx' & Hi' & Hid'). assert (x' = x) by (destruct Hx as [Hx|Hx], Hx' as [Hx'|Hx']; congruence). subst x'.
    apply In_nth_error in Hi as [i Hi], Hi' as [i' Hi']. assert (i = i') by (apply (number_unique ck data c Hc (GExact Node) x); eexists; eauto). congruence. }
  assert (Htakes : forall k, cp k <> None -> fault_is_on c fault_on k = true /\ k < n).
  { intros k Hk. destruct (fault_is_on c fault_on k) eqn:E; [|destruct (HN k); [intros [_ ?]; congruence|]; congruence]. split; auto. destruct (Nat.lt_ge_cases k n); auto. destruct (HN k); [intros [? _]; lia|congruence]. }
  set (pfun := fun e => match e_in e with IFault o => option_map (fault_param e) (node_item c o) | _ => None end) in *.
  assert (Hpf : forall e v, In e (components (GExact Fault)) -> (pfun e = Some v <-> exists nd, node_entry data e nd /\ v = fault_param e nd)).
  { intros e v He. destruct (Hpar e He) as (o & nd & Eo & End & Hnd). unfold pfun. rewrite Eo, End. cbn [option_map]. split; [intros [= <-]; eauto|]. intros (nd' & Hnd' & ->). now rewrite (Hunique e nd nd'). }
  assert (Hpd : forall e, In e (components (GExact Fault)) -> exists v, pfun e = Some v).
  { intros e He. destruct (Hpar e He) as (o & nd & Eo & End & Hnd). exists (fault_param e nd). apply Hpf; eauto. }
  destruct (prepare_prefix c (GExact Fault) n cp include_all pfun (resized s (fun _ => n) d_f) (nth_error (components (GExact Fault)))) with (m := n) as (v1 & E & L & SZ & W); auto.
  { intros k g q Hk _ Hp. split; [apply (seq_component ck data c Hc)|]. destruct (Hcomp k Hk) as [e He]. destruct (Hpd e (nth_error_In _ _ He)) as [v Hv]. eauto. }
  { intros k g q Hk _ Hp. destruct (HR k g q Hp) as [Hg Hq]. eexists. split; [apply resized_nth; auto|]. rewrite repeat_length. pose proof (attached_size _ _ _ _ _ g HA Hg). lia. }
  { intros k k' a Hk Hk' _ _ Hp Hp'. apply (att_once _ _ _ _ _ _ HA k k' a); auto; try lia; apply Htakes; congruence. }
  exists v1. split; auto.
  assert (Hsize : forall g l, nth_error v1 g = Some l -> g < n_topo /\ length l = n).
  { intros g l El. assert (Hg : g < n_topo) by (rewrite <- (resized_len (fun _ => n) d_f), <- L; apply nth_error_Some; congruence). split; auto. specialize (SZ g). rewrite El, resized_nth in SZ by auto. simpl in SZ. injection SZ as ->. apply repeat_length. }
  assert (Htr : forall g l, nth_error v1 g = Some l -> truncate unused l = firstn (element_size (gr g)) l).
  { intros g l El. destruct (Hsize g l El) as [Hg Hl]. apply truncate_nth.
    - rewrite Hl, HLen. eapply attached_size; eauto.
    - intros q v Hq Hv. assert (Hat : at2 v1 g q = Some v) by (unfold at2; now rewrite El). apply W in Hat as [(k & e & Hk & _ & Hp & He & Hv')|[Hu _]].
      + apply (Hpf e v (nth_error_In _ _ He)) in Hv' as (nd & Hnd & ->). apply Hused; auto; [eapply nth_error_In; eauto|]. rewrite <- (Hon k e He). apply Htakes. congruence.
      + apply (att_dense _ _ _ _ _ _ HA g q Hg) in Hq as (k & Hk & _ & Hp). exfalso. apply (Hu k); auto. lia.
    - intros v Hv. assert (Hat : at2 v1 g (element_size (gr g)) = Some v) by (unfold at2; now rewrite El). apply W in Hat as [(k & e & Hk & _ & Hp & He & Hv')|[_ Hd]].
      + apply HR in Hp as [_ Hp]. lia.
      + unfold at2 in Hd. rewrite resized_nth in Hd by auto. apply nth_error_In, repeat_spec in Hd. congruence. }
  refine (conj (conj _ (conj _ _)) (conj _ (conj HR _))).
  - split; [rewrite map_length, L; apply resized_len|]. intros g q v. rewrite at2_map. split.
    + destruct (nth_error v1 g) as [l|] eqn:El; [|discriminate]. rewrite (Htr g l El). intros Hv. destruct (Hsize g l El) as [Hg Hl].
      assert (Hq : q < element_size (gr g)) by (assert (q < length (firstn (element_size (gr g)) l)) by (apply nth_error_Some; congruence); rewrite firstn_length in *; lia).
      assert (Hv' : nth_error l q = Some v) by (rewrite <- Hv; symmetry; now apply nth_firstn).
      assert (Hat : at2 v1 g q = Some v) by (unfold at2; now rewrite El). apply W in Hat as [(k & e & Hk & _ & Hp & He & Hpv)|[Hu _]].
      * destruct (Htakes k ltac:(congruence)) as [Ht _]. destruct (own k) as [[g' p]|] eqn:Eo; [|rewrite (att_off _ _ _ _ _ _ HA k) in Hp; auto; [discriminate|lia]].
        destruct (att_own _ _ _ _ _ _ HA k g' p ltac:(lia) Ht Eo) as (q' & Ecp & Hgr). rewrite Hp in Ecp. injection Ecp as <- <-.
        exists k, e, p. split; auto. split; [now rewrite <- (Hon k e He)|]. split; auto. split; auto. split; [|now apply (Hpf e v (nth_error_In _ _ He))].
        destruct (Forall2_nth_l _ _ _ _ _ HF He) as (i & Ei & Hi). rewrite (Hon k e He) in Ht. destruct (Hi Ht) as (o & Eoi & Hno). unfold own, find_single in Eo. rewrite Ei in Eo. exists o, i. auto.
      * apply (att_dense _ _ _ _ _ _ HA g q Hg) in Hq as (k & Hk & _ & Hp). exfalso. apply (Hu k); auto. lia.
    + intros (k & e & p & He & Ht & Hp & Hgr & Hb & Hv). destruct (HR k g q Hp) as [Hg Hq].
      assert (Hat : at2 v1 g q = Some v) by (apply W; left; exists k, e; repeat split; auto; [eapply Hlt; eauto|apply (Hpf e v (nth_error_In _ _ He)); auto]).
      unfold at2 in Hat. destruct (nth_error v1 g) as [l|] eqn:El; [|discriminate]. rewrite (Htr g l El). rewrite <- Hat. now apply nth_firstn.
  - intros k e g p He Ht (o & i & Eo & Hi & Hb). destruct (Forall2_nth_l _ _ _ _ _ HF He) as (j & Ej & Hj). destruct (Hj Ht) as (o' & Eo' & Ho').
    assert (o' = o) by (destruct Eo as [Eo|[Eo|Eo]]; congruence). subst o'. rewrite (number_unique ck data c Hc _ _ _ _ Hi Ho') in Hb.
    destruct (att_own _ _ _ _ _ _ HA k g p) as (q & Eq & _); [rewrite <- HLen; eapply Hlt; eauto|rewrite (Hon k e He); auto|unfold own, find_single; rewrite Ej; auto|eauto].
  - intros k k' e e' a He He' Ht Ht' Hp Hp'. apply (att_once _ _ _ _ _ _ HA k k' a); auto; try (rewrite <- HLen; eapply Hlt; eauto); [rewrite (Hon k e He)|rewrite (Hon k' e' He')]; auto.
  - intros g l El. rewrite nth_error_map in El. destruct (nth_error v1 g) as [l1|] eqn:El1; [|discriminate]. injection El as <-. rewrite (Htr g l1 El1), firstn_length. destruct (Hsize g l1 El1) as [Hg Hl]. pose proof (attached_size _ _ _ _ _ g HA Hg). lia.
  - intros k e He Hoff. destruct (cp k) eqn:Ecp; auto. destruct (Htakes k ltac:(congruence)) as [Ht _]. rewrite (Hon k e He) in Ht. congruence.
Qed.
End Faults.
End State.
