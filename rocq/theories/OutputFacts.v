(** Facts about the result records. *)
From Verif Require Import Common NatMap SparseOrdering GroupedIdxFacts GroupedIdxProps Container ContainerSpec ContainerFacts ContainerProps Topology TopologySpec TopologyFacts TopologyProps
  Coupling CouplingSpec CouplingProps Registration RegistrationSpec RegistrationFacts Output OutputSpec.

Section State.
Variable ck : ctype -> Z -> cinput -> option exn.
Variable data : ctype -> list (Z * cinput).
Variable c : mcontainer.
Hypothesis Hc : create_model ck data = Ok c.
Hypothesis HL : layouts_ok data.
Notation components := (components data).
Notation number_of := (number_of data).
(** ** numbers *)
Lemma base_index_seq g t n : base_index c g t n = get_seq (is_base g) c (ctype_idx t, n).
Proof. unfold base_index, get_start_idx, get_seq. cbn [fst snd]. destruct (nth_error _ _); reflexivity. Qed.
Lemma component_of g t n r : derives g t = true -> nth_error (data t) n = Some r ->
  exists k, base_index c g t n = Some k /\ nth_error (components g) k = Some (mkEntry t (fst r) (snd r)).
Proof. intros Hd Hn. rewrite base_index_seq. eapply component_seq; eauto. Qed.
Lemma number_type g x k : number_of g x k -> exists t n r, derives g t = true /\ nth_error (data t) n = Some r /\ fst r = x /\ base_index c g t n = Some k /\
  nth_error (components g) k = Some (mkEntry t (fst r) (snd r)).
Proof.
  intros (e & He & Hx). assert (Hk : k < size_of (is_base g) c) by (rewrite (size_components ck data c Hc); apply nth_error_Some; congruence).
  destruct (create_model_ok _ _ _ Hc) as [[Hlen _] HV].
  destruct (seq_inv _ _ _ Hk) as (gr & n & E1 & Hg & Hb & Hn & E2). rewrite Hlen in Hg. apply idx_lt_ctype in Hg as [t <-]. rewrite is_base_idx in Hb. rewrite HV in Hn. unfold entries in Hn. rewrite map_length in Hn.
  destruct (nth_error (data t) n) as [r|] eqn:En; [|apply nth_error_None in En; lia].
  destruct (component_of g t n r Hb En) as (k' & E3 & E4). rewrite base_index_seq, E2 in E3. injection E3 as <-.
  exists t, n, r. rewrite base_index_seq. split; auto. split; auto. split; auto. rewrite He in E4. injection E4 as ->. exact Hx.
Qed.
Lemma exact_index t n : n < length (data t) -> base_index c (GExact t) t n = Some n.
Proof.
  intros Hn. destruct (nth_error (data t) n) as [r|] eqn:En; [|apply nth_error_None in En; lia].
  assert (Hd : derives (GExact t) t = true) by (apply ctype_eqb_eq; reflexivity).
  destruct (component_of (GExact t) t n r Hd En) as (k & E1 & E2). rewrite E1. f_equal.
  rewrite exact_components, nth_error_map in E2. destruct (nth_error (data t) k) as [r'|] eqn:Ek; [|discriminate]. injection E2 as E2 E3.
  destruct (create_sound ck data c Hc) as (HU & _ & _). apply (HU (fst r) t k t n); unfold record_at; [rewrite Ek; simpl; congruence|now rewrite En].
Qed.
Lemma number_unique g x k k' : number_of g x k -> number_of g x k' -> k = k'.
Proof.
  intros H H'. destruct (number_type g x k H) as (t & n & r & _ & Hn & Hx & Hk & _). destruct (number_type g x k' H') as (t' & n' & r' & _ & Hn' & Hx' & Hk' & _).
  destruct (create_sound ck data c Hc) as (HU & _ & _). destruct (HU x t n t' n') as [<- <-]; unfold record_at; [rewrite Hn; simpl; congruence|rewrite Hn'; simpl; congruence|congruence].
Qed.
Lemma exact_number t x n : number_of (GExact t) x n <-> option_map fst (nth_error (data t) n) = Some x.
Proof.
  unfold RegistrationSpec.number_of. rewrite exact_components, nth_error_map. destruct (nth_error (data t) n) as [r|]; simpl.
  - split; [intros (e & [= <-] & <-); reflexivity|intros [= <-]; eauto].
  - split; [intros (e & ? & _); discriminate|discriminate].
Qed.

Context {P LT : Type} (at_ : attributes P LT) (padd : P -> P -> P) (p0 : P) (popp : P -> P).

Definition bus_count (s : model_state (P := P) (LT := LT)) (g : nat) : nat := match nth_error (models (st_search s)) g with Some m => n_bus m | None => 0 end.
Record state_ok (s : model_state (P := P) (LT := LT)) : Prop := {
  ok_reg : registered data at_ (st_topo s) (st_conn s) (st_objects s);
  ok_att : all_attached (st_topo s) (st_conn s) (st_objects s) (st_search s) (st_coupled s);
  ok_energised : forall x, bus (st_search s) x <> None <-> energised padd p0 popp (st_topo s) (st_conn s) x;
  ok_bus : forall x g p, bus (st_search s) x = Some (g, p) -> g < length (models (st_search s)) /\ p < bus_count s g;
  ok_branch : forall ow g q, owner_pos (cp_branches (st_coupled s)) ow = Some (g, q) ->
    g < length (models (st_search s)) /\ q < length (branch_bus_idx (cp_branches (st_coupled s)) g);
  ok_user : st_user_to_topo s = map (fun i => (i, 0)) (seq 0 (n_node_total (st_topo s)));
  ok_nodes : st_topo_nodes s = map (fun i => [i]) (seq 0 (n_node_total (st_topo s))) }.

Section Build.
Variable sort : list (nat * nat) -> list (nat * nat).
Variable criterion : nat -> nat -> bool.
Hypothesis Hsort : sort_contract sort.
Lemma build_state_ok : exists s, build_state at_ c padd p0 popp sort criterion = Some s /\ state_ok s.
Proof.
  destruct (registered_ok ck data c Hc HL at_) as (t & o & cn & E1 & E2 & HR). pose proof (registered_wf data at_ t cn o HR) as wf.
  unfold build_state. rewrite E1, E2. unfold build_topology. destruct (C15_energised padd p0 popp t cn wf) as (st & E & HE & _). rewrite E.
  eexists. split; [reflexivity|]. constructor; cbn; auto.
  - apply (couple_all_attached padd p0 popp); auto.
  - apply (bus_range padd p0 popp t cn st wf E).
  - apply (branches_range padd p0 popp t cn st wf E).
Qed.
Lemma build_state_sound s : build_state at_ c padd p0 popp sort criterion = Some s -> state_ok s.
Proof. intros H. destruct build_state_ok as (s' & E & H'). congruence. Qed.
End Build.

(** ** positions in range *)
Section Range.
Variable s : model_state (P := P) (LT := LT).
Hypothesis OK : state_ok s.
Notation n_topo := (length (models (st_search s))).

Lemma attached_range n takes own gr cp k g q : attached n_topo n takes own gr cp -> (forall k g p, own k = Some (g, p) -> g < n_topo) ->
  k < n -> takes k -> cp k = Some (g, q) -> g < n_topo /\ q < element_size (gr g).
Proof.
  intros HA HO Hk Ht E. destruct (own k) as [[g' p']|] eqn:Eo; [|rewrite (att_off _ _ _ _ _ _ HA k Hk Ht Eo) in E; discriminate].
  destruct (att_own _ _ _ _ _ _ HA k g' p' Hk Ht Eo) as (q' & Eq & _). rewrite Eq in E. injection E as -> ->.
  pose proof (HO k g p' Eo) as Hg. split; auto. apply (att_dense _ _ _ _ _ _ HA g q Hg). eauto.
Qed.
Lemma at_node_range nodes k g p : at_node (st_search s) nodes k = Some (g, p) -> g < n_topo.
Proof. unfold at_node. destruct (nth_error nodes k); [|discriminate]. intros H. apply (ok_bus s OK) in H. tauto. Qed.
Lemma shunt_range k g q : k < length (shunt_node (st_objects s)) -> snd (shunts (st_coupled s)) k = Some (g, q) -> g < n_topo /\ q < element_size (fst (shunts (st_coupled s)) g).
Proof. intros Hk. apply (attached_range _ _ _ _ _ k g q (aa_shunts _ _ _ _ _ (ok_att s OK))); auto. apply at_node_range. Qed.
Lemma load_gen_range k g q : k < length (load_gen_node (st_objects s)) -> snd (load_gens (st_coupled s)) k = Some (g, q) -> g < n_topo /\ q < element_size (fst (load_gens (st_coupled s)) g).
Proof. intros Hk. apply (attached_range _ _ _ _ _ k g q (aa_load_gens _ _ _ _ _ (ok_att s OK))); auto. apply at_node_range. Qed.
Lemma source_range k g q : k < length (source_node_idx (st_topo s)) -> snd (sources (st_coupled s)) k = Some (g, q) -> g < n_topo /\ q < element_size (fst (sources (st_coupled s)) g).
Proof.
  intros Hk E. apply (attached_range _ _ _ _ _ k g q (aa_sources _ _ _ _ _ (ok_att s OK))); auto; [apply at_node_range|].
  destruct (nth_error (source_connected (st_conn s)) k) as [[]|] eqn:Es; auto; rewrite (aa_sources_off _ _ _ _ _ (ok_att s OK) k) in E; congruence.
Qed.

Notation nodes_total := (n_node_total (st_topo s)).
Lemma node_total x i : number_of (GExact Node) x i -> i < nodes_total.
Proof. intros H. apply number_node in H. pose proof (rg_node _ _ _ _ _ (ok_reg s OK)) as E. unfold n_node_total. lia. Qed.
Lemma user_topo i : i < nodes_total -> nth_error (st_user_to_topo s) i = Some (i, 0).
Proof. intros H. rewrite (ok_user s OK), nth_error_map. destruct (nth_error (seq 0 nodes_total) i) as [j|] eqn:E; [|apply nth_error_None in E; rewrite seq_length in E; lia]. apply nth_seq in E as [_ ->]. reflexivity. Qed.

(** ** records *)
Context {V R : Type}.
Notation shown := (shown V R).
Notation solver_out := (solver_out V R).

Definition produced (t : ctype) (func : centry -> nat -> option shown) (l : list (centry * shown)) : Prop :=
  map fst l = components (GExact t) /\ forall n e sh, nth_error l n = Some (e, sh) <-> nth_error (components (GExact t)) n = Some e /\ func e n = Some sh.
Lemma Forall2_combine (l : list centry) (func : centry -> nat -> option shown) : forall b l',
  Forall2 (fun ne es => option_map (pair (snd ne)) (func (snd ne) (fst ne)) = Some es) (combine (seq b (length l)) l) l' ->
  map fst l' = l /\ forall n e sh, nth_error l' n = Some (e, sh) <-> nth_error l n = Some e /\ func e (b + n) = Some sh.
Proof.
  induction l as [|a l IH]; intros b l' H; inversion H; subst.
  - split; auto. intros [|n]; simpl; intuition discriminate.
  - cbn [fst snd] in *. destruct (func a b) as [sh0|] eqn:E; [|discriminate]. simpl in H2. injection H2 as <-. destruct (IH _ _ H4) as [I1 I2]. split; [simpl; congruence|].
    intros [|n] e sh; simpl.
    + rewrite Nat.add_0_r. split; [intros [= -> ->]; auto|intros [[= ->] E']; congruence].
    + rewrite I2. now rewrite <- Nat.add_succ_comm.
Qed.
Lemma produce_some t func l : produce_output c t func = Some l -> produced t func l.
Proof.
  unfold produce_output. rewrite (citer_components ck data c Hc). simpl. rewrite (size_components ck data c Hc). intros H. apply mapO_some in H.
  apply (Forall2_combine _ _ 0) in H. exact H.
Qed.
Lemma produce_ok t func : (forall n r, nth_error (data t) n = Some r -> exists sh, func (mkEntry t (fst r) (snd r)) n = Some sh) ->
  exists l, produce_output c t func = Some l /\ produced t func l.
Proof.
  intros H. destruct (produce_output c t func) as [l|] eqn:E; [exists l; split; auto; now apply produce_some|]. exfalso.
  unfold produce_output in E. rewrite (citer_components ck data c Hc) in E. simpl in E. rewrite (size_components ck data c Hc) in E.
  destruct (mapO_ok (fun ne => option_map (pair (snd ne)) (func (snd ne) (fst ne))) (combine (seq 0 (length (components (GExact t)))) (components (GExact t)))) as (l & E' & _); [|congruence].
  intros [n e] Hin. apply In_nth_error in Hin as [i Hi]. apply nth_combine in Hi as [H1 H2]. apply nth_seq in H1 as [_ ->]. cbn [Nat.add] in *. rewrite exact_components, nth_error_map in H2.
  destruct (nth_error (data t) i) as [r|] eqn:Er; [|discriminate]. injection H2 as <-. destruct (H i r Er) as [sh Esh]. simpl. rewrite Esh. simpl. eauto.
Qed.
Lemma produced_at t func l n r : produced t func l -> nth_error (data t) n = Some r ->
  exists sh, nth_error l n = Some (mkEntry t (fst r) (snd r), sh) /\ func (mkEntry t (fst r) (snd r)) n = Some sh.
Proof.
  intros [H1 H2] Hn. assert (E : nth_error (map fst l) n = Some (mkEntry t (fst r) (snd r))) by (rewrite H1, exact_components, nth_error_map, Hn; reflexivity).
  rewrite nth_error_map in E. destruct (nth_error l n) as [[e sh]|] eqn:El; [|discriminate]. injection E as E. cbn [fst] in E. subst e. apply H2 in El as [_ El]. eauto.
Qed.

(** ** short circuit *)
Section ShortCircuit.
Variable sc : list (sc_out V).
Hypothesis SZ : sc_sized s sc.
Lemma sc_look {B} (f : sc_out V -> list B) (n : nat -> nat) g p : g < n_topo -> p < n g ->
  (forall m mg, nth_error sc g = Some m -> nth_error (models (st_search s)) g = Some mg -> length (f m) = n g) -> exists b, look sc f g p = Some b.
Proof.
  intros Hg Hp H. unfold look. destruct (nth_error sc g) as [m|] eqn:E; [|apply nth_error_None in E; rewrite (ssz_models s sc SZ) in E; lia].
  destruct (nth_error (models (st_search s)) g) as [mg|] eqn:E2; [|apply nth_error_None in E2; lia].
  destruct (nth_error (f m) p) eqn:E3; [eauto|]. apply nth_error_None in E3. rewrite (H m mg) in E3; auto. lia.
Qed.
Lemma sc_look_u x g p : bus (st_search s) x = Some (g, p) -> exists u, look sc (@sc_u V) g p = Some u.
Proof.
  intros H. destruct (ok_bus s OK x g p H) as [Hg Hp]. apply (sc_look _ (bus_count s)); auto. intros m mg E1 E2.
  unfold bus_count. rewrite E2. apply (ssz_each s sc SZ g m mg E1 E2).
Qed.
Lemma sc_look_branch ow g q : owner_pos (cp_branches (st_coupled s)) ow = Some (g, q) -> exists b, look sc (@sc_branch V) g q = Some b.
Proof.
  intros H. destruct (ok_branch s OK ow g q H) as [Hg Hq]. apply (sc_look _ (fun g => length (branch_bus_idx (cp_branches (st_coupled s)) g))); auto.
  intros m mg E1 E2. apply (ssz_each s sc SZ g m mg E1 E2).
Qed.
Lemma sc_look_source k g q : k < length (source_node_idx (st_topo s)) -> snd (sources (st_coupled s)) k = Some (g, q) -> exists b, look sc (@sc_source V) g q = Some b.
Proof.
  intros Hk H. destruct (source_range k g q Hk H) as [Hg Hq]. apply (sc_look _ (fun g => element_size (fst (sources (st_coupled s)) g))); auto.
  intros m mg E1 E2. apply (ssz_each s sc SZ g m mg E1 E2).
Qed.
Lemma sc_look_shunt k g q : k < length (shunt_node (st_objects s)) -> snd (shunts (st_coupled s)) k = Some (g, q) -> exists b, look sc (@sc_shunt V) g q = Some b.
Proof.
  intros Hk H. destruct (shunt_range k g q Hk H) as [Hg Hq]. apply (sc_look _ (fun g => element_size (fst (shunts (st_coupled s)) g))); auto.
  intros m mg E1 E2. apply (ssz_each s sc SZ g m mg E1 E2).
Qed.
Lemma sc_value_at {B} (f : sc_out V -> list B) (mk : B -> shown) place : (forall g p, place = Some (g, p) -> exists b, look sc f g p = Some b) ->
  match place with None => sc_output_at sc f mk place = Some Null | Some (g, p) => exists b, look sc f g p = Some b /\ sc_output_at sc f mk place = Some (mk b) end.
Proof. intros H. unfold sc_output_at. destruct place as [[g p]|]; [|auto]. destruct (H g p eq_refl) as [b ->]. simpl. eauto. Qed.
Lemma sc_branch3_values k g p1 p2 p3 : branch3_coupling (cp_branches (st_coupled s)) k = Some (g, (p1, p2, p3)) ->
  exists b1 b2 b3, look sc (@sc_branch V) g p1 = Some b1 /\ look sc (@sc_branch V) g p2 = Some b2 /\ look sc (@sc_branch V) g p3 = Some b3.
Proof.
  intros H. destruct (sc_look_branch (From_branch3 k Side1) g p1) as [b1 E1]; [simpl; now rewrite H|]. destruct (sc_look_branch (From_branch3 k Side2) g p2) as [b2 E2]; [simpl; now rewrite H|].
  destruct (sc_look_branch (From_branch3 k Side3) g p3) as [b3 E3]; [simpl; now rewrite H|]. eauto 10.
Qed.
Variable fc : list Coupling.idx2d.
Hypothesis FL : length fc = length (data Fault).
Hypothesis FR : forall n g q, nth_error fc n = Some (Some (g, q)) -> exists i, look sc (@sc_fault V) g q = Some i.
Notation sres := (sc_output_result (R := R) c s sc fc).
Notation sshows := (OutputSpec.shows sres).
Definition sfunc (t : ctype) (e : centry) (n : nat) : option shown :=
  let base g (f : nat -> option shown) := bindO (base_index c g t n) f in
  match t with
  | Node => bindO (nth_error (st_user_to_topo s) n) (fun topo_id => sc_output_at sc (@sc_u V) S_sc_node (bus (st_search s) (fst topo_id)))
  | Line | AsymLine | Link | GenericBranch | Transformer =>
      base GBranch (fun k => sc_output_at sc (@sc_branch V) S_sc_branch (branch_coupling (cp_branches (st_coupled s)) k))
  | ThreeWindingTransformer => base GBranch3 (fun k => sc_output_branch3 sc (branch3_coupling (cp_branches (st_coupled s)) k))
  | Shunt => sc_output_at sc (@sc_shunt V) S_sc_appliance (snd (shunts (st_coupled s)) n)
  | Source => sc_output_at sc (@sc_source V) S_sc_appliance (snd (sources (st_coupled s)) n)
  | Fault => bindO (nth_error fc n) (sc_output_fault sc e)
  | _ => Some Null
  end.
Lemma sres_produce t : sres t = produce_output c t (sfunc t).
Proof. destruct t; reflexivity. Qed.
Lemma sfunc_defined t n r : nth_error (data t) n = Some r -> exists sh, sfunc t (mkEntry t (fst r) (snd r)) n = Some sh.
Proof.
  intros Hn. pose proof (ok_reg s OK) as [R1 R2 R3 R4 R5 R6 R7 R8 R9 R10 R11 _ _ _ _ _].
  assert (Hlt : n < length (data t)) by (apply nth_error_Some; congruence).
  assert (HB : forall g, derives g t = true -> exists k, base_index c g t n = Some k /\ nth_error (components g) k = Some (mkEntry t (fst r) (snd r)) /\ k < length (components g)).
  { intros g Hd. destruct (component_of g t n r Hd Hn) as (k & E1 & E2). exists k. repeat split; auto. apply nth_error_Some. congruence. }
  assert (HA : forall B (f : sc_out V -> list B) (mk : B -> shown) place, (forall g p, place = Some (g, p) -> exists b, look sc f g p = Some b) -> exists sh, sc_output_at sc f mk place = Some sh).
  { intros B f mk place H. pose proof (sc_value_at f mk place H) as X. destruct place as [[g p]|]; [destruct X as (b & _ & X)|]; eauto. }
  destruct t; unfold sfunc; eauto; try (destruct (HB GBranch eq_refl) as (k & -> & E2 & Hk); cbn [bindO]; apply HA; intros g p H; apply (sc_look_branch (From_branch k)); exact H).
  - rewrite user_topo by (unfold n_node_total; lia). cbn [bindO fst]. apply HA. apply sc_look_u.
  - destruct (HB GBranch3 eq_refl) as (k & -> & E2 & Hk). cbn [bindO]. unfold sc_output_branch3. destruct (branch3_coupling _ k) as [[g [[q1 q2] q3]]|] eqn:E; [|eauto].
    destruct (sc_branch3_values _ _ _ _ _ E) as (b1 & b2 & b3 & -> & -> & ->). simpl. eauto.
  - apply HA. intros g p. apply sc_look_shunt. rewrite <- (Forall2_same_len _ _ _ R5), exact_components, map_length. exact Hlt.
  - apply HA. intros g p. apply sc_look_source. rewrite <- (Forall2_same_len _ _ _ R4), exact_components, map_length. exact Hlt.
  - destruct (nth_error fc n) as [pl|] eqn:Ep; [|apply nth_error_None in Ep; lia]. cbn [bindO]. unfold sc_output_fault. cbn [e_in].
    assert (HX : layout_ok Fault (snd r)) by (apply HL; eapply nth_error_In; eauto). destruct (snd r); try destruct HX. apply HA. intros g p ->. eapply FR; eauto.
Qed.
Lemma sres_defined t : exists l, sres t = Some l /\ map (fun es => (e_id (fst es), e_in (fst es))) l = data t.
Proof.
  destruct (produce_ok t (sfunc t)) as (l & E & HP & _); [intros n r; now apply sfunc_defined|]. exists l. rewrite sres_produce. split; auto.
  rewrite <- (map_map fst (fun e => (e_id e, e_in e))), HP, exact_components, map_map. rewrite <- (map_id (data t)) at 2. apply map_ext. intros []. reflexivity.
Qed.
Lemma sshows_record t n r sh : nth_error (data t) n = Some r -> sfunc t (mkEntry t (fst r) (snd r)) n = Some sh -> sshows (fst r) sh.
Proof.
  intros Hn Hf. destruct (sres_defined t) as (l & Hl & _). pose proof Hl as Hl'. rewrite sres_produce in Hl. pose proof (produce_some _ _ _ Hl) as HP. destruct (produced_at _ _ _ _ _ HP Hn) as (sh' & E1 & E2).
  exists t, l, n, (mkEntry t (fst r) (snd r)). repeat split; auto. congruence.
Qed.
Lemma sshows_unique id a b : sshows id a -> sshows id b -> a = b.
Proof.
  assert (X : forall a, sshows id a -> exists t n r, nth_error (data t) n = Some r /\ fst r = id /\ sfunc t (mkEntry t (fst r) (snd r)) n = Some a).
  { intros a0 (t & l & n & e & Hl & Hn & He). rewrite sres_produce in Hl. apply produce_some in Hl as [_ HP]. apply HP in Hn as [H1 H2].
    rewrite exact_components, nth_error_map in H1. destruct (nth_error (data t) n) as [r|] eqn:Er; [|discriminate]. injection H1 as <-. exists t, n, r. auto. }
  intros Ha Hb. destruct (X a Ha) as (t & n & r & H1 & H2 & H3). destruct (X b Hb) as (t' & n' & r' & H1' & H2' & H3').
  destruct (create_sound ck data c Hc) as (HU & _ & _). destruct (HU id t n t' n') as [<- <-]; unfold record_at; [rewrite H1; simpl; congruence|rewrite H1'; simpl; congruence|]. congruence.
Qed.
Lemma sshows_kind g F : (forall t, derives g t = true -> forall n e, n < length (data t) -> sfunc t e n = bindO (base_index c g t n) F) ->
  forall id k sh, number_of g id k -> F k = Some sh -> sshows id sh.
Proof.
  intros HF id k sh H E. destruct (number_type g id k H) as (t & n & r & Hd & Hn & <- & E1 & E2). apply (sshows_record t n); auto.
  rewrite (HF t Hd), E1 by (apply nth_error_Some; congruence). exact E.
Qed.
End ShortCircuit.

Variable sol : list solver_out.
Hypothesis SZ : sized s sol.
Lemma look_model {B} (f : solver_out -> list B) (n : nat -> nat) g p : g < n_topo -> p < n g ->
  (forall m mg, nth_error sol g = Some m -> nth_error (models (st_search s)) g = Some mg -> length (f m) = n g) -> exists b, look sol f g p = Some b.
Proof.
  intros Hg Hp H. unfold look. destruct (nth_error sol g) as [m|] eqn:E; [|apply nth_error_None in E; rewrite (sz_models s sol SZ) in E; lia].
  destruct (nth_error (models (st_search s)) g) as [mg|] eqn:E2; [|apply nth_error_None in E2; lia].
  destruct (nth_error (f m) p) eqn:E3; [eauto|]. apply nth_error_None in E3. rewrite (H m mg) in E3; auto. lia.
Qed.
Lemma look_u x g p : bus (st_search s) x = Some (g, p) -> exists u, look sol (@so_u V R) g p = Some u.
Proof.
  intros H. destruct (ok_bus s OK x g p H) as [Hg Hp]. apply (look_model _ (bus_count s)); auto. intros m mg E1 E2.
  unfold bus_count. rewrite E2. apply (sz_each s sol SZ g m mg E1 E2).
Qed.
Lemma look_injection x g p : bus (st_search s) x = Some (g, p) -> exists u, look sol (@so_injection V R) g p = Some u.
Proof.
  intros H. destruct (ok_bus s OK x g p H) as [Hg Hp]. apply (look_model _ (bus_count s)); auto. intros m mg E1 E2.
  unfold bus_count. rewrite E2. apply (sz_each s sol SZ g m mg E1 E2).
Qed.
Lemma look_branch ow g q : owner_pos (cp_branches (st_coupled s)) ow = Some (g, q) -> exists b, look sol (@so_branch V R) g q = Some b.
Proof.
  intros H. destruct (ok_branch s OK ow g q H) as [Hg Hq]. apply (look_model _ (fun g => length (branch_bus_idx (cp_branches (st_coupled s)) g))); auto.
  intros m mg E1 E2. apply (sz_each s sol SZ g m mg E1 E2).
Qed.
Lemma look_source k g q : k < length (source_node_idx (st_topo s)) -> snd (sources (st_coupled s)) k = Some (g, q) -> exists b, look sol (@so_source V R) g q = Some b.
Proof.
  intros Hk H. destruct (source_range k g q Hk H) as [Hg Hq]. apply (look_model _ (fun g => element_size (fst (sources (st_coupled s)) g))); auto.
  intros m mg E1 E2. apply (sz_each s sol SZ g m mg E1 E2).
Qed.
Lemma look_shunt k g q : k < length (shunt_node (st_objects s)) -> snd (shunts (st_coupled s)) k = Some (g, q) -> exists b, look sol (@so_shunt V R) g q = Some b.
Proof.
  intros Hk H. destruct (shunt_range k g q Hk H) as [Hg Hq]. apply (look_model _ (fun g => element_size (fst (shunts (st_coupled s)) g))); auto.
  intros m mg E1 E2. apply (sz_each s sol SZ g m mg E1 E2).
Qed.
Lemma look_load_gen k g q : k < length (load_gen_node (st_objects s)) -> snd (load_gens (st_coupled s)) k = Some (g, q) -> exists b, look sol (@so_load_gen V R) g q = Some b.
Proof.
  intros Hk H. destruct (load_gen_range k g q Hk H) as [Hg Hq]. apply (look_model _ (fun g => element_size (fst (load_gens (st_coupled s)) g))); auto.
  intros m mg E1 E2. apply (sz_each s sol SZ g m mg E1 E2).
Qed.

(** ** injections *)
Context (vadd : V -> V -> V) (v0 : V).
Definition wrap (vals : list V) : list (list V) := map (fun x => [x]) vals.
Definition add_all (vals : list V) (evs : list (nat * V)) : list V :=
  fold_left (fun vals iv => upd (fst iv) (vadd (nth (fst iv) vals v0) (snd iv)) vals) evs vals.
Lemma add_all_length evs : forall vals, length (add_all vals evs) = length vals.
Proof. induction evs as [|[i v] evs IH]; intros vals; simpl; auto. unfold add_all in *. simpl. rewrite IH. apply upd_length. Qed.
Lemma add_all_app vals a b : add_all vals (a ++ b) = add_all (add_all vals a) b.
Proof. apply fold_left_app. Qed.
Lemma add_all_nth evs : forall vals j, (forall iv, In iv evs -> fst iv < length vals) ->
  nth j (add_all vals evs) v0 = fold_left vadd (map snd (filter (fun iv => fst iv =? j) evs)) (nth j vals v0).
Proof.
  induction evs as [|[i v] evs IH]; intros vals j H; simpl; auto. unfold add_all in *. simpl. rewrite IH.
  - pose proof (H (i, v) (or_introl eq_refl)) as Hi. simpl in Hi. destruct (i =? j) eqn:E; simpl.
    + apply Nat.eqb_eq in E. subst j. now rewrite nth_upd_eq.
    + apply Nat.eqb_neq in E. now rewrite nth_upd_neq by auto.
  - intros iv Hi. rewrite upd_length. apply H. now right.
Qed.
Lemma accumulate_ok vals i v : i < length vals -> accumulate vadd (wrap vals) (i, 0) v = Some (wrap (add_all vals [(i, v)])).
Proof.
  intros Hi. unfold accumulate, wrap. cbn [fst snd]. rewrite nth_error_map. destruct (nth_error vals i) as [x|] eqn:E; [|apply nth_error_None in E; lia]. simpl.
  f_equal. rewrite (nth_error_nth _ _ v0 E). clear Hi E. revert i. induction vals as [|y vals IH]; intros [|i]; simpl; auto. now rewrite IH.
Qed.
Lemma foldM_events (step : list (list V) -> nat -> option (list (list V))) (ev : nat -> list (nat * V)) len ns :
  (forall n, In n ns -> forall vals, length vals = len -> step (wrap vals) n = Some (wrap (add_all vals (ev n)))) ->
  forall vals, length vals = len -> foldM_opt step ns (wrap vals) = Some (wrap (add_all vals (flat_map ev ns))).
Proof.
  induction ns as [|n ns IH]; intros H vals Hl; simpl; auto. rewrite (H n (or_introl eq_refl)) by auto. rewrite IH.
  - now rewrite <- add_all_app.
  - intros n' Hn'. apply H. now right.
  - now rewrite add_all_length.
Qed.

Lemma appliance_facts t n r : In t injection_types -> nth_error (data t) n = Some r ->
  exists k x i, base_index c (appliance_base t) t n = Some k /\ snd r = IAppliance x /\ nth_error (appliance_nodes s t) k = Some i /\ number_of (GExact Node) x i /\
    nth_error (components (appliance_base t)) k = Some (mkEntry t (fst r) (snd r)) /\
    (forall g p, appliance_coupling s t k = Some (g, p) -> exists a, appliance_output sol t g p = Some a).
Proof.
  intros Ht Hn. assert (Hd : derives (appliance_base t) t = true) by (simpl in Ht; intuition subst; reflexivity).
  destruct (component_of _ _ _ _ Hd Hn) as (k & E1 & E2). pose proof (ok_reg s OK) as [_ _ _ R4 _ R6 _ _ _ _ _ _ _ _ _ _].
  assert (HF : Forall2 (fun e i => exists n, e_in e = IAppliance n /\ number_of (GExact Node) n i) (components (appliance_base t)) (appliance_nodes s t))
    by (simpl in Ht; intuition subst; auto).
  destruct (Forall2_nth_l _ _ _ _ _ HF E2) as (i & Ei & x & Ex & Hx). exists k, x, i. repeat (split; auto).
  intros g p Hp. assert (Hk : k < length (appliance_nodes s t)) by (apply nth_error_Some; congruence).
  unfold appliance_output. destruct Ht as [<-|[<-|[<-|[<-|[<-|[]]]]]]; first [exact (look_source k g p Hk Hp)|exact (look_load_gen k g p Hk Hp)].
Qed.
Definition event (t : ctype) (n : nat) : list (nat * V) :=
  match base_index c (appliance_base t) t n with
  | Some k => match appliance_coupling s t k with
              | Some (g, p) => match appliance_output sol t g p, nth_error (appliance_nodes s t) k with Some out, Some i => [(i, a_s out)] | _, _ => [] end
              | None => [] end
  | None => [] end.
Definition events (t : ctype) : list (nat * V) := flat_map (event t) (seq 0 (length (data t))).
Lemma size_exact t : size_of (is_base (GExact t)) c = length (data t).
Proof. rewrite (size_components ck data c Hc), exact_components. apply map_length. Qed.
Lemma event_node t n iv : In t injection_types -> n < length (data t) -> In iv (event t n) -> fst iv < nodes_total.
Proof.
  intros Ht Hn. destruct (nth_error (data t) n) as [r|] eqn:En; [|apply nth_error_None in En; lia].
  destruct (appliance_facts t n r Ht En) as (k & x & i & E1 & E2 & E3 & E4 & _ & E5). unfold event. rewrite E1, E3.
  destruct (appliance_coupling s t k) as [[g p]|] eqn:Ec; [|intros []]. destruct (E5 g p eq_refl) as [a Ea]. rewrite Ea. intros [<-|[]]. simpl. eapply node_total; eauto.
Qed.
Lemma add_appliance_ok t vals : In t injection_types -> length vals = nodes_total ->
  add_appliance_injection vadd c s sol (wrap vals) t = Some (wrap (add_all vals (events t))).
Proof.
  intros Ht Hl. unfold add_appliance_injection. rewrite size_exact. apply foldM_events with (len := nodes_total); auto.
  intros n Hn vals' Hl'. apply in_seq in Hn. destruct (nth_error (data t) n) as [r|] eqn:En; [|apply nth_error_None in En; lia].
  destruct (appliance_facts t n r Ht En) as (k & x & i & E1 & E2 & E3 & E4 & _ & E5). unfold event. rewrite E1. cbn [bindO]. rewrite E3. cbn [bindO].
  destruct (appliance_coupling s t k) as [[g p]|] eqn:Ec; [|reflexivity]. destruct (E5 g p eq_refl) as [a Ea]. rewrite Ea. cbn [bindO].
  pose proof (node_total _ _ E4) as Hi. rewrite (user_topo i Hi). cbn [bindO]. apply accumulate_ok. lia.
Qed.
Definition totals : list V := add_all (repeat v0 nodes_total) (flat_map events injection_types).
Lemma solve_ok : solve_topological_nodes vadd v0 c s sol = Some (wrap totals).
Proof.
  unfold solve_topological_nodes, totals. rewrite (ok_nodes s OK), map_map. cbn [map].
  assert (E : map (fun _ => [v0]) (seq 0 nodes_total) = wrap (repeat v0 nodes_total)).
  { unfold wrap. generalize 0 at 1. induction nodes_total as [|k IH]; intros b; simpl; auto. now rewrite IH. }
  rewrite E. assert (X : forall l vals, length vals = nodes_total -> (forall t, In t l -> In t injection_types) ->
    foldM_opt (add_appliance_injection vadd c s sol) l (wrap vals) = Some (wrap (add_all vals (flat_map events l)))).
  { induction l as [|t l IH]; intros vals Hl Hall; [reflexivity|].
    cbn [foldM_opt flat_map]. rewrite (add_appliance_ok t vals) by (auto; apply Hall; now left). rewrite IH.
    - now rewrite <- add_all_app.
    - now rewrite add_all_length.
    - intros t' Ht'. apply Hall. now right. }
  apply X; auto. apply repeat_length.
Qed.
Lemma total_at i : i < nodes_total -> nth_error (wrap totals) i = Some [fold_left vadd (map snd (filter (fun iv => fst iv =? i) (flat_map events injection_types))) v0].
Proof.
  intros Hi. unfold wrap. rewrite nth_error_map. destruct (nth_error totals i) as [v|] eqn:E.
  - simpl. rewrite <- (nth_error_nth _ _ v0 E). unfold totals. rewrite add_all_nth.
    + do 2 f_equal. f_equal. revert Hi. clear. revert i. induction nodes_total as [|k IH]; intros [|i] H; simpl; auto; try lia. apply IH. lia.
    + intros iv H. rewrite repeat_length. apply in_flat_map in H as (t & Ht & H). apply in_flat_map in H as (n & Hn & H). apply in_seq in Hn. eapply event_node; eauto. lia.
  - apply nth_error_None in E. unfold totals in E. rewrite add_all_length, repeat_length in E. lia.
Qed.

(** ** the records of each type *)
Variable taps : list (Z * Z).
Notation res := (results vadd v0 c s sol taps).
Notation shows := (shows res).
Definition func (t : ctype) (e : centry) (n : nat) : option shown :=
  let base g (f : centry -> nat -> option shown) := bindO (base_index c g t n) (f e) in
  match t with
  | Node => output_node s sol (wrap totals) n
  | Line | AsymLine | Link | GenericBranch | Transformer =>
      base GBranch (fun _ k => output_at sol (@so_branch V R) S_branch (branch_coupling (cp_branches (st_coupled s)) k))
  | ThreeWindingTransformer => base GBranch3 (fun _ k => output_branch3 sol (branch3_coupling (cp_branches (st_coupled s)) k))
  | Shunt => output_at sol (@so_shunt V R) S_appliance (snd (shunts (st_coupled s)) n)
  | Source => output_at sol (@so_source V R) S_appliance (snd (sources (st_coupled s)) n)
  | SymGenerator | AsymGenerator | SymLoad | AsymLoad =>
      base GGenericLoadGen (fun _ k => output_at sol (@so_load_gen V R) S_appliance (snd (load_gens (st_coupled s)) k))
  | SymVoltageSensor | AsymVoltageSensor =>
      base GGenericVoltageSensor (fun _ k => bindO (nth_error (voltage_sensor_node (st_objects s)) k) (output_voltage_sensor s sol))
  | SymPowerSensor | AsymPowerSensor =>
      base GGenericPowerSensor (fun _ k => bindO (nth_error (power_sensors (st_objects s)) k) (fun ot => output_power_sensor s sol (snd ot) (fst ot)))
  | SymCurrentSensor | AsymCurrentSensor =>
      base GGenericCurrentSensor (fun _ k => bindO (nth_error (current_sensors (st_objects s)) k) (fun ot => output_current_sensor c s sol (snd ot) (fst ot)))
  | Fault => Some Null
  | TransformerTapRegulator => base GRegulator (fun e _ => output_tap_regulator taps e)
  | VoltageRegulator =>
      base GRegulator (fun e k => bindO (nth_error (regulators (st_objects s)) k) (fun ob => output_voltage_regulator s sol e (fst ob)))
  end.
Lemma res_produce t : res t = produce_output c t (func t).
Proof. unfold results. rewrite solve_ok. destruct t; reflexivity. Qed.

Lemma shows_record t l n r sh : res t = Some l -> nth_error (data t) n = Some r -> func t (mkEntry t (fst r) (snd r)) n = Some sh -> shows (fst r) sh.
Proof.
  intros Hl Hn Hf. rewrite res_produce in Hl. pose proof (produce_some _ _ _ Hl) as HP. destruct (produced_at _ _ _ _ _ HP Hn) as (sh' & E1 & E2).
  exists t, l, n, (mkEntry t (fst r) (snd r)). rewrite res_produce. repeat split; auto. congruence.
Qed.
Lemma shows_func id sh : shows id sh -> exists t n r, nth_error (data t) n = Some r /\ fst r = id /\ func t (mkEntry t (fst r) (snd r)) n = Some sh.
Proof.
  intros (t & l & n & e & Hl & Hn & He). rewrite res_produce in Hl. apply produce_some in Hl as [_ HP]. apply HP in Hn as [H1 H2].
  rewrite exact_components, nth_error_map in H1. destruct (nth_error (data t) n) as [r|] eqn:Er; [|discriminate]. injection H1 as <-. exists t, n, r. auto.
Qed.
Lemma shows_unique id a b : shows id a -> shows id b -> a = b.
Proof.
  intros Ha Hb. destruct (shows_func id a Ha) as (t & n & r & H1 & H2 & H3). destruct (shows_func id b Hb) as (t' & n' & r' & H1' & H2' & H3').
  destruct (create_sound ck data c Hc) as (HU & _ & _). destruct (HU id t n t' n') as [<- <-]; unfold record_at; [rewrite H1; simpl; congruence|rewrite H1'; simpl; congruence|]. congruence.
Qed.

(** positions lead to values *)
Lemma value_at {B} (f : solver_out -> list B) (mk : B -> shown) place : (forall g p, place = Some (g, p) -> exists b, look sol f g p = Some b) ->
  exists sh, output_at sol f mk place = Some sh.
Proof. intros H. unfold output_at. destruct place as [[g p]|]; [|eauto]. destruct (H g p eq_refl) as [b ->]. simpl. eauto. Qed.
Lemma branch_value k : exists sh, output_at sol (@so_branch V R) S_branch (branch_coupling (cp_branches (st_coupled s)) k) = Some sh.
Proof. apply value_at. intros g p H. apply (look_branch (From_branch k)). exact H. Qed.
Lemma branch3_values k g p1 p2 p3 : branch3_coupling (cp_branches (st_coupled s)) k = Some (g, (p1, p2, p3)) ->
  exists b1 b2 b3, look sol (@so_branch V R) g p1 = Some b1 /\ look sol (@so_branch V R) g p2 = Some b2 /\ look sol (@so_branch V R) g p3 = Some b3.
Proof.
  intros H. destruct (look_branch (From_branch3 k Side1) g p1) as [b1 E1]; [simpl; now rewrite H|]. destruct (look_branch (From_branch3 k Side2) g p2) as [b2 E2]; [simpl; now rewrite H|].
  destruct (look_branch (From_branch3 k Side3) g p3) as [b3 E3]; [simpl; now rewrite H|]. eauto 10.
Qed.
Lemma branch3_value k : exists sh, output_branch3 sol (branch3_coupling (cp_branches (st_coupled s)) k) = Some sh.
Proof.
  unfold output_branch3. destruct (branch3_coupling _ k) as [[g [[p1 p2] p3]]|] eqn:E; [|eauto].
  destruct (branch3_values _ _ _ _ _ E) as (b1 & b2 & b3 & -> & -> & ->). simpl. eauto.
Qed.
Lemma node_value i : i < nodes_total -> exists sh, output_node s sol (wrap totals) i = Some sh.
Proof.
  intros Hi. unfold output_node. rewrite (user_topo i Hi). cbn [bindO fst snd]. destruct (bus (st_search s) i) as [[g p]|] eqn:E; [|eauto].
  destruct (look_u i g p E) as [u ->]. cbn [bindO]. rewrite (total_at i Hi). simpl. eauto.
Qed.
Lemma voltage_value i : exists sh, output_voltage_sensor s sol i = Some sh.
Proof. apply value_at. apply look_u. Qed.

Lemma length_source : length (components (GExact Source)) = length (source_node_idx (st_topo s)).
Proof. apply (Forall2_same_len _ _ _ (rg_source _ _ _ _ _ (ok_reg s OK))). Qed.
Lemma length_shunt : length (components (GExact Shunt)) = length (shunt_node (st_objects s)).
Proof. apply (Forall2_same_len _ _ _ (rg_shunt _ _ _ _ _ (ok_reg s OK))). Qed.
Lemma length_load_gen : length (components GGenericLoadGen) = length (load_gen_node (st_objects s)).
Proof. apply (Forall2_same_len _ _ _ (rg_load_gen _ _ _ _ _ (ok_reg s OK))). Qed.
Lemma number_lt g x k : number_of g x k -> k < length (components g).
Proof. intros (e & H & _). apply nth_error_Some. congruence. Qed.
Lemma source_value k : k < length (components (GExact Source)) -> exists sh, output_at sol (@so_source V R) S_appliance (snd (sources (st_coupled s)) k) = Some sh.
Proof. intros Hk. rewrite length_source in Hk. apply value_at. intros g p. now apply look_source. Qed.
Lemma shunt_value k : k < length (components (GExact Shunt)) -> exists sh, output_at sol (@so_shunt V R) S_appliance (snd (shunts (st_coupled s)) k) = Some sh.
Proof. intros Hk. rewrite length_shunt in Hk. apply value_at. intros g p. now apply look_shunt. Qed.
Lemma load_gen_value k : k < length (components GGenericLoadGen) -> exists sh, output_at sol (@so_load_gen V R) S_appliance (snd (load_gens (st_coupled s)) k) = Some sh.
Proof. intros Hk. rewrite length_load_gen in Hk. apply value_at. intros g p. now apply look_load_gen. Qed.

Lemma object_value ty k g p : k < length (components (measured_kind ty)) -> object_place s ty k = Some (g, p) ->
  match ty with
  | T_branch_from | T_branch_to | T_branch3_1 | T_branch3_2 | T_branch3_3 => exists b, look sol (@so_branch V R) g p = Some b
  | T_source => exists b, look sol (@so_source V R) g p = Some b
  | T_shunt => exists b, look sol (@so_shunt V R) g p = Some b
  | T_load | T_generator => exists b, look sol (@so_load_gen V R) g p = Some b
  | T_node => exists b, look sol (@so_injection V R) g p = Some b
  end.
Proof.
  intros Hk. unfold object_place. destruct ty; cbn [measured_kind] in Hk; intros H;
    try (apply (look_branch (From_branch k)); exact H);
    try (destruct (branch3_coupling _ k) as [[g' ps]|] eqn:E; [|discriminate]; cbn [option_map fst snd] in H; injection H as <- <-);
    [rewrite length_source in Hk; now apply (look_source k)|rewrite length_shunt in Hk; now apply (look_shunt k)|rewrite length_load_gen in Hk; now apply (look_load_gen k)|
     rewrite length_load_gen in Hk; now apply (look_load_gen k)| | | |now apply (look_injection k)].
  - apply (look_branch (From_branch3 k Side1)). simpl. now rewrite E.
  - apply (look_branch (From_branch3 k Side2)). simpl. now rewrite E.
  - apply (look_branch (From_branch3 k Side3)). simpl. now rewrite E.
Qed.
Lemma power_value ty k : k < length (components (measured_kind ty)) -> exists sh, output_power_sensor s sol ty k = Some sh.
Proof.
  intros Hk. unfold output_power_sensor. destruct (object_place s ty k) as [[g p]|] eqn:E; [|eauto]. pose proof (object_value ty k g p Hk E) as X.
  destruct ty; destruct X as [b ->]; simpl; eauto.
Qed.
Lemma regulator_value e k : k < length (components GGenericLoadGen) -> (exists o, e_in e = IVoltageRegulator o) -> exists sh, output_voltage_regulator s sol e k = Some sh.
Proof.
  intros Hk [o Ho]. unfold output_voltage_regulator. rewrite Ho. destruct (snd (load_gens (st_coupled s)) k) as [[g q]|] eqn:E; [|eauto].
  rewrite length_load_gen in Hk. destruct (load_gen_range k g q Hk E) as [Hg _]. destruct (nth_error sol g) as [m|] eqn:Em; [|apply nth_error_None in Em; rewrite (sz_models s sol SZ) in Em; lia].
  simpl. destruct (find _ _); eauto.
Qed.

Definition is_current (t : ctype) : bool := match t with SymCurrentSensor | AsymCurrentSensor => true | _ => false end.
Lemma record_layout t n r : nth_error (data t) n = Some r -> layout_ok t (snd r).
Proof. intros H. apply HL. eapply nth_error_In; eauto. Qed.
Lemma func_defined t n r : is_current t = false -> nth_error (data t) n = Some r -> exists sh, func t (mkEntry t (fst r) (snd r)) n = Some sh.
Proof.
  intros Ht Hn. pose proof (ok_reg s OK) as [R1 R2 R3 R4 R5 R6 R7 R8 R9 R10 R11 _ _ _ _ _].
  assert (Hlt : n < length (components (GExact t))) by (rewrite exact_components, map_length; apply nth_error_Some; congruence).
  assert (HB : forall g, derives g t = true -> exists k, base_index c g t n = Some k /\ nth_error (components g) k = Some (mkEntry t (fst r) (snd r)) /\ k < length (components g)).
  { intros g Hd. destruct (component_of g t n r Hd Hn) as (k & E1 & E2). exists k. repeat split; auto. apply nth_error_Some. congruence. }
  destruct t; try discriminate Ht; unfold func;
    try (destruct (HB GBranch eq_refl) as (k & -> & E2 & Hk); cbn [bindO]; apply branch_value);
    try (destruct (HB GGenericLoadGen eq_refl) as (k & -> & E2 & Hk); cbn [bindO]; now apply load_gen_value);
    try (destruct (HB GGenericVoltageSensor eq_refl) as (k & -> & E2 & Hk); cbn [bindO]; destruct (Forall2_nth_l _ _ _ _ _ R8 E2) as (i & -> & _); cbn [bindO]; apply voltage_value);
    try (destruct (HB GGenericPowerSensor eq_refl) as (k & -> & E2 & Hk); cbn [bindO]; destruct (Forall2_nth_l _ _ _ _ _ R9 E2) as ([i ty] & -> & x & ty' & _ & _ & Hx); cbn [bindO fst snd] in *; apply power_value; eapply number_lt; eauto).
  - apply node_value. rewrite exact_components, map_length in Hlt. unfold n_node_total. lia.
  - destruct (HB GBranch3 eq_refl) as (k & -> & E2 & Hk). cbn [bindO]. apply branch3_value.
  - now apply shunt_value.
  - now apply source_value.
  - eauto.
  - destruct (HB GRegulator eq_refl) as (k & -> & E2 & Hk). cbn [bindO]. unfold output_tap_regulator. pose proof (record_layout _ _ _ Hn) as HX. destruct (snd r); try destruct HX. simpl. destruct (find _ _); eauto.
  - destruct (HB GRegulator eq_refl) as (k & -> & E2 & Hk). cbn [bindO]. destruct (Forall2_nth_l _ _ _ _ _ R11 E2) as ([i b] & -> & [(x & side & Hx & _)|(x & Hx & _ & Hi)]); cbn [bindO fst snd e_in] in *.
    + pose proof (record_layout _ _ _ Hn) as HX. rewrite Hx in HX. destruct HX.
    + apply regulator_value; [eapply number_lt; eauto|]. eauto.
Qed.
Lemma res_defined t : is_current t = false -> exists l, res t = Some l /\ map (fun es => (e_id (fst es), e_in (fst es))) l = data t.
Proof.
  intros Ht. destruct (produce_ok t (func t)) as (l & E & HP & _); [intros n r; now apply func_defined|]. exists l. rewrite res_produce. split; auto.
  rewrite <- (map_map fst (fun e => (e_id e, e_in e))), HP, exact_components, map_map. rewrite <- (map_id (data t)) at 2. apply map_ext. intros []. reflexivity.
Qed.
Lemma res_map t l : res t = Some l -> map (fun es => (e_id (fst es), e_in (fst es))) l = data t.
Proof.
  rewrite res_produce. intros E. apply produce_some in E as [HP _].
  rewrite <- (map_map fst (fun e => (e_id e, e_in e))), HP, exact_components, map_map. rewrite <- (map_id (data t)) at 2. apply map_ext. intros []. reflexivity.
Qed.

(** by number within a kind *)
Lemma shows_kind g F : (forall t, derives g t = true -> is_current t = false /\ forall n e, n < length (data t) -> func t e n = bindO (base_index c g t n) (F e)) ->
  forall id k, number_of g id k -> exists e sh, nth_error (components g) k = Some e /\ e_id e = id /\ F e k = Some sh /\ shows id sh.
Proof.
  intros HF id k H. destruct (number_type g id k H) as (t & n & r & Hd & Hn & <- & E1 & E2). destruct (HF t Hd) as [Ht HF'].
  destruct (func_defined t n r Ht Hn) as [sh Hsh]. destruct (res_defined t Ht) as (l & Hl & _). pose proof (shows_record t l n r sh Hl Hn Hsh) as HS.
  rewrite HF', E1 in Hsh by (apply nth_error_Some; congruence). eauto 10.
Qed.
Lemma shows_branch id k : number_of GBranch id k -> exists sh, output_at sol (@so_branch V R) S_branch (branch_coupling (cp_branches (st_coupled s)) k) = Some sh /\ shows id sh.
Proof. intros H. destruct (shows_kind GBranch (fun _ k => output_at sol (@so_branch V R) S_branch (branch_coupling (cp_branches (st_coupled s)) k))) with (2 := H) as (e & sh & _ & _ & HF & HS); eauto. intros []; try discriminate; auto. Qed.
Lemma shows_branch3 id k : number_of GBranch3 id k -> exists sh, output_branch3 sol (branch3_coupling (cp_branches (st_coupled s)) k) = Some sh /\ shows id sh.
Proof. intros H. destruct (shows_kind GBranch3 (fun _ k => output_branch3 sol (branch3_coupling (cp_branches (st_coupled s)) k))) with (2 := H) as (e & sh & _ & _ & HF & HS); eauto. intros []; try discriminate; auto. Qed.
Lemma shows_load_gen id k : number_of GGenericLoadGen id k -> exists sh, output_at sol (@so_load_gen V R) S_appliance (snd (load_gens (st_coupled s)) k) = Some sh /\ shows id sh.
Proof. intros H. destruct (shows_kind GGenericLoadGen (fun _ k => output_at sol (@so_load_gen V R) S_appliance (snd (load_gens (st_coupled s)) k))) with (2 := H) as (e & sh & _ & _ & HF & HS); eauto. intros []; try discriminate; auto. Qed.
Lemma shows_source id k : number_of (GExact Source) id k -> exists sh, output_at sol (@so_source V R) S_appliance (snd (sources (st_coupled s)) k) = Some sh /\ shows id sh.
Proof.
  intros H. destruct (shows_kind (GExact Source) (fun _ k => output_at sol (@so_source V R) S_appliance (snd (sources (st_coupled s)) k))) with (2 := H) as (e & sh & _ & _ & HF & HS); eauto.
  intros []; try discriminate; (split; [reflexivity|]); intros n e Hn; now rewrite exact_index.
Qed.
Lemma shows_shunt id k : number_of (GExact Shunt) id k -> exists sh, output_at sol (@so_shunt V R) S_appliance (snd (shunts (st_coupled s)) k) = Some sh /\ shows id sh.
Proof.
  intros H. destruct (shows_kind (GExact Shunt) (fun _ k => output_at sol (@so_shunt V R) S_appliance (snd (shunts (st_coupled s)) k))) with (2 := H) as (e & sh & _ & _ & HF & HS); eauto.
  intros []; try discriminate; (split; [reflexivity|]); intros n e Hn; now rewrite exact_index.
Qed.
Lemma shows_node id k : number_of (GExact Node) id k -> exists sh, output_node s sol (wrap totals) k = Some sh /\ shows id sh.
Proof.
  intros H. destruct (shows_kind (GExact Node) (fun _ k => output_node s sol (wrap totals) k)) with (2 := H) as (e & sh & _ & _ & HF & HS); eauto.
  intros []; try discriminate; (split; [reflexivity|]); intros n e Hn; now rewrite exact_index.
Qed.

(** the injection shown for a node is the total of the powers shown at it *)
Lemma flat_map_index {A B} (f : A -> list B) (h : nat -> list B) : forall l b, (forall n x, nth_error l n = Some x -> f x = h (b + n)) -> flat_map f l = flat_map h (seq b (length l)).
Proof.
  induction l as [|a l IH]; intros b H; simpl; auto. f_equal.
  - rewrite (H 0 a eq_refl). f_equal. lia.
  - apply IH. intros n x Hn. rewrite (H (S n) x Hn). f_equal. lia.
Qed.
Lemma filter_flat_map {A B} (p : B -> bool) (f : A -> list B) l : filter p (flat_map f l) = flat_map (fun a => filter p (f a)) l.
Proof. induction l as [|a l IH]; simpl; auto. now rewrite filter_app, IH. Qed.
Lemma map_flat_map {A B C} (g : B -> C) (f : A -> list B) l : map g (flat_map f l) = flat_map (fun a => map g (f a)) l.
Proof. induction l as [|a l IH]; simpl; auto. now rewrite map_app, IH. Qed.
Lemma powers_events x i t : number_of (GExact Node) x i -> In t injection_types -> powers_at res x t = map snd (filter (fun iv => fst iv =? i) (events t)).
Proof.
  intros Hx Ht. assert (Hcur : is_current t = false) by (simpl in Ht; intuition subst; reflexivity).
  destruct (res_defined t Hcur) as (l & Hl & Hm). unfold powers_at. rewrite Hl. unfold events. rewrite filter_flat_map, map_flat_map.
  assert (Hlen : length (data t) = length l) by (rewrite <- Hm; apply map_length). rewrite Hlen. apply flat_map_index.
  intros n [e sh] Hn. cbn [Nat.add fst snd]. pose proof Hl as Hl'. rewrite res_produce in Hl'. apply produce_some in Hl' as [_ HP]. apply HP in Hn as [H1 H2].
  rewrite exact_components, nth_error_map in H1. destruct (nth_error (data t) n) as [r|] eqn:Er; [|discriminate]. injection H1 as <-.
  destruct (appliance_facts t n r Ht Er) as (k & y & j & E1 & E2 & E3 & E4 & _ & E5). unfold event. rewrite E1, E3. cbn [e_in]. rewrite E2.
  assert (HF : output_at sol (match t with Source => @so_source V R | _ => @so_load_gen V R end) S_appliance (appliance_coupling s t k) = Some sh).
  { rewrite <- H2. unfold func. assert (Hlt : n < length (data t)) by (apply nth_error_Some; congruence).
    destruct Ht as [<-|[<-|[<-|[<-|[<-|[]]]]]]; cbn [appliance_base appliance_coupling] in *; try (rewrite E1; reflexivity). rewrite exact_index in E1 by auto. injection E1 as <-. reflexivity. }
  unfold output_at in HF. destruct (appliance_coupling s t k) as [[g p]|] eqn:Ec.
  - destruct (E5 g p eq_refl) as [a Ea]. unfold appliance_output in Ea |- *. rewrite Ea in *. simpl in HF. injection HF as <-. simpl.
    destruct (Z.eqb y x) eqn:Eyx; destruct (j =? i) eqn:Eji; auto; exfalso.
    + apply Z.eqb_eq in Eyx. subst y. apply Nat.eqb_neq in Eji. apply Eji. exact (number_unique _ _ _ _ E4 Hx).
    + apply Nat.eqb_eq in Eji. subst j. apply Z.eqb_neq in Eyx. apply Eyx. destruct E4 as (e1 & F1 & <-). destruct Hx as (e2 & F2 & <-). congruence.
  - injection HF as <-. reflexivity.
Qed.
Lemma injected_total x i : number_of (GExact Node) x i -> nth_error (wrap totals) i = Some [injected vadd v0 res x].
Proof.
  intros Hx. rewrite (total_at i) by (eapply node_total; eauto). do 2 f_equal. unfold injected. f_equal. fold injection_types.
  rewrite filter_flat_map, map_flat_map. 
  assert (X : forall l, (forall t, In t l -> In t injection_types) -> flat_map (fun t => map snd (filter (fun iv => fst iv =? i) (events t))) l = flat_map (powers_at res x) l).
  { induction l as [|t l IH]; intros Hl; simpl; auto. rewrite IH by (intros t' Ht'; apply Hl; now right). f_equal. symmetry. apply powers_events; auto. apply Hl. now left. }
  now apply X.
Qed.
End Range.
End State.
