(** C17: every object is attached to the right place. *)
From Verif Require Import Common NatMap SparseOrdering GroupedIdx GroupedIdxFacts GroupedIdxProps Topology TopologySpec TopologyDfs TopologyFacts
  TopologyProps Coupling CouplingSpec CouplingFacts.

Lemma attached_ext n_topo n takes own gr cp (takes' : nat -> Prop) own' cp' :
  (forall k, k < n -> (takes' k <-> takes k)) -> (forall k, k < n -> takes k -> own' k = own k) -> (forall k, k < n -> takes k -> cp' k = cp k) ->
  attached n_topo n takes own gr cp -> attached n_topo n takes' own' gr cp'.
Proof.
  intros HT HO HC [A1 A2 A3 A4]. constructor.
  - intros k g p Hk Ht Ho. apply HT in Ht; auto. rewrite HO in Ho by auto. rewrite HC by auto. auto.
  - intros k Hk Ht Ho. apply HT in Ht; auto. rewrite HO in Ho by auto. rewrite HC by auto. auto.
  - intros k k' b Hk Hk' Ht Ht' E E'. apply HT in Ht; auto. apply HT in Ht'; auto. rewrite HC in E, E' by auto. eapply A3; eauto.
  - intros g q Hg. rewrite (A4 g q Hg). split; intros (k & Hk & Ht & E); exists k; (split; [auto|split; [now apply HT|]]).
    + now rewrite HC.
    + rewrite HC in E; auto; now apply HT.
Qed.

Section Props.
Context {P LT : Type} (padd : P -> P -> P) (p0 : P) (popp : P -> P).
Variable sort : list (nat * nat) -> list (nat * nat).
Variable criterion : nat -> nat -> bool.
Variable t : comp_topo.
Variable c : comp_conn (P := P).
Variable o : objects LT.

(** the bus of the node of object [k] of a list of objects *)
Definition at_node (st : search_state (P := P)) (nodes : list nat) (k : nat) : option (nat * nat) :=
  match nth_error nodes k with Some x => bus st x | None => None end.
(** the place of the object measured by sensor [k] (or regulated by regulator [k]) *)
Definition at_object {A} (l : list (nat * A)) (place : nat -> option (nat * nat)) (k : nat) : option (nat * nat) :=
  match nth_error l k with Some (x, _) => place x | None => None end.
(** the math branch at whose from side sensor [k] measures *)
Definition at_branch_side (l : list (nat * terminal)) (b : branch_state) (k : nat) : option (nat * nat) :=
  match nth_error l k with
  | Some (x, T_branch_from) => owner_pos b (From_branch x)
  | Some (x, T_branch3_1) => owner_pos b (From_branch3 x Side1)
  | Some (x, T_branch3_2) => owner_pos b (From_branch3 x Side2)
  | Some (x, T_branch3_3) => owner_pos b (From_branch3 x Side3)
  | _ => None
  end.
Definition measures (l : list (nat * terminal)) (tys : list terminal) (k : nat) : Prop := exists x ty, nth_error l k = Some (x, ty) /\ In ty tys.

Lemma measures_type_is l tys f k : (forall ty, f ty = true <-> In ty tys) -> (measures l tys k <-> type_is f l k = true).
Proof.
  intros Hf. unfold measures, type_is. destruct (nth_error l k) as [[x ty]|]; [rewrite Hf|].
  - split; [intros (x' & ty' & [= <- <-] & H); auto|eauto].
  - split; [intros (? & ? & ? & _); discriminate|discriminate].
Qed.

Section WithState.
Variable st : search_state (P := P).
Hypothesis wf : well_formed t c.
Hypothesis HS : dfs_search padd p0 popp t c = Some st.
Hypothesis sort_ok : sort_contract sort.
Notation n_topo := (length (models st)).
Notation nb := (fun g => match nth_error (models st) g with Some m => n_bus m | None => 0 end).

Lemma bus_range x g p : bus st x = Some (g, p) -> g < n_topo /\ p < nb g.
Proof.
  intros H. destruct (C15_energised padd p0 popp t c wf) as (st' & E & _ & _ & _ & HR). assert (st' = st) as -> by congruence.
  destruct (proj1 (HR g p)) as (m & Hm & Hp); [eauto|]. split; [apply nth_error_Some; congruence|now rewrite Hm].
Qed.
Lemma bus_link_group x y h : link popp t c x y h -> option_map fst (bus st x) = option_map fst (bus st y).
Proof.
  intros HL. destruct (C15_energised padd p0 popp t c wf) as (st' & E & HE & HG & _ & _). assert (st' = st) as -> by congruence.
  assert (Hc : connected padd p0 popp t c x y) by (exists (padd p0 h); eapply path_step; [constructor|exact HL]).
  assert (Hc' : connected padd p0 popp t c y x) by (destruct Hc as [h' Hc]; exact (path_rev padd p0 popp t c x y h' Hc)).
  assert (HT : forall a b, connected padd p0 popp t c a b -> bus st a <> None -> bus st b <> None).
  { intros a b [h2 Hp] Ha. apply HE in Ha as (k & s & Hs & h1 & Hp1). apply HE. exists k, s. split; auto. exact (path_app padd p0 popp t c s a h1 Hp1 b h2 Hp). }
  destruct (bus st x) as [[gx px]|] eqn:Ex, (bus st y) as [[gy py]|] eqn:Ey; auto.
  - simpl. f_equal. apply (HG x y gx px gy py); auto.
  - exfalso. apply (HT x y Hc); congruence.
  - exfalso. apply (HT y x Hc'); congruence.
Qed.

Lemma branches_range ow g q : owner_pos (couple_branch (bus st) t c) ow = Some (g, q) -> g < n_topo /\ q < length (branch_bus_idx (couple_branch (bus st) t c) g).
Proof.
  destruct (couple_branch_spec (bus st) t c) as ((O1 & _ & _) & _ & _). intros H. apply O1 in H as (x & Hx & HB). split; [|apply nth_error_Some; congruence].
  destruct ow as [k|k s].
  - destruct HB as (i & j & si & sj & _ & _ & HG & _). unfold group2, or_else, group_if in HG. cbn [fst snd] in HG.
    assert (exists y, option_map fst (bus st y) = Some g) as (y & Hy).
    { destruct si; [destruct (option_map fst (bus st i)) eqn:E; [exists i; congruence|]|]; (destruct sj; [exists j; congruence|discriminate]). }
    destruct (bus st y) as [[g' p]|] eqn:Ey; [|discriminate]. injection Hy as ->. now apply bus_range in Ey.
  - destruct HB as (ns & cs & _ & _ & HG & _). apply group3_Some in HG as (s' & _ & Hy).
    destruct (bus st (of_side s' ns)) as [[g' p]|] eqn:Ey; [|discriminate]. injection Hy as ->. now apply bus_range in Ey.
Qed.

Lemma all_branches : branches_attached (bus st) t c (couple_branch (bus st) t c).
Proof.
  apply branches_ok.
  - intros k i j H1 H2. destruct (Nat.eq_dec i j) as [->|Hn]; auto.
    assert (Hh : exists h, nth_error (branch_phase_shift c) k = Some h).
    { destruct (nth_error (branch_phase_shift c) k) eqn:E; eauto. apply nth_error_None in E. destruct (wf_branch_len t c wf) as [_ El].
      assert (k < length (branch_node_idx t)) by (apply nth_error_Some; congruence). lia. }
    destruct Hh as [h Hh]. apply (bus_link_group i j (popp h)). eapply link_to; eauto.
  - intros k ns cs s H1 H2 H3.
    assert (Hh : exists h, nth_error (branch3_phase_shift c) k = Some h).
    { destruct (nth_error (branch3_phase_shift c) k) eqn:E; eauto. apply nth_error_None in E. destruct (wf_branch3_len t c wf) as [_ El].
      assert (k < length (branch3_node_idx t)) by (apply nth_error_Some; congruence). lia. }
    destruct Hh as [h Hh]. apply (bus_link_group _ _ (popp (of_side s h))). eapply link_in; eauto.
Qed.

(** positions handed out by [couple_objects] are in range *)
Lemma coupled_range sp n_obj find include n cp0 :
  (forall k g p, k < n -> include k = true -> find k = Some (g, p) -> g < n_topo /\ p < n_obj g) ->
  (forall k, cp0 k = None) ->
  let r := couple_objects sort criterion sp n_topo n_obj find include n cp0 in
  attached n_topo n (fun k => include k = true) find (fst r) (snd r) /\
  forall k g p, snd r k = Some (g, p) -> g < n_topo /\ p < element_size (fst r g).
Proof.
  intros HF H0 r. destruct (couple_spec sort criterion sort_ok find include sp n_topo n_obj n cp0 HF (fun k _ _ => H0 k)) as [HA HB].
  fold r in HA, HB. split; auto. intros k g p E.
  assert (Hk : k < n /\ include k = true).
  { destruct (Nat.lt_ge_cases k n) as [Hk|Hk]; [|rewrite HB in E by lia; congruence]. destruct (include k) eqn:Ei; [auto|].
    rewrite HB in E by (intros [_ ?]; congruence). congruence. }
  destruct Hk as [Hk Hi]. destruct (find k) as [[g' p']|] eqn:Ef; [|rewrite (att_off _ _ _ _ _ _ HA k Hk Hi Ef) in E; discriminate].
  destruct (HF k g' p' Hk Hi Ef) as [Hg _]. destruct (att_own _ _ _ _ _ _ HA k g' p' Hk Hi Ef) as (q & Eq & _). rewrite Eq in E. injection E as -> ->.
  split; auto. apply (att_dense _ _ _ _ _ _ HA g p Hg). eauto.
Qed.

Lemma find_node nodes k g p : find_single nodes (bus st) k = Some (g, p) -> g < n_topo /\ p < nb g.
Proof. unfold find_single. destruct (nth_error nodes k); [apply bus_range|discriminate]. Qed.

Lemma find_side_owner l k : find_branch_side l (couple_branch (bus st) t c) k = at_branch_side l (couple_branch (bus st) t c) k.
Proof.
  unfold find_branch_side, at_branch_side, owner_pos. destruct (nth_error l k) as [[x []]|]; auto; destruct (branch3_coupling _ x) as [[g [[a b] d]]|]; reflexivity.
Qed.
Lemma find_side_range l k g p : find_branch_side l (couple_branch (bus st) t c) k = Some (g, p) ->
  g < n_topo /\ p < length (branch_bus_idx (couple_branch (bus st) t c) g).
Proof.
  rewrite find_side_owner. unfold at_branch_side. destruct (nth_error l k) as [[x []]|]; try discriminate; apply branches_range.
Qed.
Lemma single_range (l : list nat) cp (sz : nat -> nat) k g p : (forall x g p, cp x = Some (g, p) -> g < n_topo /\ p < sz g) ->
  find_single l cp k = Some (g, p) -> g < n_topo /\ p < sz g.
Proof. intros H. unfold find_single. destruct (nth_error l k); [apply H|discriminate]. Qed.
Lemma find_single_object {A} (l : list (nat * A)) cp k : find_single (map fst l) cp k = at_object l cp k.
Proof. unfold find_single, at_object. rewrite nth_error_map. destruct (nth_error l k) as [[x ?]|]; reflexivity. Qed.

Definition sensor_places (r : coupled (LT := LT)) (l : list (nat * terminal)) (gr : nat -> grouped) (cp : nat -> option (nat * nat))
  (tys : list terminal) (own : nat -> option (nat * nat)) : Prop := attached n_topo (length l) (measures l tys) own gr cp.

Record all_attached (r : coupled (LT := LT)) : Prop := {
  aa_branches : branches_attached (bus st) t c (cp_branches r);
  aa_shunts : attached n_topo (length (shunt_node o)) (fun _ => True) (at_node st (shunt_node o)) (fst (shunts r)) (snd (shunts r));
  aa_load_gens : attached n_topo (length (load_gen_node o)) (fun _ => True) (at_node st (load_gen_node o)) (fst (load_gens r)) (snd (load_gens r));
  aa_types : forall k g p ty, snd (load_gens r) k = Some (g, p) -> nth_error (load_gen_types o) k = Some ty -> math_load_gen_type r g p = Some ty;
  aa_sources : attached n_topo (length (source_node_idx t)) (fun k => nth_error (source_connected c) k = Some true)
    (at_node st (source_node_idx t)) (fst (sources r)) (snd (sources r));
  aa_sources_off : forall k, nth_error (source_connected c) k <> Some true -> snd (sources r) k = None;
  aa_regulators : attached n_topo (length (regulators o)) (fun k => exists x, nth_error (regulators o) k = Some (x, true))
    (at_object (regulators o) (snd (load_gens r))) (fst (voltage_regulators r)) (snd (voltage_regulators r));
  aa_regulators_off : forall k, (forall x, nth_error (regulators o) k <> Some (x, true)) -> snd (voltage_regulators r) k = None;
  aa_voltage : attached n_topo (length (voltage_sensor_node o)) (fun _ => True) (at_node st (voltage_sensor_node o)) (fst (voltage_sensors r)) (snd (voltage_sensors r));
  aa_p_source : sensor_places r (power_sensors o) (sensors_source r) (power_sensor_coupling r) [T_source] (at_object (power_sensors o) (snd (sources r)));
  aa_p_shunt : sensor_places r (power_sensors o) (sensors_shunt r) (power_sensor_coupling r) [T_shunt] (at_object (power_sensors o) (snd (shunts r)));
  aa_p_load_gen : sensor_places r (power_sensors o) (sensors_load_gen r) (power_sensor_coupling r) [T_load; T_generator] (at_object (power_sensors o) (snd (load_gens r)));
  aa_p_from : sensor_places r (power_sensors o) (sensors_branch_from r) (power_sensor_coupling r) [T_branch_from; T_branch3_1; T_branch3_2; T_branch3_3]
    (at_branch_side (power_sensors o) (cp_branches r));
  aa_p_to : sensor_places r (power_sensors o) (sensors_branch_to r) (power_sensor_coupling r) [T_branch_to] (at_object (power_sensors o) (branch_coupling (cp_branches r)));
  aa_p_bus : sensor_places r (power_sensors o) (sensors_bus r) (power_sensor_coupling r) [T_node] (at_object (power_sensors o) (bus st));
  aa_c_from : sensor_places r (current_sensors o) (current_from r) (current_sensor_coupling r) [T_branch_from; T_branch3_1; T_branch3_2; T_branch3_3]
    (at_branch_side (current_sensors o) (cp_branches r));
  aa_c_to : sensor_places r (current_sensors o) (current_to r) (current_sensor_coupling r) [T_branch_to] (at_object (current_sensors o) (branch_coupling (cp_branches r))) }.

Lemma set_types_spec cp (types : list LT) : (forall k k' b, cp k = Some b -> cp k' = Some b -> k = k') ->
  forall k g p ty, cp k = Some (g, p) -> nth_error types k = Some ty -> set_types cp types (fun _ _ => None) g p = Some ty.
Proof.
  intros Hinj. unfold set_types.
  assert (X : forall (l : list LT) s (f : nat -> nat -> option LT) k g p ty, cp (s + k) = Some (g, p) -> nth_error l k = Some ty ->
    fold_left (fun f kt => match cp (fst kt) with Some (g, p) => fupd g (fupd p (Some (snd kt)) (f g)) f | None => f end) (combine (seq s (length l)) l) f g p = Some ty).
  { induction l as [|x l IH]; intros s f [|k] g p ty Hc Hn; simpl in Hn; try discriminate; simpl.
    - injection Hn as ->. rewrite Nat.add_0_r in Hc. rewrite Hc.
      assert (Y : forall (l : list LT) s' (f : nat -> nat -> option LT), s < s' -> f g p = Some ty ->
        fold_left (fun f kt => match cp (fst kt) with Some (g, p) => fupd g (fupd p (Some (snd kt)) (f g)) f | None => f end) (combine (seq s' (length l)) l) f g p = Some ty).
      { clear IH l. induction l as [|z l IH]; intros s' f' Hs Hf; simpl; auto. apply IH; [lia|]. destruct (cp s') as [[g' p']|] eqn:E; auto.
        destruct (Nat.eq_dec g' g) as [->|Hg]; [rewrite fupd_eq|rewrite fupd_neq; auto]. destruct (Nat.eq_dec p' p) as [->|Hp]; [|rewrite fupd_neq; auto].
        exfalso. assert (s' = s) by (apply (Hinj s' s (g, p)); auto). lia. }
      apply Y; [lia|]. rewrite !fupd_eq. reflexivity.
    - apply (IH (S s) _ k); auto. rewrite <- Hc. f_equal. lia. }
  intros k g p ty Hc Hn. exact (X types 0 _ k g p ty Hc Hn).
Qed.

Lemma type_split ps (f g : terminal -> bool) k : (forall ty, f ty = true -> g ty = true -> False) -> type_is f ps k = true -> type_is g ps k = true -> False.
Proof. unfold type_is. destruct (nth_error ps k) as [[x ty]|]; [eauto|discriminate]. Qed.

Lemma couple_all_attached : all_attached (couple_all sort criterion (bus st) n_topo nb t c o).
Proof.
  unfold couple_all.
  set (none := fun _ : nat => @None (nat * nat)).
  assert (H0 : forall k, none k = None) by reflexivity.
  pose proof all_branches as HB. pose proof branches_range as HR. pose proof find_side_range as HFS. pose proof find_side_owner as HFO.
  set (br := couple_branch (bus st) t c) in *.
  assert (HR2 : forall x g p, branch_coupling br x = Some (g, p) -> g < n_topo /\ p < length (branch_bus_idx br g)) by (intros x; apply (HR (From_branch x))).
  destruct (coupled_range false nb (find_single (shunt_node o) (bus st)) (fun _ => true) (length (shunt_node o)) none (fun k g p _ _ => find_node _ k g p) H0) as [A_sh R_sh].
  set (sh := couple_objects sort criterion false n_topo nb (find_single (shunt_node o) (bus st)) _ _ none) in *.
  destruct (coupled_range true nb (find_single (load_gen_node o) (bus st)) (fun _ => true) (length (load_gen_node o)) none (fun k g p _ _ => find_node _ k g p) H0) as [A_lg R_lg].
  destruct (couple_spec sort criterion sort_ok (find_single (load_gen_node o) (bus st)) (fun _ => true) true n_topo nb (length (load_gen_node o)) none (fun k g p _ _ => find_node _ k g p) (fun k _ _ => H0 k)) as [_ N_lg].
  set (lg := couple_objects sort criterion true n_topo nb (find_single (load_gen_node o) (bus st)) _ _ none) in *.
  set (so_in := fun k => match nth_error (source_connected c) k with Some b => b | None => false end).
  destruct (coupled_range false nb (find_single (source_node_idx t) (bus st)) so_in (length (source_node_idx t)) none (fun k g p _ _ => find_node _ k g p) H0) as [A_so R_so].
  destruct (couple_spec sort criterion sort_ok (find_single (source_node_idx t) (bus st)) so_in false n_topo nb (length (source_node_idx t)) none (fun k g p _ _ => find_node _ k g p) (fun k _ _ => H0 k)) as [_ N_so].
  set (so := couple_objects sort criterion false n_topo nb (find_single (source_node_idx t) (bus st)) so_in _ none) in *.
  set (vr_in := fun k => match nth_error (regulators o) k with Some (_, b) => b | None => false end).
  destruct (coupled_range false (fun g => element_size (fst lg g)) (find_single (map fst (regulators o)) (snd lg)) vr_in (length (regulators o)) none
    (fun k g p _ _ => single_range _ _ (fun g => element_size (fst lg g)) k g p R_lg) H0) as [A_vr R_vr].
  destruct (couple_spec sort criterion sort_ok (find_single (map fst (regulators o)) (snd lg)) vr_in false n_topo (fun g => element_size (fst lg g)) (length (regulators o)) none
    (fun k g p _ _ => single_range _ _ (fun g => element_size (fst lg g)) k g p R_lg) (fun k _ _ => H0 k)) as [_ N_vr].
  set (vr := couple_objects sort criterion false n_topo (fun g => element_size (fst lg g)) (find_single (map fst (regulators o)) (snd lg)) vr_in _ none) in *.
  destruct (coupled_range false nb (find_single (voltage_sensor_node o) (bus st)) (fun _ => true) (length (voltage_sensor_node o)) none (fun k g p _ _ => find_node _ k g p) H0) as [A_vs R_vs].
  set (vs := couple_objects sort criterion false n_topo nb (find_single (voltage_sensor_node o) (bus st)) _ _ none) in *.
  (* power sensors *)
  set (ps := power_sensors o).
  set (f1 := fun ty => match ty with T_source => true | _ => false end).
  set (f2 := fun ty => match ty with T_shunt => true | _ => false end).
  set (f3 := fun ty => match ty with T_load | T_generator => true | _ => false end).
  set (f5 := fun ty => match ty with T_branch_to => true | _ => false end).
  set (f6 := fun ty => match ty with T_node => true | _ => false end).
  pose proof (fun f g k => type_split ps f g k) as TS.
  destruct (couple_spec sort criterion sort_ok (find_single (map fst ps) (snd so)) (type_is f1 ps) false n_topo (fun g => element_size (fst so g)) (length ps) none
    (fun k g p _ _ => single_range _ _ (fun g => element_size (fst so g)) k g p R_so) (fun k _ _ => H0 k)) as [A1 N1].
  set (p1 := couple_objects sort criterion false n_topo _ (find_single (map fst ps) (snd so)) (type_is f1 ps) _ none) in *.
  assert (Z2 : forall k, k < length ps -> type_is f2 ps k = true -> snd p1 k = None).
  { intros k _ H. rewrite N1; auto. intros [_ H']. apply (TS f2 f1 k); auto. intros []; discriminate. }
  destruct (couple_spec sort criterion sort_ok (find_single (map fst ps) (snd sh)) (type_is f2 ps) false n_topo (fun g => element_size (fst sh g)) (length ps) (snd p1)
    (fun k g p _ _ => single_range _ _ (fun g => element_size (fst sh g)) k g p R_sh) Z2) as [A2 N2].
  set (p2 := couple_objects sort criterion false n_topo _ (find_single (map fst ps) (snd sh)) (type_is f2 ps) _ (snd p1)) in *.
  assert (Z3 : forall k, k < length ps -> type_is f3 ps k = true -> snd p2 k = None).
  { intros k _ H. rewrite N2, N1; auto; intros [_ H']; [apply (TS f3 f1 k)|apply (TS f3 f2 k)]; auto; intros []; discriminate. }
  destruct (couple_spec sort criterion sort_ok (find_single (map fst ps) (snd lg)) (type_is f3 ps) false n_topo (fun g => element_size (fst lg g)) (length ps) (snd p2)
    (fun k g p _ _ => single_range _ _ (fun g => element_size (fst lg g)) k g p R_lg) Z3) as [A3 N3].
  set (p3 := couple_objects sort criterion false n_topo _ (find_single (map fst ps) (snd lg)) (type_is f3 ps) _ (snd p2)) in *.
  assert (Z4 : forall k, k < length ps -> type_is is_from ps k = true -> snd p3 k = None).
  { intros k _ H. rewrite N3, N2, N1; auto; intros [_ H']; [apply (TS is_from f1 k)|apply (TS is_from f2 k)|apply (TS is_from f3 k)]; auto; intros []; discriminate. }
  destruct (couple_spec sort criterion sort_ok (find_branch_side ps br) (type_is is_from ps) false n_topo (fun g => length (branch_bus_idx br g)) (length ps) (snd p3)
    (fun k g p _ _ => HFS ps k g p) Z4) as [A4 N4].
  set (p4 := couple_objects sort criterion false n_topo _ (find_branch_side ps br) (type_is is_from ps) _ (snd p3)) in *.
  assert (Z5 : forall k, k < length ps -> type_is f5 ps k = true -> snd p4 k = None).
  { intros k _ H. rewrite N4, N3, N2, N1; auto; intros [_ H']; [apply (TS f5 f1 k)|apply (TS f5 f2 k)|apply (TS f5 f3 k)|apply (TS f5 is_from k)]; auto; intros []; discriminate. }
  destruct (couple_spec sort criterion sort_ok (find_single (map fst ps) (branch_coupling br)) (type_is f5 ps) false n_topo (fun g => length (branch_bus_idx br g)) (length ps) (snd p4)
    (fun k g p _ _ => single_range _ _ (fun g => length (branch_bus_idx br g)) k g p HR2) Z5) as [A5 N5].
  set (p5 := couple_objects sort criterion false n_topo _ (find_single (map fst ps) (branch_coupling br)) (type_is f5 ps) _ (snd p4)) in *.
  assert (Z6 : forall k, k < length ps -> type_is f6 ps k = true -> snd p5 k = None).
  { intros k _ H. rewrite N5, N4, N3, N2, N1; auto; intros [_ H'];
      [apply (TS f6 f1 k)|apply (TS f6 f2 k)|apply (TS f6 f3 k)|apply (TS f6 is_from k)|apply (TS f6 f5 k)]; auto; intros []; discriminate. }
  destruct (couple_spec sort criterion sort_ok (find_single (map fst ps) (bus st)) (type_is f6 ps) false n_topo nb (length ps) (snd p5)
    (fun k g p _ _ => find_node _ k g p) Z6) as [A6 N6].
  set (p6 := couple_objects sort criterion false n_topo _ (find_single (map fst ps) (bus st)) (type_is f6 ps) _ (snd p5)) in *.
  (* current sensors *)
  set (cs := current_sensors o).
  destruct (couple_spec sort criterion sort_ok (find_branch_side cs br) (type_is is_from cs) false n_topo (fun g => length (branch_bus_idx br g)) (length cs) none
    (fun k g p _ _ => HFS cs k g p) (fun k _ _ => H0 k)) as [B1 M1].
  set (c1 := couple_objects sort criterion false n_topo _ (find_branch_side cs br) (type_is is_from cs) _ none) in *.
  assert (Y2 : forall k, k < length cs -> type_is f5 cs k = true -> snd c1 k = None).
  { intros k _ H. rewrite M1; auto. intros [_ H']. apply (type_split cs f5 is_from k); auto. intros []; discriminate. }
  destruct (couple_spec sort criterion sort_ok (find_single (map fst cs) (branch_coupling br)) (type_is f5 cs) false n_topo (fun g => length (branch_bus_idx br g)) (length cs) (snd c1)
    (fun k g p _ _ => single_range _ _ (fun g => length (branch_bus_idx br g)) k g p HR2) Y2) as [B2 M2].
  set (c2 := couple_objects sort criterion false n_topo _ (find_single (map fst cs) (branch_coupling br)) (type_is f5 cs) _ (snd c1)) in *.
  (* what the later steps keep *)
  assert (K5 : forall k, type_is f5 ps k = true -> snd p6 k = snd p5 k) by (intros k H; apply N6; intros [_ H']; apply (TS f5 f6 k); auto; intros []; discriminate).
  assert (K4 : forall k, type_is is_from ps k = true -> snd p6 k = snd p4 k).
  { intros k H. rewrite N6, N5; auto; intros [_ H']; [apply (TS is_from f5 k)|apply (TS is_from f6 k)]; auto; intros []; discriminate. }
  assert (K3 : forall k, type_is f3 ps k = true -> snd p6 k = snd p3 k).
  { intros k H. rewrite N6, N5, N4; auto; intros [_ H']; [apply (TS f3 is_from k)|apply (TS f3 f5 k)|apply (TS f3 f6 k)]; auto; intros []; discriminate. }
  assert (K2 : forall k, type_is f2 ps k = true -> snd p6 k = snd p2 k).
  { intros k H. rewrite N6, N5, N4, N3; auto; intros [_ H']; [apply (TS f2 f3 k)|apply (TS f2 is_from k)|apply (TS f2 f5 k)|apply (TS f2 f6 k)]; auto; intros []; discriminate. }
  assert (K1 : forall k, type_is f1 ps k = true -> snd p6 k = snd p1 k).
  { intros k H. rewrite N6, N5, N4, N3, N2; auto; intros [_ H'];
      [apply (TS f1 f2 k)|apply (TS f1 f3 k)|apply (TS f1 is_from k)|apply (TS f1 f5 k)|apply (TS f1 f6 k)]; auto; intros []; discriminate. }
  assert (KC : forall k, type_is is_from cs k = true -> snd c2 k = snd c1 k).
  { intros k H. apply M2. intros [_ H']. apply (type_split cs is_from f5 k); auto. intros []; discriminate. }
  assert (F1 : forall ty, f1 ty = true <-> In ty [T_source]) by (intros []; simpl; intuition (congruence || discriminate)).
  assert (F2 : forall ty, f2 ty = true <-> In ty [T_shunt]) by (intros []; simpl; intuition (congruence || discriminate)).
  assert (F3 : forall ty, f3 ty = true <-> In ty [T_load; T_generator]) by (intros []; simpl; intuition (congruence || discriminate)).
  assert (F4 : forall ty, is_from ty = true <-> In ty [T_branch_from; T_branch3_1; T_branch3_2; T_branch3_3]) by (intros []; simpl; intuition (congruence || discriminate)).
  assert (F5 : forall ty, f5 ty = true <-> In ty [T_branch_to]) by (intros []; simpl; intuition (congruence || discriminate)).
  assert (F6 : forall ty, f6 ty = true <-> In ty [T_node]) by (intros []; simpl; intuition (congruence || discriminate)).
  constructor; cbn [cp_branches shunts load_gens math_load_gen_type sources voltage_regulators voltage_sensors sensors_source sensors_shunt sensors_load_gen
    sensors_branch_from sensors_branch_to sensors_bus power_sensor_coupling current_from current_to current_sensor_coupling]; unfold sensor_places.
  - exact HB.
  - revert A_sh. apply attached_ext; auto; tauto.
  - revert A_lg. apply attached_ext; auto; tauto.
  - apply set_types_spec. intros k k' b E E'.
    assert (X : forall k b, snd lg k = Some b -> k < length (load_gen_node o)).
    { intros x b' Ex. destruct (Nat.lt_ge_cases x (length (load_gen_node o))) as [|Hx]; auto. rewrite N_lg in Ex by lia. discriminate. }
    apply (att_once _ _ _ _ _ _ A_lg k k' b); eauto.
  - revert A_so. apply attached_ext; auto. intros k _. unfold so_in. destruct (nth_error (source_connected c) k) as [[]|]; intuition (congruence || discriminate).
  - intros k Hk. rewrite N_so; auto. unfold so_in. destruct (nth_error (source_connected c) k) as [[]|]; intuition congruence.
  - revert A_vr. apply attached_ext; auto.
    + intros k _. unfold vr_in. destruct (nth_error (regulators o) k) as [[x []]|]; split; try discriminate; eauto; intros [? ?]; congruence.
    + intros k _ _. symmetry. apply find_single_object.
  - intros k Hk. rewrite N_vr; auto. unfold vr_in. intros [_ Hv]. destruct (nth_error (regulators o) k) as [[x []]|] eqn:Ek; try discriminate. now apply (Hk x).
  - revert A_vs. apply attached_ext; auto; tauto.
  - revert A1. apply attached_ext; [intros; now apply measures_type_is|intros; symmetry; apply find_single_object|auto].
  - revert A2. apply attached_ext; [intros; now apply measures_type_is|intros; symmetry; apply find_single_object|auto].
  - revert A3. apply attached_ext; [intros; now apply measures_type_is|intros; symmetry; apply find_single_object|auto].
  - revert A4. apply attached_ext; [intros; now apply measures_type_is|intros; symmetry; apply HFO|auto].
  - revert A5. apply attached_ext; [intros; now apply measures_type_is|intros; symmetry; apply find_single_object|auto].
  - revert A6. apply attached_ext; [intros; now apply measures_type_is|intros; symmetry; apply find_single_object|auto].
  - revert B1. apply attached_ext; [intros; now apply measures_type_is|intros; symmetry; apply HFO|auto].
  - revert B2. apply attached_ext; [intros; now apply measures_type_is|intros; symmetry; apply find_single_object|auto].
Qed.
End WithState.

(** C17: for every well-formed network the topology is built, and every branch, appliance, regulator and sensor is attached to the
    right place; everything else is marked disconnected. *)
Theorem C17_attached : sort_contract sort -> well_formed t c ->
  exists st r, build_topology padd p0 popp sort criterion t c o = Some (st, r) /\ all_attached st r.
Proof.
  intros Hsort wf. unfold build_topology. destruct (C15_energised padd p0 popp t c wf) as (st & E & _). rewrite E.
  eexists _, _. split; [reflexivity|]. now apply couple_all_attached.
Qed.
End Props.

(** ** the network of TopologyProps with objects *)
Definition demo_objects : objects nat :=
  mkObjects [4; 6; 0] [7; 3; 6; 3; 5] [10; 11; 12; 13; 14] [2; 6] [(0, T_shunt); (3, T_source); (0, T_branch3_2); (3, T_load); (0, T_source); (7, T_branch_from); (4, T_node)]
    [(0, T_branch_from); (8, T_branch_to)] [(1, true); (0, false)].
Example demo_coupling :
  match build_topology Z.add 0%Z Z.opp isort (fun _ _ => false) demo_topo demo_conn demo_objects with
  | Some (_, r) =>
      map (branch_coupling (cp_branches r)) (seq 0 10) =
        [Some (0, 0); Some (0, 1); Some (0, 2); Some (0, 3); Some (0, 4); Some (0, 5); Some (0, 6); Some (0, 7); Some (1, 0); Some (1, 1)] /\
      branch3_coupling (cp_branches r) 0 = Some (0, ((8, 9), 10)) /\
      map (branch_bus_idx (cp_branches r)) [0; 1] =
        [[(Some 2, Some 4); (Some 4, Some 3); (Some 3, Some 4); (Some 3, Some 6); (Some 6, Some 2); (Some 6, Some 5); (Some 5, Some 4); (Some 0, None);
          (Some 5, Some 1); (Some 0, Some 1); (None, Some 1)];
         [(Some 0, Some 1); (Some 1, Some 1)]] /\
      map (snd (shunts r)) [0; 1; 2] = [Some (0, 1); None; Some (0, 0)] /\
      map (snd (load_gens r)) [0; 1; 2; 3; 4] = [Some (1, 0); Some (0, 1); None; Some (0, 2); Some (0, 0)] /\
      map (math_load_gen_type r 0) [0; 1; 2] = [Some 14; Some 11; Some 13] /\
      map (snd (sources r)) [0; 1; 2; 3] = [None; Some (0, 1); Some (1, 0); Some (0, 0)] /\
      map (power_sensor_coupling r) (seq 0 7) = [Some (0, 0); Some (0, 0); Some (0, 1); Some (0, 0); None; Some (0, 0); Some (0, 0)] /\
      map (current_sensor_coupling r) [0; 1] = [Some (0, 0); Some (1, 0)] /\
      map (snd (voltage_regulators r)) [0; 1] = [Some (0, 0); None]
  | None => False
  end.
Proof. vm_compute. repeat split. Qed.

Print Assumptions C17_attached.
