(** C19 to C21 for networks: the sub-grids that the topology analysis makes meet the conditions of the admittance matrix, and the
    pattern with fill-ins loses nothing during elimination. *)
From Coq Require Import Permutation Sorting.Sorted.
From Verif Require Import Common NatMap SparseOrderingSpec GroupedIdx GroupedIdxFacts GroupedIdxProps Topology TopologySpec TopologyDfs TopologyFacts
  TopologyProps Coupling CouplingSpec CouplingFacts CouplingProps YBus YBusSpec YBusProps.

(** calculation_parameters.hpp 164-212: the part of MathModelTopology that the admittance matrix is built from *)
Definition math_topo_of {P LT} (st : search_state (P := P)) (r : coupled (LT := LT)) (g : nat) : option math_topo :=
  match nth_error (models st) g, fst (shunts r) g with
  | Some m, G_dense sh => Some (mkMathTopo (n_bus m) (branch_bus_idx (cp_branches r) g) sh (fill_in m))
  | _, _ => None
  end.

(** eliminating a row touches no entry outside the pattern *)
Definition closed_pattern (indptr cols : list nat) : Prop := forall i j k, i < j -> i < k ->
  (exists e, csr_at indptr cols e i j) -> (exists e, csr_at indptr cols e i k) -> exists e, csr_at indptr cols e j k.

Lemma stable_sorted l ro : stable_grouping l ro -> StronglySorted le (map (fun i => nth i l 0) ro).
Proof.
  intros [_ H]. induction ro as [|i ro IH]; simpl; constructor.
  - apply IH. intros p q a b Hp Ha Hb. apply (H (S p) (S q)); [lia|auto|auto].
  - apply Forall_forall. intros x Hx. apply in_map_iff in Hx as (j & <- & Hj). apply In_nth_error in Hj as [q Hq].
    destruct (H 0 (S q) i j) as [Hl|[Hl _]]; [lia|reflexivity|exact Hq|lia|lia].
Qed.

Lemma couple_dense sort criterion n_topo n_obj find include n cp0 g : g < n_topo ->
  fst (couple_objects sort criterion false n_topo n_obj find include n cp0) g =
    G_dense (mkDense (n_obj g) (fst (build_dense_mapping sort criterion (map fst (collect find include n g)) (n_obj g)))).
Proof.
  unfold couple_objects. cbn zeta.
  induction n_topo as [|k IH]; intros Hg; [lia|]. rewrite seq_S, fold_left_app. cbn [fold_left Nat.add].
  match goal with |- context [fold_left ?F (seq 0 k) ?A] => set (st := fold_left F (seq 0 k) A) in * end.
  unfold make_grouped at 1.
  destruct (build_dense_mapping sort criterion (map fst (collect find include n k)) (n_obj k)) as [vec ro] eqn:E. cbn [fst].
  destruct (Nat.eq_dec g k) as [->|Hn]; [rewrite fupd_eq, E; reflexivity|]. rewrite fupd_neq by auto. apply IH. lia.
Qed.

Section Link.
Context {P LT : Type} (padd : P -> P -> P) (p0 : P) (popp : P -> P).
Variable sort : list (nat * nat) -> list (nat * nat).
Variable criterion : nat -> nat -> bool.
Variable t : comp_topo.
Variable c : comp_conn (P := P).
Variable o : objects LT.
Hypothesis sort_ok : sort_contract sort.
Hypothesis wf : well_formed t c.
Variable st : search_state (P := P).
Hypothesis HS : dfs_search padd p0 popp t c = Some st.
Variables (g : nat) (m : math_graph (P := P)).
Hypothesis Hm : nth_error (models st) g = Some m.
Notation br := (couple_branch (bus st) t c).
Notation linked := (bus_link popp t c st g).

Lemma shift2 k i j : nth_error (branch_node_idx t) k = Some (i, j) -> exists h, nth_error (branch_phase_shift c) k = Some h.
Proof.
  intros H. destruct (nth_error (branch_phase_shift c) k) eqn:E; eauto. apply nth_error_None in E. destruct (wf_branch_len t c wf) as [_ El].
  assert (k < length (branch_node_idx t)) by (apply nth_error_Some; congruence). lia.
Qed.
Lemma shift3 k ns : nth_error (branch3_node_idx t) k = Some ns -> exists h, nth_error (branch3_phase_shift c) k = Some h.
Proof.
  intros H. destruct (nth_error (branch3_phase_shift c) k) eqn:E; eauto. apply nth_error_None in E. destruct (wf_branch3_len t c wf) as [_ El].
  assert (k < length (branch3_node_idx t)) by (apply nth_error_Some; congruence). lia.
Qed.

Lemma bus_once x y b : bus st x = Some b -> bus st y = Some b -> x = y.
Proof. destruct (C15_energised padd p0 popp t c wf) as (st' & E & _ & _ & H & _). assert (st' = st) as -> by congruence. apply H. Qed.
Lemma bus_some p : (exists x, bus st x = Some (g, p)) <-> p < n_bus m.
Proof.
  destruct (C15_energised padd p0 popp t c wf) as (st' & E & _ & _ & _ & H). assert (st' = st) as -> by congruence. rewrite (H g p). rewrite Hm.
  split; [intros (m' & [= <-] & H'); auto|eauto].
Qed.

(** the ends of a math branch *)
Lemma branch_of q ei ej : nth_error (branch_bus_idx br g) q = Some (ei, ej) ->
  (forall p, ei = Some p -> exists x, bus st x = Some (g, p)) /\ (forall p, ej = Some p -> exists x, bus st x = Some (g, p)) /\
  (ei <> None \/ ej <> None) /\ (forall p p', ei = Some p -> ej = Some p' -> p <> p' -> linked p p').
Proof.
  intros Hq. pose proof (all_branches padd p0 popp criterion t c st wf HS) as HB.
  assert (Hlt : q < length (branch_bus_idx br g)) by (apply nth_error_Some; congruence).
  apply (ba_dense _ _ _ _ HB) in Hlt as [ow How].
  destruct (couple_branch_spec (bus st) t c) as ((O1 & _ & _) & _ & _). destruct (O1 _ _ _ How) as (x & Hx & Hb).
  assert (x = (ei, ej)) as -> by congruence. clear Hx O1. destruct ow as [k|k s].
  - destruct Hb as (i & j & si & sj & H1 & H2 & HG & _).
    assert (Hc : (si = true /\ bus st i <> None) \/ (sj = true /\ bus st j <> None)).
    { unfold group2, or_else, group_if in HG. cbn [fst snd] in HG. destruct si.
      - destruct (bus st i) as [[g' p']|] eqn:Ei; [left; split; [auto|discriminate]|]. simpl in HG.
        destruct sj; [|discriminate]. right. split; auto. destruct (bus st j); [discriminate|discriminate].
      - destruct sj; [|discriminate]. right. split; auto. destruct (bus st j); [discriminate|discriminate]. }
    destruct (ba_on _ _ _ _ HB k i j si sj H1 H2 Hc) as (g' & q' & ei' & ej' & E1 & E2 & E3 & E4).
    cbn [owner_pos] in How. rewrite How in E1. injection E1 as <- <-. rewrite Hq in E2. injection E2 as <- <-.
    unfold branch_end in E3, E4. refine (conj _ (conj _ (conj _ _))).
    + intros p ->. destruct si; [destruct E3 as (p' & E & [= <-]); eauto|discriminate].
    + intros p ->. destruct sj; [destruct E4 as (p' & E & [= <-]); eauto|discriminate].
    + destruct Hc as [[-> _]|[-> _]]; [destruct E3 as (p' & _ & ->); left; discriminate|destruct E4 as (p' & _ & ->); right; discriminate].
    + intros p p' -> -> Hn. destruct si; [|discriminate]. destruct sj; [|discriminate].
      destruct E3 as (p1 & E3 & [= <-]), E4 as (p2 & E4 & [= <-]). destruct (shift2 k i j H1) as [h Hh]. exists i, j, (popp h).
      refine (conj E3 (conj E4 _)). eapply link_to; eauto. congruence.
  - destruct Hb as (ns & cs & H1 & H2 & HG & _). destruct (group3_Some _ _ _ _ HG) as (s0 & Hs0 & Hg0).
    assert (Hn0 : bus st (of_side s0 ns) <> None) by (destruct (bus st (of_side s0 ns)); [discriminate|discriminate]).
    destruct (ba_on3 _ _ _ _ HB k ns cs s0 H1 H2 Hs0 Hn0) as (g' & pj & ps & E1 & E2 & E3).
    cbn [owner_pos] in How. rewrite E1 in How. injection How as -> <-.
    destruct (E3 s) as (e & E4 & E5). rewrite Hq in E4. injection E4 as <- ->. unfold branch_end in E5.
    refine (conj _ (conj _ (conj _ _))).
    + intros p ->. destruct (of_side s cs); [destruct E5 as (p' & E & [= <-]); eauto|discriminate].
    + intros p [= <-]. eauto.
    + right. discriminate.
    + intros p p' -> [= <-] Hn. destruct (of_side s cs) eqn:Ecs; [|discriminate]. destruct E5 as (p1 & E5 & [= <-]).
      destruct (shift3 k ns H1) as [hs Hh]. exists (of_side s ns), (n_node t + k), (popp (of_side s hs)). refine (conj E5 (conj E2 _)).
      eapply link_in; eauto.
Qed.

(** a link is a math branch *)
Lemma linked_branch p p' : linked p p' -> p <> p' /\
  exists q, nth_error (branch_bus_idx br g) q = Some (Some p, Some p') \/ nth_error (branch_bus_idx br g) q = Some (Some p', Some p).
Proof.
  intros (x & y & h & Hx & Hy & HL). pose proof (all_branches padd p0 popp criterion t c st wf HS) as HB.
  assert (U2 : forall k i j pi pj, nth_error (branch_node_idx t) k = Some (i, j) -> nth_error (branch_connected c) k = Some (true, true) ->
    bus st i = Some (g, pi) -> bus st j = Some (g, pj) -> exists q, nth_error (branch_bus_idx br g) q = Some (Some pi, Some pj)).
  { intros k i j pi pj H1 H2 Hi Hj. destruct (ba_on _ _ _ _ HB k i j true true H1 H2) as (g' & q & ei & ej & _ & E2 & (p1 & E3 & ->) & (p2 & E4 & ->)).
    - left. split; auto. congruence.
    - rewrite Hi in E3. rewrite Hj in E4. injection E3 as <- <-. injection E4 as <-. eauto. }
  assert (U3 : forall k ns cs s ps pj, nth_error (branch3_node_idx t) k = Some ns -> nth_error (branch3_connected c) k = Some cs -> of_side s cs = true ->
    bus st (of_side s ns) = Some (g, ps) -> bus st (n_node t + k) = Some (g, pj) -> exists q, nth_error (branch_bus_idx br g) q = Some (Some ps, Some pj)).
  { intros k ns cs s ps pj H1 H2 H3 Hi Hj. destruct (ba_on3 _ _ _ _ HB k ns cs s H1 H2 H3) as (g' & pj' & ps' & E1 & E2 & E3); [congruence|].
    rewrite Hj in E2. injection E2 as <- <-. destruct (E3 s) as (e & E4 & E5). unfold branch_end in E5. rewrite H3 in E5. destruct E5 as (p1 & E5 & ->).
    rewrite Hi in E5. injection E5 as <-. eauto. }
  assert (Hne : x <> y -> p <> p') by (intros Hn ->; apply Hn; eapply bus_once; eauto).
  destruct HL as [k i j h H1 H2 H3 H4|k i j h H1 H2 H3 H4|k b s cs hs H1 H2 H3 H4|k b s cs hs H1 H2 H3 H4].
  - split; [auto|]. destruct (U2 k i j p p') as [q Hq]; eauto.
  - split; [auto|]. destruct (U2 k i j p' p) as [q Hq]; eauto.
  - split; [apply Hne; pose proof (wf_branch3 t c wf k b s H1); lia|]. destruct (U3 k b cs s p p') as [q Hq]; eauto.
  - split; [apply Hne; pose proof (wf_branch3 t c wf k b s H1); lia|]. destruct (U3 k b cs s p' p) as [q Hq]; eauto.
Qed.

Lemma one_bus : 0 < n_bus m.
Proof.
  destruct (dfs_search_T padd p0 popp t c wf) as (st' & nodes & E' & HT). assert (st' = st) as -> by congruence.
  destruct (T_model _ _ _ _ _ _ _ _ _ _ HT Hm) as (l & Hl & [_ _ _ S4 _ (r & k & _ & _ & B3 & _)]). unfold n_bus. rewrite S4, map_length.
  assert (slack_bus m < length l) by (apply nth_error_Some; congruence). lia.
Qed.

(** with two buses or more, every bus has a neighbour *)
Lemma neighbour p : 2 <= n_bus m -> p < n_bus m -> exists p', linked p' p.
Proof.
  intros H2 Hp. destruct (proj2 (bus_some p) Hp) as [x Hx].
  destruct (proj2 (bus_some (if p =? 0 then 1 else 0))) as [y Hy]; [destruct (p =? 0); lia|].
  assert (Hxy : y <> x). { intros ->. assert (E : p = if p =? 0 then 1 else 0) by congruence. destruct (Nat.eqb_spec p 0); lia. }
  destruct (C15_energised padd p0 popp t c wf) as (st' & E & HE & HG & _ & _). assert (st' = st) as -> by congruence.
  destruct (proj1 (HG y x _ _ _ _ Hy Hx) eq_refl) as [h Hpath]. destruct Hpath as [|z x h h' Hpath HL]; [congruence|].
  pose proof (bus_link_group padd p0 popp t c st wf HS z x h' HL) as Hgr. rewrite Hx in Hgr.
  destruct (bus st z) as [[g' pz]|] eqn:Ez; [|discriminate]. injection Hgr as ->. exists pz, z, x, h'. auto.
Qed.

Variable r : coupled (LT := LT).
Hypothesis Hr : build_topology padd p0 popp sort criterion t c o = Some (st, r).
Lemma r_eq : r = couple_all sort criterion (bus st) (length (models st)) (fun g => match nth_error (models st) g with Some m => n_bus m | None => 0 end) t c o.
Proof. unfold build_topology in Hr. rewrite HS in Hr. now injection Hr as <-. Qed.

Lemma the_topo : exists sh, fst (shunts r) g = G_dense sh /\ d_num sh = n_bus m /\ StronglySorted le (d_vec sh) /\ forall b, In b (d_vec sh) -> b < n_bus m.
Proof.
  rewrite r_eq. unfold couple_all. cbn zeta. cbn [shunts].
  rewrite couple_dense by (apply nth_error_Some; congruence). rewrite Hm. eexists. refine (conj eq_refl (conj eq_refl _)). cbn [d_vec].
  set (l := map fst _).
  assert (Hl : forall x, In x l -> x < n_bus m).
  { intros x Hx. unfold l in Hx. apply in_map_iff in Hx as ([p k] & <- & Hin). apply (collect_In criterion) in Hin as (_ & _ & E). cbn [fst].
    unfold find_single in E. destruct (nth_error (shunt_node o) k) as [y|]; [|discriminate]. apply bus_some. exists y. exact E. }
  pose proof (C05_dense_mapping sort criterion l (n_bus m) sort_ok Hl) as H5.
  destruct (build_dense_mapping sort criterion l (n_bus m)) as [vec ro]. destruct H5 as [H5 ->]. cbn [fst]. split; [now apply stable_sorted|].
  intros b Hb. apply in_map_iff in Hb as (i & <- & Hi). apply Hl, nth_In. destruct H5 as [H5 _]. apply (Permutation_in _ H5), in_seq in Hi. lia.
Qed.

Lemma fills_ok : complete_fill_in linked (seq 0 (n_bus m)) (fill_in m).
Proof. exact (C18_sub_grid_fill_in padd p0 popp t c wf st HS g m Hm). Qed.

Lemma before_seq n u v : before (seq 0 n) u v <-> u < v < n.
Proof.
  split.
  - intros (l1 & l2 & E & Hin). assert (Hu : nth_error (seq 0 n) (length l1) = Some u) by (rewrite E, nth_error_app2, Nat.sub_diag by lia; reflexivity).
    apply In_nth_error in Hin as [q Hq].
    assert (Hv : nth_error (seq 0 n) (length l1 + S q) = Some v) by (rewrite E, nth_error_app2 by lia; replace (length l1 + S q - length l1) with (S q) by lia; exact Hq).
    apply nth_seq in Hu as [_ ->]. apply nth_seq in Hv as [H ->]. lia.
  - intros [H1 H2]. exists (seq 0 u), (seq (S u) (n - S u)). split; [|apply in_seq; lia].
    replace n with (u + S (n - S u)) at 1 by lia. now rewrite seq_app.
Qed.

Lemma fill_range i j : In (i, j) (fill_in m) -> i < n_bus m /\ j < n_bus m /\ i <> j.
Proof.
  intros H. pose proof fills_ok as F. assert (HF : SparseOrderingSpec.filled linked (seq 0 (n_bus m)) i j) by (apply (fill_exact _ _ _ F); auto).
  destruct HF as [v w HE|u v w B1 B2 Hn _ _]; [exfalso; exact (fill_new _ _ _ F _ _ H HE)|].
  apply before_seq in B1, B2. lia.
Qed.

Lemma linked_sym i j : linked i j -> linked j i.
Proof.
  intros (x & y & h & Hx & Hy & HL).
  assert (exists h', link popp t c y x h') as [h' HL'].
  { destruct HL as [k a b h H1 H2 H3 H4|k a b h H1 H2 H3 H4|k b s cs hs H1 H2 H3 H4|k b s cs hs H1 H2 H3 H4].
    - eexists. eapply link_from; eauto.
    - eexists. eapply link_to; eauto.
    - eexists. eapply link_out; eauto.
    - eexists. eapply link_in; eauto. }
  exists y, x, h'. auto.
Qed.

Lemma topo_member mt i j : math_topo_of st r g = Some mt -> i <> j -> ((exists e, member mt e i j) <-> linked i j).
Proof.
  unfold math_topo_of. rewrite Hm. destruct the_topo as (sh & -> & _). intros [= <-] Hn.
  assert (Hbr : cp_branches r = br) by (rewrite r_eq; reflexivity). rewrite Hbr. split.
  - intros [e He]. inversion He; subst; try congruence; cbn [mt_branch] in *.
    + match goal with H : nth_error _ _ = Some _ |- _ => destruct (branch_of _ _ _ H) as (_ & _ & _ & HL) end. now apply HL.
    + match goal with H : nth_error _ _ = Some _ |- _ => destruct (branch_of _ _ _ H) as (_ & _ & _ & HL) end. apply linked_sym. apply HL; auto.
  - intros HL. apply linked_branch in HL as (_ & q & [Hq|Hq]).
    + eexists. eapply m_ft. exact Hq.
    + eexists. eapply m_tf. exact Hq.
Qed.

Lemma topo_ok : exists mt, math_topo_of st r g = Some mt /\ mt_n_bus mt = n_bus m /\ mt_branch mt = branch_bus_idx (cp_branches r) g /\
  fst (shunts r) g = G_dense (mt_shunt mt) /\ mt_fill_in mt = fill_in m /\ sub_grid_ok mt.
Proof.
  destruct the_topo as (sh & Esh & Hsn & Hss & Hsb).
  exists (mkMathTopo (n_bus m) (branch_bus_idx (cp_branches r) g) sh (fill_in m)).
  assert (Emt : math_topo_of st r g = Some (mkMathTopo (n_bus m) (branch_bus_idx (cp_branches r) g) sh (fill_in m))) by (unfold math_topo_of; now rewrite Hm, Esh).
  refine (conj Emt (conj eq_refl (conj eq_refl (conj Esh (conj eq_refl _))))).
  assert (Hbr : cp_branches r = br) by (rewrite r_eq; reflexivity).
  constructor; cbn [mt_n_bus mt_branch mt_shunt mt_fill_in].
  - intros k [ei ej] Hk. rewrite Hbr in Hk. destruct (branch_of _ _ _ Hk) as (H1 & H2 & _). cbn [fst snd].
    split; intros i ->; apply bus_some; auto.
  - exact Hsn.
  - exact Hss.
  - exact Hsb.
  - apply fill_range.
  - intros p q i j Hp Hq. pose proof fills_ok as F. destruct (fill_once _ _ _ F) as [F1 F2]. destruct Hq as [Hq|Hq].
    + apply (proj1 (NoDup_nth_error (fill_in m)) F1); [apply nth_error_Some; congruence|congruence].
    + exfalso. apply nth_error_In in Hp, Hq. exact (F2 _ _ Hp Hq).
  - intros i j e Hf He. cbn [mt_fill_in] in Hf. pose proof fills_ok as F. unfold filled in Hf. cbn [mt_fill_in] in Hf.
    assert (Hn : i <> j) by (destruct Hf as [Hf|Hf]; apply fill_range in Hf; lia).
    assert (HL : linked i j) by (eapply topo_member; [exact Emt|exact Hn|eauto]).
    destruct Hf as [Hf|Hf]; [exact (fill_new _ _ _ F _ _ Hf HL)|exact (fill_new _ _ _ F _ _ Hf (linked_sym _ _ HL))].
  - destruct (Nat.le_gt_cases 2 (n_bus m)) as [H2|H2].
    + left. intros i Hi. destruct (neighbour i H2 Hi) as [p' HL]. apply linked_branch in HL as (_ & q & [Hq|Hq]); rewrite <- Hbr in Hq.
      * eexists. eapply m_tt. exact Hq.
      * eexists. eapply m_ff. exact Hq.
    + pose proof one_bus. assert (E1 : n_bus m = 1) by lia.
      destruct (branch_bus_idx (cp_branches r) g) as [|[ei ej] bs] eqn:Eb.
      * destruct (d_vec sh) as [|b vs] eqn:Ev; [right; auto|]. left. intros i Hi.
        assert (b = 0) as -> by (specialize (Hsb b (or_introl eq_refl)); lia). assert (i = 0) as -> by lia.
        exists (mkElement E_shunt 0). apply m_shunt. cbn [mt_shunt]. now rewrite Ev.
      * left. intros i Hi. assert (i = 0) as -> by lia. assert (H0 : nth_error (branch_bus_idx br g) 0 = Some (ei, ej)) by (rewrite <- Hbr, Eb; reflexivity).
        destruct (branch_of _ _ _ H0) as (B1 & B2 & B3 & _). destruct ei as [pi|].
        { assert (pi = 0) as -> by (pose proof (proj1 (bus_some pi) (B1 pi eq_refl)); lia). exists (mkElement E_bff 0). eapply m_ff. cbn [mt_branch]. reflexivity. }
        { destruct ej as [pj|]; [|destruct B3; congruence].
          assert (pj = 0) as -> by (pose proof (proj1 (bus_some pj) (B2 pj eq_refl)); lia). exists (mkElement E_btt 0). eapply m_tt. cbn [mt_branch]. reflexivity. }
  - exact one_bus.
Qed.
End Link.

(** C19 for networks: for every well-formed network the topology is built, each of its sub-grids gets the structure C19 asks for,
    and elimination in bus order stays inside the pattern with fill-ins. *)
Theorem C19_network {P LT : Type} (padd : P -> P -> P) (p0 : P) (popp : P -> P) sort criterion t c (o : objects LT) :
  sort_contract sort -> well_formed t c ->
  exists st r, build_topology padd p0 popp sort criterion t c o = Some (st, r) /\ all_attached t c o st r /\
    forall g m, nth_error (models st) g = Some m ->
    exists mt s, math_topo_of st r g = Some mt /\
      mt_n_bus mt = n_bus m /\ mt_branch mt = branch_bus_idx (cp_branches r) g /\ fst (shunts r) g = G_dense (mt_shunt mt) /\
      sub_grid_ok mt /\ build_structure mt = Some s /\ structure_ok mt s /\ closed_pattern (row_indptr_lu s) (col_indices_lu s).
Proof.
  intros Hsort wf. destruct (C17_attached padd p0 popp sort criterion t c o Hsort wf) as (st & r & E & HA). exists st, r.
  refine (conj E (conj HA _)). intros g m Hm.
  assert (HS : dfs_search padd p0 popp t c = Some st).
  { unfold build_topology in E. destruct (dfs_search padd p0 popp t c) as [st'|]; [|discriminate]. now injection E as <- _. }
  destruct (topo_ok padd p0 popp sort criterion t c o Hsort wf st HS g m Hm r E) as (mt & E1 & E2 & E3 & E4 & E5 & Hok).
  destruct (C19_structure mt Hok) as (s & Es & Hs). exists mt, s.
  refine (conj E1 (conj E2 (conj E3 (conj E4 (conj Hok (conj Es (conj Hs _))))))).
  pose proof (fills_ok padd p0 popp t c wf st HS g m Hm) as F. set (linked := bus_link popp t c st g) in *.
  assert (X : forall i j, i <> j -> ((exists e, csr_at (row_indptr_lu s) (col_indices_lu s) e i j) <-> SparseOrderingSpec.filled linked (seq 0 (n_bus m)) i j)).
  { intros i j Hn. rewrite (so_pattern_lu _ _ Hs), (so_pattern _ _ Hs), (fill_exact _ _ _ F). unfold filled. rewrite E5.
    pose proof (topo_member padd p0 popp sort criterion t c o Hsort wf st HS g m Hm r E mt i j E1 Hn) as HM. fold linked in HM. tauto. }
  intros i j k Hij Hik Hj Hk. destruct (Nat.eq_dec j k) as [->|Hjk].
  - apply (so_pattern_lu _ _ Hs). left. apply (so_pattern _ _ Hs). left. split; auto. destruct Hj as (e & He & _).
    apply (csr_range _ _ _ (so_csr_lu _ _ Hs)). exact (nth_error_In _ _ He).
  - apply X; auto. assert (Rj : j < n_bus m) by (rewrite <- E2; destruct Hj as (e & He & _); apply (csr_range _ _ _ (so_csr_lu _ _ Hs)); exact (nth_error_In _ _ He)).
    assert (Rk : k < n_bus m) by (rewrite <- E2; destruct Hk as (e & He & _); apply (csr_range _ _ _ (so_csr_lu _ _ Hs)); exact (nth_error_In _ _ He)).
    apply (filled_fill _ _ i); [apply before_seq; lia|apply before_seq; lia|auto|apply X; [lia|auto]|apply X; [lia|auto]].
Qed.

(** the network of TopologyProps with the objects of CouplingProps: two sub-grids *)
Example demo_network_structures :
  match build_topology Z.add 0%Z Z.opp isort (fun _ _ => false) demo_topo demo_conn demo_objects with
  | Some (st, r) => map (fun g => match math_topo_of st r g with
      | Some mt => match build_structure mt with Some s => Some (row_indptr_lu s, length (col_indices s), length (col_indices_lu s)) | None => None end
      | None => None end) [0; 1]
      = [Some ([0; 2; 5; 8; 11; 16; 20; 25], 23, 25); Some ([0; 2; 4], 4, 4)]
  | None => False
  end.
Proof. vm_compute. reflexivity. Qed.
Print Assumptions C19_network.
