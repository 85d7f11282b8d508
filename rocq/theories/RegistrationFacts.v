(** The registered topology describes the input records. *)
From Verif Require Import Common NatMap SparseOrdering GroupedIdxFacts Container ContainerSpec ContainerFacts ContainerProps Topology TopologySpec TopologyProps Coupling CouplingSpec CouplingProps
  Registration RegistrationSpec.

Lemma mapO_ok {A B} (f : A -> option B) l : (forall a, In a l -> exists b, f a = Some b) -> exists l', mapO f l = Some l' /\ Forall2 (fun a b => f a = Some b) l l'.
Proof.
  induction l as [|a l IH]; intros H; [exists []; split; auto; constructor|].
  destruct (H a (or_introl eq_refl)) as [b Eb]. destruct IH as (l' & E & F); [intros x Hx; apply H; now right|].
  exists (b :: l'). simpl. rewrite Eb, E. split; auto.
Qed.
Lemma mapO_some {A B} (f : A -> option B) l l' : mapO f l = Some l' -> Forall2 (fun a b => f a = Some b) l l'.
Proof.
  revert l'. induction l as [|a l IH]; simpl; intros l' H.
  - injection H as <-. constructor.
  - destruct (f a) eqn:E; [|discriminate]. destruct (mapO f l) eqn:El; [|discriminate]. injection H as <-. constructor; auto.
Qed.
Lemma mapO_total {A B} (f : A -> B) l : mapO (fun a => Some (f a)) l = Some (map f l).
Proof. induction l as [|a l IH]; simpl; [auto|now rewrite IH]. Qed.
Lemma mapO_nth {A} (l : list A) : mapO (nth_error l) (seq 0 (length l)) = Some l.
Proof.
  assert (X : forall pre l : list A, mapO (nth_error (pre ++ l)) (seq (length pre) (length l)) = Some l).
  { intros pre l0. revert pre. induction l0 as [|a l0 IH]; intros pre; [reflexivity|]. cbn [length seq mapO].
    rewrite nth_error_app2, Nat.sub_diag by lia. cbn [nth_error].
    replace (pre ++ a :: l0) with ((pre ++ [a]) ++ l0) by now rewrite <- app_assoc.
    replace (S (length pre)) with (length (pre ++ [a])) by (rewrite app_length; simpl; lia). now rewrite IH. }
  exact (X [] l).
Qed.
Lemma Forall2_impl_in {A B} (R R' : A -> B -> Prop) l l' : Forall2 R l l' -> (forall a b, In a l -> R a b -> R' a b) -> Forall2 R' l l'.
Proof. induction 1 as [|a b l l' H HF IH]; intros HI; constructor; [apply HI; [now left|auto]|apply IH; intros x y Hx; apply HI; now right]. Qed.
Lemma Forall2_nth_l {A B} (R : A -> B -> Prop) l l' k a : Forall2 R l l' -> nth_error l k = Some a -> exists b, nth_error l' k = Some b /\ R a b.
Proof. intros H. revert k. induction H as [|x y l l' Hxy HF IH]; intros [|k] E; try discriminate; simpl in *; [injection E as ->; eauto|auto]. Qed.
Lemma Forall2_nth_r {A B} (R : A -> B -> Prop) l l' k b : Forall2 R l l' -> nth_error l' k = Some b -> exists a, nth_error l k = Some a /\ R a b.
Proof. intros H. revert k. induction H as [|x y l l' Hxy HF IH]; intros [|k] E; try discriminate; simpl in *; [injection E as ->; eauto|auto]. Qed.
Lemma Forall2_same_len {A B} (R : A -> B -> Prop) l l' : Forall2 R l l' -> length l = length l'.
Proof. induction 1; simpl; auto. Qed.

Section Facts.
Variable ck : ctype -> Z -> cinput -> option exn.
Variable data : ctype -> list (Z * cinput).
Variable c : mcontainer.
Hypothesis Hc : create_model ck data = Ok c.
Hypothesis HL : layouts_ok data.
Notation components := (components data).
Notation number_of := (number_of data).

Lemma lists_components g : concat (lists_of (is_base g) c) = components g.
Proof.
  destruct (create_model_ok _ _ _ Hc) as [[Hlen _] HV]. unfold lists_of, RegistrationSpec.components. rewrite Hlen, flat_map_concat_map. f_equal.
  transitivity (map (fun i => match nth_error all_ctypes i with
                  | Some t => if derives g t then map (fun r => mkEntry t (fst r) (snd r)) (data t) else [] | None => [] end) (seq 0 (length all_ctypes))); [|reflexivity].
  apply map_ext_in. intros i Hi. apply in_seq in Hi. destruct (idx_lt_ctype i) as [t <-]; [lia|]. rewrite is_base_idx, all_ctypes_nth, HV. reflexivity.
Qed.
Lemma size_components g : size_of (is_base g) c = length (components g).
Proof. now rewrite size_of_concat, lists_components. Qed.
Lemma seq_component g k : get_item_by_seq (is_base g) c k = nth_error (components g) k.
Proof. now rewrite item_by_seq, lists_components. Qed.
Lemma citer_components g : citer g c = Some (components g).
Proof.
  unfold citer. rewrite size_components. rewrite <- (mapO_nth (components g)).
  induction (seq 0 (length (components g))) as [|i l IH]; simpl; [auto|]. now rewrite seq_component, IH.
Qed.
Lemma in_components g e : In e (components g) <-> exists t r, derives g t = true /\ In r (data t) /\ e = mkEntry t (fst r) (snd r).
Proof.
  unfold RegistrationSpec.components. rewrite in_flat_map. split.
  - intros (t & _ & H). destruct (derives g t) eqn:E; [|contradiction]. apply in_map_iff in H as (r & <- & Hr). eauto.
  - intros (t & r & Hd & Hr & ->). exists t. split; [apply all_ctypes_complete|]. rewrite Hd. apply in_map_iff. eauto.
Qed.
Lemma exact_components t : components (GExact t) = map (fun r => mkEntry t (fst r) (snd r)) (data t).
Proof. unfold RegistrationSpec.components. destruct t; cbn; now rewrite ?app_nil_r. Qed.
Lemma component_seq g t n r : derives g t = true -> nth_error (data t) n = Some r ->
  exists k, get_seq (is_base g) c (ctype_idx t, n) = Some k /\ nth_error (components g) k = Some (mkEntry t (fst r) (snd r)).
Proof.
  intros Hd Hn. destruct (create_model_ok _ _ _ Hc) as [[Hlen _] HV].
  destruct (seq_round_trip (is_base g) c (ctype_idx t) n) as (k & H1 & H2 & H3 & H4).
  - rewrite Hlen. apply ctype_idx_lt.
  - now rewrite is_base_idx.
  - rewrite HV. unfold entries. rewrite map_length. apply nth_error_Some. congruence.
  - exists k. split; auto. rewrite <- lists_components, H4, HV. unfold entries. rewrite nth_error_map, Hn. reflexivity.
Qed.
Lemma seq_of_id_ok g id : has_kind data g id -> exists k, seq_of_id g c id = Some k /\ number_of g id k.
Proof.
  intros (t & n & Hr & Hd). pose proof (create_model_find ck data c id t n Hc) as HF. unfold record_at in Hr. apply HF in Hr as Hm.
  unfold seq_of_id. rewrite Hm. destruct (nth_error (data t) n) as [r|] eqn:En; [|discriminate]. injection Hr as <-.
  destruct (component_seq g t n r Hd En) as (k & H1 & H2). exists k. split; auto. exists (mkEntry t (fst r) (snd r)). auto.
Qed.
Lemma refs_of e g : In e (components g) -> references_ok data (e_in e) /\ layout_ok (e_type e) (e_in e) /\ derives g (e_type e) = true.
Proof.
  intros H. apply in_components in H as (t & r & Hd & Hr & ->). destruct (create_sound ck data c Hc) as (_ & _ & H). cbn [e_in e_type].
  split; [apply (H t r Hr)|]. split; auto.
Qed.
Lemma has_kind_sub g g' id : (forall t, derives g t = true -> derives g' t = true) -> has_kind data g id -> has_kind data g' id.
Proof. intros H (t & n & Hr & Hd). exists t, n. auto. Qed.

Lemma apply_ok {B} g (f : centry -> option B) (R : centry -> B -> Prop) :
  (forall e, In e (components g) -> exists b, f e = Some b /\ R e b) -> exists l, apply_registration g c f = Some l /\ Forall2 R (components g) l.
Proof.
  intros H. unfold apply_registration. rewrite citer_components. destruct (mapO_ok f (components g)) as (l & E & F).
  { intros e He. destruct (H e He) as (b & Eb & _). eauto. }
  exists l. split; auto. apply (Forall2_impl_in _ _ _ _ F). intros e b He Eb. destruct (H e He) as (b' & Eb' & HR). congruence.
Qed.
Lemma apply_map {B} g (f : centry -> B) : apply_registration g c (fun e => Some (f e)) = Some (map f (components g)).
Proof. unfold apply_registration. rewrite citer_components. apply mapO_total. Qed.

Context {P LT : Type} (at_ : attributes P LT).

Lemma appliances_ok g : (forall t, derives g t = true -> derives GAppliance t = true) ->
  exists l, apply_registration g c (reg_appliance c) = Some l /\ Forall2 (fun e i => exists n, e_in e = IAppliance n /\ number_of (GExact Node) n i) (components g) l.
Proof.
  intros Hg. apply apply_ok. intros e He. apply refs_of in He as (Hr & Hlay & Hd). apply Hg in Hd. unfold reg_appliance.
  destruct (e_type e); try discriminate Hd; destruct (e_in e); try contradiction; simpl in Hr; destruct (seq_of_id_ok _ _ Hr) as (k & E & H); eauto.
Qed.
Lemma branches_ok : exists l, apply_registration GBranch c (reg_branch c) = Some l /\
  Forall2 (fun e ij => exists f to, e_in e = IBranch f to /\ number_of (GExact Node) f (fst ij) /\ number_of (GExact Node) to (snd ij)) (components GBranch) l.
Proof.
  apply apply_ok. intros e He. apply refs_of in He as (Hr & Hlay & Hd). unfold reg_branch.
  destruct (e_type e); try discriminate Hd; destruct (e_in e) as [|f to| | | | | | | |]; try contradiction; simpl in Hr; destruct Hr as [H1 H2];
    destruct (seq_of_id_ok _ _ H1) as (k1 & E1 & N1); destruct (seq_of_id_ok _ _ H2) as (k2 & E2 & N2); rewrite E1, E2; exists (k1, k2); simpl; eauto 8.
Qed.
Lemma branches3_ok : exists l, apply_registration GBranch3 c (reg_branch3 c) = Some l /\
  Forall2 (fun e ijk => exists n1 n2 n3, e_in e = IBranch3 n1 n2 n3 /\ number_of (GExact Node) n1 (fst (fst ijk)) /\ number_of (GExact Node) n2 (snd (fst ijk)) /\
    number_of (GExact Node) n3 (snd ijk)) (components GBranch3) l.
Proof.
  apply apply_ok. intros e He. apply refs_of in He as (Hr & Hlay & Hd). unfold reg_branch3.
  destruct (e_type e); try discriminate Hd; destruct (e_in e) as [| |n1 n2 n3| | | | | | |]; try contradiction; simpl in Hr; destruct Hr as (H1 & H2 & H3);
    destruct (seq_of_id_ok _ _ H1) as (k1 & E1 & N1); destruct (seq_of_id_ok _ _ H2) as (k2 & E2 & N2); destruct (seq_of_id_ok _ _ H3) as (k3 & E3 & N3);
    rewrite E1, E2, E3; exists (k1, k2, k3); simpl; split; auto; exists n1, n2, n3; auto.
Qed.
Lemma voltage_ok : exists l, apply_registration GGenericVoltageSensor c (reg_voltage_sensor c) = Some l /\
  Forall2 (fun e i => exists n, e_in e = IVoltageSensor n /\ number_of (GExact Node) n i) (components GGenericVoltageSensor) l.
Proof.
  apply apply_ok. intros e He. apply refs_of in He as (Hr & Hlay & Hd). unfold reg_voltage_sensor.
  destruct (e_type e); try discriminate Hd; destruct (e_in e); try contradiction; simpl in Hr; destruct (seq_of_id_ok _ _ Hr) as (k & E & H); eauto.
Qed.
Lemma power_ok : exists l, apply_registration GGenericPowerSensor c (reg_power_sensor c) = Some l /\
  Forall2 (fun e kt => exists x ty, e_in e = IPowerSensor x ty /\ same_terminal ty (snd kt) /\ number_of (measured_kind (snd kt)) x (fst kt)) (components GGenericPowerSensor) l.
Proof.
  apply apply_ok. intros e He. apply refs_of in He as (Hr & Hlay & Hd). unfold reg_power_sensor.
  assert (HI : exists x ty, e_in e = IPowerSensor x ty) by (destruct (e_type e); try discriminate Hd; destruct (e_in e); try contradiction; eauto).
  destruct HI as (x & ty & Ein). rewrite Ein in Hr |- *. destruct Hr as [_ Hr].
  assert (HK : forall g, has_kind data g x -> exists k, seq_of_id g c x = Some k /\ number_of g x k) by (intros g; apply seq_of_id_ok).
  assert (HLG : forall g, (forall t, derives g t = true -> derives GGenericLoadGen t = true) -> has_kind data g x -> exists k, seq_of_id GGenericLoadGen c x = Some k /\ number_of GGenericLoadGen x k)
    by (intros g Hg H; apply HK; now apply (has_kind_sub g)).
  destruct ty; try contradiction; cbn [withO];
    first [ destruct (HLG GGenericLoad) as (k & E & H); [intros []; discriminate || reflexivity|exact Hr|]
          | destruct (HLG GGenericGenerator) as (k & E & H); [intros []; discriminate || reflexivity|exact Hr|]
          | destruct (HK _ Hr) as (k & E & H) ]; rewrite E; eexists; (split; [reflexivity|]); exists x; eexists; (split; [reflexivity|]); simpl; auto.
Qed.
Lemma current_ok : exists l, apply_registration GGenericCurrentSensor c (reg_current_sensor c) = Some l /\
  Forall2 (fun e kt => exists x ty, e_in e = ICurrentSensor x ty /\ same_terminal ty (snd kt) /\ number_of (measured_kind (snd kt)) x (fst kt)) (components GGenericCurrentSensor) l.
Proof.
  apply apply_ok. intros e He. apply refs_of in He as (Hr & Hlay & Hd). unfold reg_current_sensor.
  assert (HI : exists x ty, e_in e = ICurrentSensor x ty) by (destruct (e_type e); try discriminate Hd; destruct (e_in e); try contradiction; eauto).
  destruct HI as (x & ty & Ein). rewrite Ein in Hr |- *. destruct Hr as [_ Hr].
  destruct ty; try contradiction; cbn [withO]; destruct (seq_of_id_ok _ _ Hr) as (k & E & H); rewrite E; eexists; (split; [reflexivity|]); exists x; eexists; (split; [reflexivity|]); simpl; auto.
Qed.
Lemma regulator_ok : exists l, apply_registration GRegulator c (reg_regulator c) = Some l /\ Forall2 (fun e kb =>
      (exists x side, e_in e = ITapRegulator x side /\ snd kb = false /\ (number_of GBranch x (fst kb) \/ number_of GBranch3 x (fst kb))) \/
      (exists x, e_in e = IVoltageRegulator x /\ snd kb = true /\ number_of GGenericLoadGen x (fst kb))) (components GRegulator) l.
Proof.
  apply apply_ok. intros e He. apply refs_of in He as (Hr & Hlay & Hd). unfold reg_regulator.
  destruct (e_type e); try discriminate Hd; destruct (e_in e) as [| | | | | | | |x side|x]; try contradiction; simpl in Hr.
  - assert (X : exists t n, record_at data t n x /\ (t = Transformer \/ t = ThreeWindingTransformer)).
    { destruct Hr as [[(t & n & Hx & Ht) _]|[(t & n & Hx & Ht) _]]; apply ctype_eqb_eq in Ht; subst t; eauto. }
    destruct X as (t & n & Hx & Ht). pose proof (create_model_find ck data c x t n Hc) as HF. apply HF in Hx as Hm. rewrite Hm. cbn [fst]. rewrite is_base_idx.
    destruct Ht as [->| ->]; cbn [derives].
    + destruct (seq_of_id_ok GBranch x) as (k & E & H); [exists Transformer, n; auto|]. rewrite E. exists (k, false). split; auto. left. exists x, side. auto.
    + destruct (seq_of_id_ok GBranch3 x) as (k & E & H); [exists ThreeWindingTransformer, n; auto|]. rewrite E. exists (k, false). split; auto. left. exists x, side. auto.
  - destruct (seq_of_id_ok _ _ Hr) as (k & E & H). rewrite E. exists (k, true). split; auto. right. exists x. auto.
Qed.

Theorem registered_ok : exists t o cn, construct_topology at_ c = Some (t, o) /\ construct_connections at_ c = Some cn /\ registered data at_ t cn o.
Proof.
  destruct branches_ok as (br & E1 & F1). destruct branches3_ok as (br3 & E2 & F2).
  destruct (appliances_ok (GExact Source)) as (so & E3 & F3); [intros []; discriminate || reflexivity|].
  destruct (appliances_ok (GExact Shunt)) as (sh & E4 & F4); [intros []; discriminate || reflexivity|].
  destruct (appliances_ok GGenericLoadGen) as (lg & E5 & F5); [intros []; discriminate || reflexivity|].
  destruct voltage_ok as (vs & E6 & F6). destruct power_ok as (ps & E7 & F7). destruct current_ok as (cs & E8 & F8). destruct regulator_ok as (rg & E9 & F9).
  unfold construct_topology, construct_connections. rewrite E1, E2, E3, E4, E5, E6, E7, E8, E9, !apply_map.
  eexists _, _, _. split; [reflexivity|]. split; [reflexivity|]. constructor; cbn; auto.
  rewrite size_components, exact_components, map_length. reflexivity.
Qed.

Lemma number_node n i : number_of (GExact Node) n i -> i < length (data Node).
Proof. intros (e & H & _). rewrite exact_components, nth_error_map in H. apply nth_error_Some. destruct (nth_error (data Node) i); [discriminate|discriminate]. Qed.

Lemma registered_wf t cn o : registered data at_ t cn o -> well_formed t cn.
Proof.
  intros [R1 R2 R3 R4 R5 R6 R7 R8 R9 R10 R11 R12 R13 R14 R15 R16]. constructor.
  - intros k i j H. destruct (Forall2_nth_r _ _ _ _ _ R2 H) as (e & _ & f & to & _ & H1 & H2). rewrite R1. simpl in *. split; eapply number_node; eauto.
  - intros k b s H. destruct (Forall2_nth_r _ _ _ _ _ R3 H) as (e & _ & n1 & n2 & n3 & _ & H1 & H2 & H3). rewrite R1. destruct b as [[b1 b2] b3]. destruct s; simpl in *; eapply number_node; eauto.
  - intros k i H. destruct (Forall2_nth_r _ _ _ _ _ R4 H) as (e & _ & n & _ & H1). rewrite R1. eapply number_node; eauto.
  - rewrite R12, R13, !map_length. split; now rewrite (Forall2_same_len _ _ _ R2).
  - rewrite R14, R15, !map_length. split; now rewrite (Forall2_same_len _ _ _ R3).
  - rewrite R16, map_length. now rewrite (Forall2_same_len _ _ _ R4).
Qed.
End Facts.
