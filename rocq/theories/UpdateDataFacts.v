From Verif Require Import Common Container ContainerSpec ContainerFacts Component ComponentSpec ComponentFacts
  MainModel UpdateFacts UpdateData UpdateSpec.

Lemma Forall2_length' {A B} (R : A -> B -> Prop) l l' : Forall2 R l l' -> length l = length l'.
Proof. induction 1; simpl; auto. Qed.

Section Facts.
Context {O : DOps}.

Lemma foldM_seq (f : ctype -> res (list nat)) l : NoDup l -> forall acc sq,
  foldM (fun acc t => let! x := f t in Ok (tset (F := fun _ => list nat) acc t x)) l acc = Ok sq ->
  forall t, (In t l -> f t = Ok (sq t)) /\ (~ In t l -> sq t = acc t).
Proof.
  induction l as [|a l IH]; simpl; intros ND acc sq H t.
  - injection H as <-. tauto.
  - apply NoDup_cons_iff in ND as [Ha ND]. destruct (f a) as [x|e] eqn:E; simpl in H; [|discriminate].
    destruct (IH ND _ _ H t) as [H1 H2]. split.
    + intros [<-|Hi]; auto. rewrite H2 by auto. now rewrite tset_eq.
    + intros Hn. rewrite H2 by tauto. rewrite tset_neq; auto.
Qed.
Lemma foldM_seq_err (f : ctype -> res (list nat)) l : forall acc e,
  foldM (fun acc t => let! x := f t in Ok (tset (F := fun _ => list nat) acc t x)) l acc = Err e ->
  exists t, In t l /\ f t = Err e.
Proof.
  induction l as [|a l IH]; simpl; intros acc e H; [discriminate|].
  destruct (f a) as [x|e'] eqn:E; simpl in H.
  - destruct (IH _ _ H) as (t & ? & ?). eauto.
  - injection H as <-. eauto.
Qed.

Lemma all_sequences_ok c (d : upd_data) s ps cached sq :
  get_all_sequences c d s ps cached = Ok sq -> forall t, sequence_for c d s ps cached t = Ok (sq t).
Proof. intros H t. exact (proj1 (foldM_seq _ _ all_ctypes_NoDup _ _ H t) (all_ctypes_In t)). Qed.
Lemma all_sequences_err c (d : upd_data) s ps cached e :
  get_all_sequences c d s ps cached = Err e -> exists t, sequence_for c d s ps cached t = Err e.
Proof. intros H. destruct (foldM_seq_err _ _ _ _ H) as (t & _ & ?). eauto. Qed.
Lemma all_sequences_fail c (d : upd_data) s ps cached t e :
  sequence_for c d s ps cached t = Err e -> exists e', get_all_sequences c d s ps cached = Err e'.
Proof.
  intros H. destruct (get_all_sequences c d s ps cached) as [sq|e'] eqn:E; eauto.
  rewrite (all_sequences_ok _ _ _ _ _ _ E t) in H. discriminate.
Qed.

Section Data.
Variable ck : ctype -> Z -> cinput -> option exn.
Variable data : ctype -> list (Z * cinput).
Variable c : mcontainer.
Hypothesis HC : create_model ck data = Ok c.

Lemma size_exact t : size_of (is_base (GExact t)) c = length (data t).
Proof.
  rewrite size_of_concat. rewrite <- (map_length (fun e => (e_type e, e_id e))), (lists_items ck data c _ HC).
  unfold items_of_kind. destruct t; cbn [flat_map all_ctypes derives ctype_idx Nat.eqb app];
    rewrite ?app_nil_r; apply map_length.
Qed.

(** Positions of the components that the records are meant for. *)
Definition located (t : ctype) (ids : list Z) (sq : list nat) : Prop :=
  (Forall no_id ids /\ length ids = length (data t) /\ sq = seq 0 (length ids)) \/
  (Forall (fun id => ~ no_id id) ids /\ Forall2 (fun id n => record_at data t n id) ids sq).

Lemma located_usable t ids sq : located t ids sq -> ids_usable data t ids.
Proof.
  intros [(A & B & _)|(A & B)]; [left; auto|right]. split; auto.
  clear A. induction B; constructor; eauto.
Qed.
Lemma located_length t ids sq : located t ids sq -> length sq = length ids.
Proof. intros [(A & B & ->)|(A & B)]. now rewrite seq_length. symmetry. eapply Forall2_length'; eauto. Qed.
Lemma record_at_lt t n id : record_at data t n id -> n < length (data t).
Proof.
  unfold record_at. intros H. apply nth_error_Some. destruct (nth_error (data t) n); simpl in *; congruence.
Qed.
Lemma located_range t ids sq : located t ids sq -> Forall (fun i => i < length (data t)) sq.
Proof.
  intros [(A & B & ->)|(A & B)].
  - apply Forall_forall. intros x Hx. apply in_seq in Hx. lia.
  - induction B; constructor; eauto using record_at_lt.
    apply IHB. inversion A; auto.
Qed.

Lemma addressed_seq {U} (us : list U) : forall k i,
  addressed_to i us (seq k (length us)) = match (if i <? k then None else nth_error us (i - k)) with Some u => [u] | None => [] end.
Proof.
  induction us as [|u us IH]; intros k i; simpl.
  - destruct (i <? k); auto. now destruct (i - k).
  - rewrite IH. destruct (Nat.eqb_spec k i) as [->|Hne].
    + rewrite Nat.ltb_irrefl, Nat.sub_diag. simpl.
      replace (i <? S i) with true by (symmetry; apply Nat.ltb_lt; lia). auto.
    + destruct (Nat.ltb_spec i k), (Nat.ltb_spec i (S k)); try lia; auto.
      replace (i - k) with (S (i - S k)) by lia. reflexivity.
Qed.

Lemma located_meant t (rs : list (Z * comp_upd t)) sq i : located t (map fst rs) sq ->
  addressed_to i (map snd rs) sq = meant_for data t rs i.
Proof.
  intros H. unfold meant_for. destruct (forallb (fun r => Z.eqb (fst r) na_IntID) rs) eqn:EA.
  - (* no ids *)
    assert (HN : Forall no_id (map fst rs)).
    { rewrite forallb_forall in EA. apply Forall_forall. intros x Hx. apply in_map_iff in Hx as (r & <- & Hr).
      apply Z.eqb_eq. auto. }
    destruct H as [(A & B & ->)|(A & B)].
    + rewrite map_length. rewrite <- (map_length snd rs), addressed_seq, Nat.sub_0_r. simpl.
      rewrite nth_error_map. destruct (nth_error rs i); reflexivity.
    + destruct rs as [|r rs]. { simpl. destruct sq; simpl; destruct i; reflexivity. }
      exfalso. inversion A; inversion HN; subst. tauto.
  - destruct H as [(A & _ & _)|(A & B)].
    + exfalso. apply Bool.not_true_iff_false in EA. apply EA. apply forallb_forall. intros r Hr.
      rewrite Forall_forall in A. apply Z.eqb_eq. apply A. now apply in_map.
    + clear A EA. revert sq B. induction rs as [|r rs IH]; intros sq B; simpl in B.
      * inversion B; subst. simpl. destruct (nth_error (data t) i); reflexivity.
      * inversion B as [|? n ? sq' R B']; subst. cbn [map addressed_to]. rewrite (IH _ B').
        unfold record_at in R. destruct (nth_error (data t) i) as [x|] eqn:Ei.
        -- cbn [filter]. destruct (Nat.eqb_spec n i) as [->|Hne].
           ++ rewrite Ei in R. simpl in R. injection R as R. rewrite R, Z.eqb_refl. reflexivity.
           ++ destruct (Z.eqb_spec (fst r) (fst x)) as [E|]; auto. exfalso. apply Hne.
              apply (create_model_ids_unique ck data c HC (fst x) t n t i); unfold record_at.
              ** now rewrite R, E.
              ** now rewrite Ei.
        -- destruct (Nat.eqb_spec n i) as [->|]; auto. rewrite Ei in R. discriminate.
Qed.

(** ** What the lookups give *)

Lemma ids_equal_spec t (a b : list (Z * comp_upd t)) : ids_equal a b = true <-> map fst a = map fst b.
Proof.
  revert b; induction a as [|x a IH]; intros [|y b]; simpl; split; intros H; try discriminate; auto.
  - apply andb_true_iff in H as [H1 H2]. apply Z.eqb_eq in H1. apply IH in H2. congruence.
  - injection H as H1 H2. apply andb_true_iff. split; [now apply Z.eqb_eq|now apply IH].
Qed.

Lemma scenario_in {t} (r : records t) s : s < length r -> In (nth s r []) r.
Proof. intros; now apply nth_In. Qed.

Lemma ids_match_spec t (r : records t) s : get_update_ids_match r = true -> s < length r ->
  map fst (nth s r []) = map fst (nth 0 r []).
Proof.
  destruct r as [|f r]; simpl; intros H Hs; [lia|]. destruct s as [|s]; auto.
  rewrite forallb_forall in H. apply ids_equal_spec, H, nth_In. lia.
Qed.

Lemma all_na_spec t (r : records t) s : get_all_ids_na r = true -> s < length r -> Forall no_id (map fst (nth s r [])).
Proof.
  unfold get_all_ids_na. rewrite forallb_forall. intros H Hs. specialize (H _ (scenario_in r s Hs)).
  rewrite forallb_forall in H. apply Forall_forall. intros x Hx. apply in_map_iff in Hx as (y & <- & Hy).
  apply Z.eqb_eq. exact (H y Hy).
Qed.
Lemma none_na_spec t (r : records t) s : get_any_ids_na r = false -> s < length r ->
  Forall (fun id => ~ no_id id) (map fst (nth s r [])).
Proof.
  intros H Hs. apply Forall_forall. intros x Hx Hn. apply in_map_iff in Hx as (y & <- & Hy).
  apply Bool.not_true_iff_false in H. apply H. apply existsb_exists. exists (nth s r []). split.
  - now apply scenario_in.
  - apply existsb_exists. exists y. split; auto. unfold id_na. now apply Z.eqb_eq.
Qed.

Definition seq_of t (rs : list (Z * comp_upd t)) (p : props) : res (list nat) :=
  let! _ := validate p in get_component_sequence c t rs (get_n_elements p).

Lemma is_some_n_spec o n : is_some_n o n = true <-> o = Some n.
Proof. destruct o as [m|]; simpl; split; intros H; try discriminate. now apply Nat.eqb_eq in H as ->. injection H as ->. apply Nat.eqb_refl. Qed.

(** Validated lookup in one scenario. *)
Lemma lookup_located t (r : records t) s sq :
  s < length r -> seq_of t (nth s r []) (check_component_independence (Some r) (length (data t))) = Ok sq ->
  located t (map fst (nth s r [])) sq.
Proof.
  intros Hs H.
  unfold seq_of in H. set (p := check_component_independence (Some r) (length (data t))) in *.
  destruct (has_any p) eqn:EH.
  - (* some records *)
    assert (EP : p = mkProps true (get_all_ids_na r) (negb (get_all_ids_na r) && get_any_ids_na r) (is_uniform r)
              (is_uniform r && get_update_ids_match r) (if is_uniform r then Some (uniform_eps r) else None)
              (length (data t))).
    { unfold p in *. unfold check_component_independence in *. destruct (existsb _ r); auto. discriminate EH. }
    destruct (qualify p) eqn:EQ.
    + (* optional ids *)
      assert (EQ' := EQ). unfold qualify in EQ'. rewrite EP in EQ'.
      cbn [UpdateData.ids_match ids_all_na uniform eps in_base] in EQ'.
      apply andb_true_iff in EQ' as [EQ' Q4]. apply andb_true_iff in EQ' as [EQ' Q3].
      apply andb_true_iff in EQ' as [Q1 Q2]. apply andb_true_iff in Q1 as [_ Q1].
      rewrite Q3 in Q4, EP. apply is_some_n_spec in Q4. injection Q4 as HE.
      assert (EG : get_n_elements p = Some (length (data t))).
      { unfold get_n_elements. rewrite EQ, EP. cbn. now rewrite HE. }
      rewrite EG in H. destruct (validate p); simpl in H; [|discriminate]. injection H as <-.
      left. split; [now apply all_na_spec|]. rewrite map_length.
      assert (L : length (nth s r []) = length (data t)).
      { rewrite <- (map_length fst (nth s r [])), (ids_match_spec t r s Q1 Hs), map_length. rewrite <- HE.
        destruct r; reflexivity. }
      rewrite L. auto.
    + assert (EG : get_n_elements p = None) by (unfold get_n_elements; now rewrite EQ).
      rewrite EG in H. unfold validate in H. rewrite EH, EG in H. cbn [negb] in H. cbn [is_some_n] in H.
      destruct (ids_part_na p) eqn:EPN; [discriminate|]. destruct (ids_all_na p) eqn:EAN; [discriminate|].
      cbn [andb negb bind get_component_sequence] in H. right. rewrite EP in EPN, EAN. cbn in EPN, EAN. rewrite EAN in EPN.
      split; [now apply none_na_spec|]. now apply (get_indexer_ok ck data c t _ _ HC).
  - (* empty *)
    assert (EZ : nth s r [] = []).
    { unfold p, check_component_independence in EH. destruct (existsb _ r) eqn:EX; [discriminate|].
      destruct (nth s r []) as [|x l] eqn:EN; auto. exfalso. apply Bool.not_true_iff_false in EX. apply EX.
      apply existsb_exists. exists (nth s r []). split; [now apply scenario_in|]. rewrite EN. reflexivity. }
    rewrite EZ in *. unfold validate in H. rewrite EH in H. cbn [negb bind] in H. right. split; [constructor|].
    destruct (get_n_elements p); cbn in H; injection H as <-; constructor.
Qed.

Lemma sequence_located (d : upd_data) t r s cached sq : d t = Some r -> s < length r ->
  is_independent (all_props c d t) = negb cached ->
  sequence_for c d s (all_props c d) cached t = Ok sq -> located t (map fst (scenario_of (d t) s)) sq.
Proof.
  intros ED Hs HI H. unfold sequence_for in H. rewrite HI in H. rewrite ED in *.
  replace (negb (xorb cached (negb cached))) with false in H by (destruct cached; auto). cbn [orb] in H.
  apply lookup_located; auto. unfold all_props in H. rewrite ED, size_exact in H. exact H.
Qed.

(** Independent: the positions found for the first scenario are right for every scenario. *)
Lemma independent_all_scenarios (d : upd_data) t r s sq : d t = Some r -> s < length r ->
  is_independent (all_props c d t) = true ->
  located t (map fst (scenario_of (d t) 0)) sq -> located t (map fst (scenario_of (d t) s)) sq.
Proof.
  intros ED Hs HI HL. assert (H0 : 0 < length r) by lia.
  enough (E : map fst (nth s r []) = map fst (nth 0 r [])) by (rewrite ED in *; cbn [scenario_of] in *; now rewrite E).
  unfold all_props in HI. rewrite ED in HI. unfold check_component_independence in HI.
  destruct (existsb (fun s0 => negb (length s0 =? 0)) r) eqn:EX.
  - assert (HM : (is_uniform r && get_update_ids_match r)%bool = true).
    { apply orb_true_iff in HI as [HI|HI].
      - unfold qualify in HI. cbn [UpdateData.ids_match] in HI. repeat (apply andb_true_iff in HI as [HI ?]). now apply andb_true_iff.
      - unfold provided_ids_valid in HI. cbn [has_any negb UpdateData.ids_match orb] in HI. now apply andb_true_iff in HI as [HI _]. }
    apply andb_true_iff in HM as [_ HM]. now apply ids_match_spec.
  - assert (HZ : forall k, k < length r -> nth k r [] = []).
    { intros k Hk. destruct (nth k r []) eqn:EN; auto. exfalso. apply Bool.not_true_iff_false in EX. apply EX.
      apply existsb_exists. exists (nth k r []). split; [now apply scenario_in|]. rewrite EN. reflexivity. }
    rewrite !HZ by lia. reflexivity.
Qed.

Lemma located_nil t : located t [] [].
Proof. right. split; constructor. Qed.

(** All types of a batch dataset have [n] scenarios. *)
Definition n_scenarios (d : upd_data) (n : nat) : Prop := forall t r, d t = Some r -> length r = n.

Section Run.
Context {T P : Type}.
Notation mm := (mm (T := T) (P := P)).
Notation adapter := (adapter (T := T) (P := P)).

(** The adapter after prepare, in any later state: its constant parts. *)
Definition prepared (d : upd_data) (a : adapter) : Prop :=
  ad_props a = all_props c d /\ get_all_sequences c d 0 (all_props c d) false = Ok (ad_all a).

Lemma prepare_prepared d st a : prepare c d st = Ok a -> prepared d a /\ ad_model a = st /\ ad_cur a = (fun _ => []).
Proof.
  unfold prepare. destruct (get_all_sequences _ _ _ _ _) as [sq|] eqn:E; [|discriminate]. simpl.
  intros H; injection H as <-. unfold prepared; simpl; auto.
Qed.

Lemma view_located d n a s cur : n_scenarios d n -> s < n -> prepared d a ->
  get_all_sequences c d s (ad_props a) true = Ok cur ->
  forall t, located t (map fst (scenario_of (d t) s)) (view (mkAdapter (ad_model a) (ad_props a) (ad_all a) cur) t).
Proof.
  intros HN Hs [HP HA] HS t. rewrite HP in *. unfold view. cbn [ad_props ad_all ad_cur].
  pose proof (all_sequences_ok _ _ _ _ _ _ HA t) as H0. pose proof (all_sequences_ok _ _ _ _ _ _ HS t) as H1.
  destruct (d t) as [r|] eqn:ED.
  - specialize (HN t r ED). destruct (is_independent (all_props c d t)) eqn:EI.
    + rewrite <- ED. eapply independent_all_scenarios; eauto; try lia. eapply sequence_located; eauto; lia.
    + rewrite <- ED. eapply sequence_located; eauto; lia.
  - unfold sequence_for in H0, H1. rewrite ED in H0, H1. rewrite orb_true_r in H0, H1.
    injection H0 as <-. injection H1 as <-. cbn. destruct (is_independent _); apply located_nil.
Qed.

Definition holds (st : mm) : Prop := forall t, length (m_comps st t) = length (data t).

Lemma inverse_vec_total t us : forall sq v, length us <= length sq -> Forall (fun i => i < length v) sq ->
  exists inv, inverse_vec t v us sq = Some inv.
Proof.
  induction us as [|u us IH]; intros [|j sq] v HL HF; simpl in *; eauto; try lia.
  inversion HF; subst. destruct (nth_error v j) as [x|] eqn:Ej; [|apply nth_error_None in Ej; lia].
  destruct (IH sq v) as [l ->]; eauto; lia.
Qed.

Lemma update_component_no_UB cached t us sq (st st' : mm) o : length us <= length sq ->
  Forall (fun i => i < length (m_comps st t)) sq -> update_component cached t us sq st = (st', o) -> o <> UB.
Proof.
  intros HL HF H. unfold update_component in H.
  destruct (inverse_vec_total t us sq _ HL HF) as [inv HI].
  pose proof (update_vec_no_UB t us sq _ HL HF) as HU.
  destruct cached; rewrite ?HI in H; destruct (vr_out _); injection H as <- <-; congruence.
Qed.

Lemma update_component_length cached t us sq (st st' : mm) o t' :
  update_component cached t us sq st = (st', o) -> length (m_comps st' t') = length (m_comps st t').
Proof.
  intros H. destruct (ctype_eq_dec t t') as [<-|Hne].
  - unfold update_component in H. destruct (if cached then _ else _); [|now injection H as <- <-].
    destruct (vr_out _); injection H as <- <-; cbn [m_comps]; rewrite tset_eq; apply update_vec_length.
  - now destruct (update_component_other _ _ _ _ _ _ _ _ Hne H) as [-> _].
Qed.

Lemma update_types_no_UB cached (us : forall t, list (comp_upd t)) sq l : forall (st st' : mm) o,
  (forall t, length (us t) <= length (sq t)) ->
  (forall t, Forall (fun i => i < length (m_comps st t)) (sq t)) ->
  for_types (fun t => update_component cached t (us t) (sq t)) l st = (st', o) -> o <> UB.
Proof.
  induction l as [|t l IH]; simpl; intros st st' o HL HF H. { injection H as <- <-. discriminate. }
  destruct (update_component cached t (us t) (sq t) st) as [s1 o1] eqn:E.
  pose proof (update_component_no_UB _ _ _ _ _ _ _ (HL t) (HF t) E) as HU.
  destruct o1; try (injection H as <- <-; auto; fail).
  apply (IH s1 st' o); auto. intros t'. rewrite (update_component_length _ _ _ _ _ _ _ t' E). auto.
Qed.

Lemma located_no_UB cached (d : upd_data) s sq (st st' : mm) o : holds st ->
  (forall t, located t (map fst (scenario_of (d t) s)) (sq t)) ->
  update_components cached (attributes d s) sq st = (st', o) -> o <> UB.
Proof.
  intros HH HL. apply update_types_no_UB.
  - intros t. rewrite (located_length _ _ _ (HL t)). unfold attributes. rewrite !map_length. auto.
  - intros t. rewrite HH. eapply located_range; eauto.
Qed.

(** ** Permanent update *)

Lemma located_of_fine (d : upd_data) sq (st st' : mm) :
  (forall t r, d t = Some r -> r <> []) ->
  get_all_sequences c d 0 (all_props c d) false = Ok sq ->
  update_components false (attributes d 0) sq st = (st', Fine) ->
  forall t, scenario_of (d t) 0 = [] \/ located t (map fst (scenario_of (d t) 0)) (sq t).
Proof.
  intros HD HS HF t. pose proof (all_sequences_ok _ _ _ _ _ _ HS t) as H1.
  destruct (d t) as [r|] eqn:ED; [|left; auto].
  destruct (is_independent (all_props c d t)) eqn:EI.
  - right. rewrite <- ED. apply (sequence_located d t r 0 false (sq t)); auto.
    destruct r; [|simpl; lia]. exfalso. exact (HD t [] ED eq_refl).
  - left. unfold sequence_for in H1. rewrite EI in H1. cbn [xorb negb orb] in H1. injection H1 as H1.
    unfold update_components in HF.
    destruct (update_components_types false _ sq all_ctypes all_ctypes_NoDup st st' Fine HF ltac:(discriminate) t) as [HA _].
    destruct (HA (all_ctypes_In t)) as [(A & B & inv & C & D')|(N & _)]; [|congruence].
    rewrite <- H1 in B. unfold attributes in B. rewrite ED in B. destruct (scenario_of (Some r) 0) eqn:ER; auto.
    exfalso. cbn in B. specialize (B eq_refl). discriminate B.
Qed.

Lemma update_spec cached us sq (st st' : mm) :
  update_components cached us sq st = (st', Fine) ->
  forall t i, nth_error (m_comps st' t) i =
    match nth_error (m_comps st t) i with Some x => Some (upd_all t x (addressed_to i (us t) (sq t))) | None => None end.
Proof.
  intros H t i. unfold update_components in H.
  destruct (update_components_types cached us sq all_ctypes all_ctypes_NoDup st st' Fine H ltac:(discriminate) t)
    as [HA _].
  destruct (HA (all_ctypes_In t)) as [(A & B & _)|(N & _)]; [|congruence].
  rewrite A. destruct (update_vec_spec t (us t) (sq t) (m_comps st t)) as (k & Hk & HF).
  rewrite Hk, HF by auto. reflexivity.
Qed.

Lemma meant_incl t (rs : list (Z * comp_upd t)) i : incl (meant_for data t rs i) (map snd rs).
Proof.
  unfold meant_for. intros u Hu. destruct (forallb _ rs).
  - destruct (nth_error rs i) eqn:E; simpl in Hu; [|tauto]. destruct Hu as [<-|[]]. apply in_map. eapply nth_error_In; eauto.
  - destruct (nth_error (data t) i); [|destruct Hu]. apply in_map_iff in Hu as (r & <- & Hr).
    apply filter_In in Hr as [Hr _]. now apply in_map.
Qed.

(** Every component afterwards, when the records are located. *)
Lemma located_updated cached (d : upd_data) s sq (st st' : mm) :
  (forall t, scenario_of (d t) s = [] \/ located t (map fst (scenario_of (d t) s)) (sq t)) ->
  (forall t x, In x (m_comps st t) -> well_formed t x) ->
  (forall t r, In r (scenario_of (d t) s) -> regulator_status_given t (snd r)) ->
  update_components cached (attributes d s) sq st = (st', Fine) ->
  forall t i old, nth_error (m_comps st t) i = Some old ->
    exists new, nth_error (m_comps st' t) i = Some new /\ well_formed t new /\
                is_updated t old (meant_for data t (scenario_of (d t) s) i) new.
Proof.
  intros HL HW HG HF t i old Ho. pose proof (update_spec _ _ _ _ _ HF t i) as HU. rewrite Ho in HU.
  eexists. split; [exact HU|].
  assert (E : addressed_to i (attributes d s t) (sq t) = meant_for data t (scenario_of (d t) s) i).
  { unfold attributes. destruct (HL t) as [->|HL']; [|now apply located_meant].
    unfold meant_for; simpl. now destruct i. }
  rewrite E. destruct (upd_all_spec t (meant_for data t (scenario_of (d t) s) i) old) as [A B]; auto.
  - apply HW. eapply nth_error_In; eauto.
  - apply Forall_forall. intros u Hu. apply meant_incl, in_map_iff in Hu as (r & <- & Hr). eauto.
Qed.

(** Records that cannot be used are never applied. *)
Lemma not_located_not_ok (d : upd_data) n a s t : n_scenarios d n -> s < n -> prepared d a ->
  ~ ids_usable data t (map fst (scenario_of (d t) s)) ->
  exists e, setup c d s a = (a, Throw e).
Proof.
  intros HN Hs HP HU. unfold setup. destruct (get_all_sequences c d s (ad_props a) true) as [cur|e] eqn:E; eauto.
  exfalso. apply HU. eapply located_usable, view_located; eauto.
Qed.

Lemma setup_no_UB (d : upd_data) n a s a' o : n_scenarios d n -> s < n -> prepared d a -> holds (ad_model a) ->
  setup c d s a = (a', o) -> o <> UB.
Proof.
  intros HN Hs HP HH H. unfold setup in H.
  destruct (get_all_sequences c d s (ad_props a) true) as [cur|e] eqn:E; [|injection H as <- <-; discriminate].
  cbn [ad_model] in H. destruct (update_components _ _ _ _) as [st o1] eqn:E1. injection H as <- <-.
  eapply located_no_UB; eauto. eapply view_located; eauto.
Qed.

(** A scenario set up and wound down again. *)
Definition adapter_records_ok (d : upd_data) (s : nat) (st : mm) : Prop :=
  forall t i x, nth_error (m_comps st t) i = Some x ->
    Forall (fun u => base_available t x u /\ regulator_status_given t u) (meant_for data t (scenario_of (d t) s) i).

Lemma restore_nothing sq (st st2 : mm) : (forall t, m_inv st t = []) -> restore_components sq st = (st2, Fine) ->
  (forall t, m_comps st2 t = m_comps st t) /\ (forall t, m_inv st2 t = []) /\ m_chg st2 = no_change.
Proof.
  intros HI H2. unfold restore_components in H2.
  destruct (for_types (restore_component sq) all_ctypes st) as [s o2] eqn:E.
  destruct o2; try discriminate. injection H2 as <-. simpl.
  enough (HH : forall t, m_comps s t = m_comps st t /\ m_inv s t = []) by (split; [|split]; auto; intros t; apply HH).
  intros t. destruct (restore_types sq all_ctypes all_ctypes_NoDup _ _ E t) as [HA _].
  destruct (HA (all_ctypes_In t)) as (A1 & A2 & A3). split; auto. rewrite A2, HI. reflexivity.
Qed.
Lemma restore_nothing_fine sq (st : mm) : (forall t, m_inv st t = []) -> exists st2, restore_components sq st = (st2, Fine).
Proof.
  intros HI. destruct (restore_all_fine sq all_ctypes all_ctypes_NoDup st) as [s Hs].
  { intros t _. rewrite HI. reflexivity. }
  unfold restore_components. rewrite Hs. eauto.
Qed.

Lemma setup_winddown (d : upd_data) n a s a1 o1 a2 : n_scenarios d n -> s < n -> prepared d a -> holds (ad_model a) ->
  exact_numbers -> (forall t, m_inv (ad_model a) t = []) -> base_ok (ad_model a) ->
  adapter_records_ok d s (ad_model a) ->
  setup c d s a = (a1, o1) -> winddown a1 = (a2, Fine) ->
  prepared d a2 /\ (forall t, m_comps (ad_model a2) t = m_comps (ad_model a) t) /\
  (forall t, m_inv (ad_model a2) t = []) /\ m_chg (ad_model a2) = no_change.
Proof.
  intros HN Hs HP HH Ex HI HB HR H1 H2. pose proof (setup_no_UB d n a s a1 o1 HN Hs HP HH H1) as HO.
  unfold setup in H1. unfold winddown in H2.
  destruct (restore_components (view a1) (ad_model a1)) as [st2 o2] eqn:E2.
  destruct o2; try discriminate. injection H2 as <-. cbn [ad_model].
  destruct (get_all_sequences c d s (ad_props a) true) as [cur|e] eqn:E.
  - cbn [ad_model] in H1.
    set (a0 := mkAdapter (ad_model a) (ad_props a) (ad_all a) cur) in *.
    destruct (update_components true (attributes d s) (view a0) (ad_model a)) as [st1 o1'] eqn:E1.
    injection H1 as <- <-. cbn [ad_model ad_props ad_all] in *. split; [exact HP|].
    eapply (undo_scenario (attributes d s) (view a0)); eauto.
    intros t i x Hx. pose proof (view_located d n a s cur HN Hs HP E t) as HL. fold a0 in HL.
    unfold attributes. rewrite (located_meant t _ _ i HL). apply (HR t i x Hx).
  - injection H1 as <- <-. split; [exact HP|]. eapply restore_nothing; eauto.
Qed.

Lemma setup_winddown_fine (d : upd_data) n a s a1 o1 : n_scenarios d n -> s < n -> prepared d a -> holds (ad_model a) ->
  exact_numbers -> (forall t, m_inv (ad_model a) t = []) -> base_ok (ad_model a) ->
  adapter_records_ok d s (ad_model a) ->
  (forall x, In x (m_comps (ad_model a) Fault) -> fault_sane x) ->
  (forall i, length (meant_for data Fault (scenario_of (d Fault) s) i) <= 1) ->
  setup c d s a = (a1, o1) -> exists a2, winddown a1 = (a2, Fine).
Proof.
  intros HN Hs HP HH Ex HI HB HR HF H1r H1. pose proof (setup_no_UB d n a s a1 o1 HN Hs HP HH H1) as HO.
  unfold setup in H1.
  enough (HX : exists st2, restore_components (view a1) (ad_model a1) = (st2, Fine)).
  { destruct HX as [st2 Hst]. unfold winddown. rewrite Hst. eauto. }
  destruct (get_all_sequences c d s (ad_props a) true) as [cur|e] eqn:E.
  - cbn [ad_model] in H1.
    set (a0 := mkAdapter (ad_model a) (ad_props a) (ad_all a) cur) in *.
    destruct (update_components true (attributes d s) (view a0) (ad_model a)) as [st1 o1'] eqn:E1.
    injection H1 as <- <-. cbn [ad_model].
    pose proof (view_located d n a s cur HN Hs HP E) as HL. fold a0 in HL.
    eapply (restore_succeeds (attributes d s) (view a0)); eauto.
    + intros t i x Hx. unfold attributes. rewrite (located_meant t _ _ i (HL t)). apply (HR t i x Hx).
    + intros i. unfold attributes. rewrite (located_meant Fault _ _ i (HL Fault)). apply H1r.
  - injection H1 as <- <-. apply restore_nothing_fine; auto.
Qed.
End Run.
End Data.
End Facts.
