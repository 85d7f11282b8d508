(** Proofs about updating and restoring the whole model. *)
From Verif Require Import Common Container Component ComponentSpec ComponentFacts MainModel.
From Coq Require Import Eqdep_dec.

(** ** Values per type *)
Lemma tset_eq {F : ctype -> Type} (f : forall t, F t) t v : tset f t v t = v.
Proof.
  unfold tset. destruct (ctype_eq_dec t t) as [e|n]; [|congruence].
  now rewrite (UIP_dec ctype_eq_dec e eq_refl).
Qed.
Lemma tset_neq {F : ctype -> Type} (f : forall t, F t) t v t' : t <> t' -> tset f t v t' = f t'.
Proof. intros H. unfold tset. destruct (ctype_eq_dec t t'); congruence. Qed.

Lemma all_ctypes_In t : In t all_ctypes.
Proof. destruct t; simpl; tauto. Qed.
Lemma all_ctypes_NoDup : NoDup all_ctypes.
Proof. repeat constructor; simpl; intuition discriminate. Qed.

Section Facts.
Context {O : DOps}.

(** ** One vector *)
Lemma addressed_app {U} i (us us' : list U) sq sq' : length us = length sq ->
  addressed_to i (us ++ us') (sq ++ sq') = addressed_to i us sq ++ addressed_to i us' sq'.
Proof.
  revert sq; induction us as [|u us IH]; intros [|j sq] H; simpl in *; try discriminate; auto.
  destruct (j =? i); simpl; rewrite IH by lia; auto.
Qed.
Lemma addressed_incl {U} i (us : list U) sq : incl (addressed_to i us sq) us.
Proof.
  revert sq; induction us as [|u us IH]; intros [|j sq] x; simpl; auto; try tauto.
  destruct (j =? i); simpl; intros H; [destruct H; auto|]; right; eapply IH; eauto.
Qed.
Lemma addressed_firstn_incl {U} i k (us : list U) sq : incl (addressed_to i (firstn k us) sq) (addressed_to i us sq).
Proof.
  revert k sq; induction us as [|u us IH]; intros [|k] [|j sq] x; simpl; auto; try tauto.
  destruct (j =? i); simpl; intros H; [destruct H; auto; right|]; eapply IH; eauto.
Qed.
Lemma addressed_map {U V} (f : U -> V) i us sq : addressed_to i (map f us) sq = map f (addressed_to i us sq).
Proof.
  revert sq; induction us as [|u us IH]; intros [|j sq]; simpl; auto. rewrite IH. now destruct (j =? i).
Qed.

Lemma update_vec_length t us : forall sq v, length (vr_vec (update_vec t v us sq)) = length v.
Proof.
  induction us as [|u us IH]; intros [|i sq] v; simpl; auto.
  destruct (nth_error v i); simpl; auto. destruct (update t c u) as [[c' ch] [e|]]; simpl.
  - apply upd_length.
  - rewrite IH. apply upd_length.
Qed.

(** The records up to the one that throws are applied, each to the component it addresses, in order. *)
Lemma update_vec_spec t us : forall sq v, exists k,
  (forall i, nth_error (vr_vec (update_vec t v us sq)) i =
     match nth_error v i with Some c => Some (upd_all t c (addressed_to i (firstn k us) sq)) | None => None end) /\
  (vr_out (update_vec t v us sq) = Fine -> firstn k us = us).
Proof.
  induction us as [|u us IH]; intros sq v.
  - exists 0. split; auto. intros i. simpl. destruct (nth_error v i); auto.
  - destruct sq as [|j sq]; simpl.
    { exists 0. split; [|discriminate]. intros i. simpl. now destruct (nth_error v i). }
    destruct (nth_error v j) as [c|] eqn:Ej.
    2:{ exists 0. split; [|discriminate]. intros i. simpl. now destruct (nth_error v i). }
    assert (Hj : j < length v) by (apply nth_error_Some; congruence).
    destruct (update t c u) as [[c' ch] [e|]] eqn:Eu; simpl.
    + exists 1. split; [|discriminate]. intros i. simpl. destruct (Nat.eqb_spec j i) as [<-|Hne].
      * rewrite nth_error_upd_eq, Ej by auto. simpl. unfold upd_state. now rewrite Eu.
      * rewrite nth_error_upd_neq by auto. now destruct (nth_error v i).
    + destruct (IH sq (upd j c' v)) as (k & Hk & HF). exists (S k). split.
      * intros i. rewrite Hk. simpl. destruct (Nat.eqb_spec j i) as [<-|Hne].
        -- rewrite nth_error_upd_eq, Ej by auto. simpl. unfold upd_state. now rewrite Eu.
        -- rewrite nth_error_upd_neq by auto. now destruct (nth_error v i).
      * intros HH. simpl. now rewrite HF.
Qed.

(** No undefined behaviour if there is a valid position for every record. *)
Lemma update_vec_no_UB t us : forall sq v, length us <= length sq -> Forall (fun i => i < length v) sq ->
  vr_out (update_vec t v us sq) <> UB.
Proof.
  induction us as [|u us IH]; intros [|i sq] v HL HF; simpl in *; try discriminate; try lia.
  inversion HF; subst. destruct (nth_error v i) as [c|] eqn:E; [|apply nth_error_None in E; lia].
  destruct (update t c u) as [[c' ch] [e|]]; simpl; try discriminate.
  apply IH; try lia. rewrite upd_length. auto.
Qed.
Lemma update_vec_UB_range t us : forall sq v, vr_out (update_vec t v us sq) = Fine ->
  length us <= length sq /\ Forall (fun i => i < length v) (firstn (length us) sq).
Proof.
  induction us as [|u us IH]; intros [|i sq] v H; simpl in *; try discriminate; auto with arith.
  destruct (nth_error v i) as [c|] eqn:E; [|discriminate].
  destruct (update t c u) as [[c' ch] [e|]]; simpl in *; try discriminate.
  apply IH in H as [H1 H2]. rewrite upd_length in H2. split; [lia|]. constructor; auto.
  apply nth_error_Some; congruence.
Qed.

Lemma inverse_vec_spec t us : forall sq v inv, inverse_vec t v us sq = Some inv ->
  length inv = length us /\ length us <= length sq /\ Forall (fun i => i < length v) (firstn (length us) sq) /\
  forall i c, nth_error v i = Some c -> addressed_to i inv sq = map (inverse t c) (addressed_to i us sq).
Proof.
  induction us as [|u us IH]; intros [|j sq] v inv H; simpl in H; try discriminate; try injection H as <-.
  - simpl. repeat split; auto with arith.
  - simpl. repeat split; auto with arith.
  - destruct (nth_error v j) as [c|] eqn:Ej; [|discriminate].
    destruct (inverse_vec t v us sq) as [l|] eqn:El; [|discriminate]. injection H as <-.
    destruct (IH _ _ _ El) as (H1 & H2 & H3 & H4). simpl. repeat split; try lia.
    + constructor; auto. apply nth_error_Some; congruence.
    + intros i d Hd. destruct (Nat.eqb_spec j i) as [<-|Hne]; auto.
      simpl. rewrite Hd in Ej. injection Ej as ->. now rewrite (H4 j c Hd).
Qed.

(** Only faults throw. *)
Lemma update_vec_out t us : forall sq v, t <> Fault ->
  vr_out (update_vec t v us sq) = Fine \/ vr_out (update_vec t v us sq) = UB.
Proof.
  induction us as [|u us IH]; intros [|i sq] v Ht; simpl; auto.
  destruct (nth_error v i) as [c|]; simpl; auto.
  assert (HX : snd (update t c u) = None) by (destruct t; try reflexivity; congruence).
  destruct (update t c u) as [[c' ch] ex]. simpl in HX. subst ex. simpl. auto.
Qed.

(** ** All types *)
Section Types.
Context {T P : Type}.
Notation mm := (@mm O T P).

Lemma for_types_inv {S} (f : ctype -> S -> S * outcome) (Inv : S -> Prop) l st st' o :
  (forall t s s' o, Inv s -> f t s = (s', o) -> Inv s') -> Inv st -> for_types f l st = (st', o) -> Inv st'.
Proof.
  intros Hf. revert st; induction l as [|t l IH]; intros st HI H; simpl in H.
  - injection H as <- <-; auto.
  - destruct (f t st) as [s1 o1] eqn:E. pose proof (Hf _ _ _ _ HI E) as H1.
    destruct o1; eauto; injection H as <- <-; auto.
Qed.

Lemma update_component_other cached t us sq (st st' : mm) o t' : t <> t' ->
  update_component cached t us sq st = (st', o) -> m_comps st' t' = m_comps st t' /\ m_inv st' t' = m_inv st t'.
Proof.
  intros Ht H. unfold update_component in H. destruct (if cached then _ else _) as [inv|]; [|injection H as <- <-; auto].
  destruct (vr_out _); injection H as <- <-; simpl; now rewrite !tset_neq by auto.
Qed.

(** What update_component does to its own type. *)
Lemma update_component_self cached t us sq (st st' : mm) o :
  update_component cached t us sq st = (st', o) -> o <> UB ->
  m_comps st' t = vr_vec (update_vec t (m_comps st t) us sq) /\ o = vr_out (update_vec t (m_comps st t) us sq) /\
  exists inv, (if cached then inverse_vec t (m_comps st t) us sq else Some []) = Some inv /\
              m_inv st' t = m_inv st t ++ inv.
Proof.
  intros H HO. unfold update_component in H.
  destruct (if cached then _ else _) as [inv|]; [|injection H as <- <-; congruence].
  destruct (vr_out _) eqn:E; injection H as <- <-; simpl; rewrite ?tset_eq; eauto.
Qed.

(** What update_components does: the types before the one that throws are done, the later ones are untouched. *)
Lemma update_components_types cached (us : forall t, list (comp_upd t)) sq l : NoDup l ->
  forall (st st' : mm) o,
  for_types (fun t => update_component cached t (us t) (sq t)) l st = (st', o) -> o <> UB ->
  forall t, (In t l ->
    (m_comps st' t = vr_vec (update_vec t (m_comps st t) (us t) (sq t)) /\
     (o = Fine -> vr_out (update_vec t (m_comps st t) (us t) (sq t)) = Fine) /\
     exists inv, (if cached then inverse_vec t (m_comps st t) (us t) (sq t) else Some []) = Some inv /\
                 m_inv st' t = m_inv st t ++ inv) \/
    (o <> Fine /\ m_comps st' t = m_comps st t /\ m_inv st' t = m_inv st t)) /\
  (~ In t l -> m_comps st' t = m_comps st t /\ m_inv st' t = m_inv st t).
Proof.
  induction l as [|t0 l IH]; intros ND st st' o H HO t; simpl in H.
  - injection H as <- <-. split; [intros []|auto].
  - apply NoDup_cons_iff in ND as [HN ND].
    destruct (update_component cached t0 (us t0) (sq t0) st) as [s1 o1] eqn:E1.
    destruct o1.
    + specialize (IH ND s1 st' o H HO t). destruct IH as [IH1 IH2].
      destruct (ctype_eq_dec t0 t) as [->|Hne].
      * destruct (update_component_self _ _ _ _ _ _ _ E1) as (A & B & C); [discriminate|].
        split; [|simpl; tauto]. intros _. left. destruct (IH2 HN) as [-> ->]. auto.
      * destruct (update_component_other _ _ _ _ _ _ _ _ Hne E1) as [<- <-].
        split; [|simpl; tauto]. intros [?|Hin]; [congruence|]. auto.
    + injection H as <- <-. destruct (ctype_eq_dec t0 t) as [->|Hne].
      * destruct (update_component_self _ _ _ _ _ _ _ E1) as (A & B & C); [discriminate|].
        split; [|simpl; tauto]. intros _. left. split; auto. split; auto. discriminate.
      * destruct (update_component_other _ _ _ _ _ _ _ _ Hne E1) as [-> ->].
        split; auto. intros _. right. split; auto. discriminate.
    + injection H as <- <-. congruence.
Qed.

(** C06 for the model. *)
Lemma permanent_update_spec us sq (st st' : mm) :
  update_components false us sq st = (st', Fine) ->
  forall t, m_inv st' t = m_inv st t /\ forall i,
    nth_error (m_comps st' t) i =
    match nth_error (m_comps st t) i with Some c => Some (upd_all t c (addressed_to i (us t) (sq t))) | None => None end.
Proof.
  intros H t. unfold update_components in H.
  destruct (update_components_types false us sq all_ctypes all_ctypes_NoDup st st' Fine H ltac:(discriminate) t)
    as [HA _].
  destruct (HA (all_ctypes_In t)) as [(A & B & inv & C & D')|(N & _)]; [|congruence].
  injection C as <-. rewrite app_nil_r in D'. split; auto. intros i. rewrite A.
  destruct (update_vec_spec t (us t) (sq t) (m_comps st t)) as (k & Hk & HF).
  rewrite Hk, HF by auto. reflexivity.
Qed.

(** Restore. *)
Lemma restore_types sq l : NoDup l -> forall (st st' : mm),
  for_types (restore_component sq) l st = (st', Fine) ->
  forall t, (In t l -> m_inv st' t = [] /\
     m_comps st' t = vr_vec (update_vec t (m_comps st t) (m_inv st t) (sq t)) /\
     vr_out (update_vec t (m_comps st t) (m_inv st t) (sq t)) = Fine) /\
  (~ In t l -> m_comps st' t = m_comps st t /\ m_inv st' t = m_inv st t).
Proof.
  induction l as [|t0 l IH]; intros ND st st' H t; simpl in H.
  - injection H as <-. split; [intros []|auto].
  - apply NoDup_cons_iff in ND as [HN ND].
    destruct (restore_component sq t0 st) as [s1 o1] eqn:E1. destruct o1; try discriminate.
    specialize (IH ND s1 st' H t) as [IH1 IH2].
    assert (HS : (t0 <> t -> m_comps s1 t = m_comps st t /\ m_inv s1 t = m_inv st t) /\
                 m_inv s1 t0 = [] /\ m_comps s1 t0 = vr_vec (update_vec t0 (m_comps st t0) (m_inv st t0) (sq t0)) /\
                 vr_out (update_vec t0 (m_comps st t0) (m_inv st t0) (sq t0)) = Fine).
    { unfold restore_component in E1. destruct (m_inv st t0) as [|u us] eqn:EI.
      - injection E1 as <-. rewrite EI. simpl. auto.
      - destruct (update_component false t0 (u :: us) (sq t0) st) as [s2 o2] eqn:E2. destruct o2; try discriminate.
        injection E1 as <-. simpl.
        destruct (update_component_self _ _ _ _ _ _ _ E2) as (A & B & C); [discriminate|].
        rewrite tset_eq. split; [|split; [|split]]; auto.
        intros Hne. rewrite tset_neq by auto. exact (update_component_other _ _ _ _ _ _ _ _ Hne E2). }
    destruct HS as (HS1 & HS2 & HS3 & HS4).
    destruct (ctype_eq_dec t0 t) as [<-|Hne].
    + split; [|simpl; tauto]. intros _. destruct (IH2 HN) as [-> ->]. auto.
    + destruct (HS1 Hne) as [<- <-]. split; [|simpl; tauto]. intros [?|Hin]; [congruence|]. auto.
Qed.

(** C07: the base model before a scenario; what the proofs need of base components and records. *)
Definition base_ok (st : mm) : Prop :=
  forall t i c, nth_error (m_comps st t) i = Some c -> well_formed t c /\ exact_factors t c /\ shunt_defined t c.
Definition records_ok (us : forall t, list (comp_upd t)) (sq : ctype -> list nat) (st : mm) : Prop :=
  forall t i c, nth_error (m_comps st t) i = Some c ->
    Forall (fun u => base_available t c u /\ regulator_status_given t u) (addressed_to i (us t) (sq t)).

Theorem undo_scenario us sq (st st1 st2 : mm) o :
  exact_numbers -> (forall t, m_inv st t = []) -> base_ok st -> records_ok us sq st ->
  update_components true us sq st = (st1, o) -> o <> UB -> restore_components sq st1 = (st2, Fine) ->
  (forall t, m_comps st2 t = m_comps st t) /\ (forall t, m_inv st2 t = []) /\ m_chg st2 = no_change.
Proof.
  intros Ex HI HB HR H1 HO H2.
  unfold restore_components in H2. destruct (for_types (restore_component sq) all_ctypes st1) as [s o2] eqn:E.
  destruct o2; try discriminate. injection H2 as <-. simpl.
  enough (HH : forall t, m_comps s t = m_comps st t /\ m_inv s t = []) by (split; [|split]; auto; intros t; apply HH).
  intros t. destruct (restore_types sq all_ctypes all_ctypes_NoDup _ _ E t) as [HA _].
  destruct (HA (all_ctypes_In t)) as (A1 & A2 & A3). split; auto.
  unfold update_components in H1.
  destruct (update_components_types true us sq all_ctypes all_ctypes_NoDup st st1 o H1 HO t) as [HA' _].
  destruct (HA' (all_ctypes_In t)) as [(B1 & B2 & inv & B3 & B4)|(N & B1 & B2)].
  - rewrite HI in B4. simpl in B4. rewrite B4 in A2, A3. rewrite A2.
    apply nth_error_ext. intros i.
    destruct (update_vec_spec t inv (sq t) (m_comps st1 t)) as (k2 & Hk2 & HF2). rewrite (HF2 A3) in Hk2. rewrite Hk2.
    rewrite B1. destruct (update_vec_spec t (us t) (sq t) (m_comps st t)) as (k1 & Hk1 & _). rewrite Hk1.
    destruct (nth_error (m_comps st t) i) as [c|] eqn:Ec; auto. f_equal.
    destruct (inverse_vec_spec _ _ _ _ _ B3) as (_ & _ & _ & HV). rewrite (HV i c Ec).
    destruct (HB t i c Ec) as (W & F & SD). pose proof (HR t i c Ec) as HR'.
    apply undo_component; auto.
    + eapply Forall_impl; [|exact HR']. simpl; tauto.
    + eapply Forall_impl; [|exact HR']. simpl; tauto.
    + apply addressed_firstn_incl.
  - rewrite B2, HI in A2. simpl in A2. congruence.
Qed.

(** Restoring does not fail when no fault has more than one record. *)
Definition fault_sane (c : comp Fault) : Prop := check_sanity (fa_type c) (fa_phase c) = None.

Lemma update_vec_fine t us : forall sq v, length us <= length sq -> Forall (fun i => i < length v) (firstn (length us) sq) ->
  (forall i c u r, nth_error v i = Some c -> addressed_to i us sq = u :: r -> snd (update t c u) = None /\ r = []) ->
  vr_out (update_vec t v us sq) = Fine.
Proof.
  induction us as [|u us IH]; intros [|j sq] v HL HF H; simpl in *; auto; try lia.
  inversion HF; subst. destruct (nth_error v j) as [c|] eqn:Ej; [|apply nth_error_None in Ej; lia].
  assert (HX : snd (update t c u) = None /\ addressed_to j us sq = []).
  { apply (H j c u). auto. now rewrite Nat.eqb_refl. }
  destruct HX as [HX HE]. destruct (update t c u) as [[c' ch] ex]. simpl in HX. subst ex. simpl.
  apply IH; try lia.
  - rewrite upd_length. auto.
  - intros i d v' r Hd Hr. destruct (Nat.eq_dec j i) as [<-|Hne].
    + rewrite HE in Hr. discriminate.
    + rewrite nth_error_upd_neq in Hd by auto. apply (H i d v' r Hd).
      destruct (Nat.eqb_spec j i); [congruence|auto].
Qed.

Lemma update_vec_fine_other t us sq v : t <> Fault -> length us <= length sq ->
  Forall (fun i => i < length v) (firstn (length us) sq) -> vr_out (update_vec t v us sq) = Fine.
Proof.
  intros Ht. revert sq v; induction us as [|u us IH]; intros [|j sq] v HL HF; simpl in *; auto; try lia.
  inversion HF; subst. destruct (nth_error v j) as [c|] eqn:Ej; [|apply nth_error_None in Ej; lia].
  assert (HX : snd (update t c u) = None) by (destruct t; try reflexivity; congruence).
  destruct (update t c u) as [[c' ch] ex]. simpl in HX. subst ex. simpl. apply IH; try lia. now rewrite upd_length.
Qed.

Lemma restore_all_fine sq l : NoDup l -> forall (st : mm),
  (forall t, In t l -> vr_out (update_vec t (m_comps st t) (m_inv st t) (sq t)) = Fine) ->
  exists st', for_types (restore_component sq) l st = (st', Fine).
Proof.
  induction l as [|t0 l IH]; intros ND st H; simpl; eauto. apply NoDup_cons_iff in ND as [HN ND].
  assert (E : exists s1, restore_component sq t0 st = (s1, Fine) /\
            forall t, t0 <> t -> m_comps s1 t = m_comps st t /\ m_inv s1 t = m_inv st t).
  { pose proof (H t0 ltac:(simpl; auto)) as HF. unfold restore_component. destruct (m_inv st t0) as [|u us] eqn:EI; eauto.
    unfold update_component. rewrite HF. simpl. eexists. split; eauto. intros t Ht. simpl. now rewrite !tset_neq by auto. }
  destruct E as (s1 & -> & HS). apply IH; auto. intros t Hin.
  destruct (ctype_eq_dec t0 t) as [<-|Hne]; [tauto|]. destruct (HS t Hne) as [-> ->]. apply H. simpl; auto.
Qed.

Theorem restore_succeeds us sq (st st1 : mm) o :
  exact_numbers -> (forall t, m_inv st t = []) -> base_ok st -> records_ok us sq st ->
  (forall c, In c (m_comps st Fault) -> fault_sane c) ->
  (forall i, length (addressed_to i (us Fault) (sq Fault)) <= 1) ->
  update_components true us sq st = (st1, o) -> o <> UB -> exists st2, restore_components sq st1 = (st2, Fine).
Proof.
  intros Ex HI HB HR HS H1 HU HO.
  enough (HH : exists s, for_types (restore_component sq) all_ctypes st1 = (s, Fine)).
  { destruct HH as [s Hs]. unfold restore_components. rewrite Hs. eauto. }
  apply restore_all_fine; [apply all_ctypes_NoDup|]. intros t _.
  unfold update_components in HU.
  destruct (update_components_types true us sq all_ctypes all_ctypes_NoDup st st1 o HU HO t) as [HA _].
  destruct (HA (all_ctypes_In t)) as [(B1 & B2 & inv & B3 & B4)|(N & B1 & B2)].
  2:{ rewrite B2, HI. reflexivity. }
  rewrite HI in B4. simpl in B4. rewrite B4.
  destruct (inverse_vec_spec _ _ _ _ _ B3) as (L1 & L2 & L3 & HV).
  assert (L : length (m_comps st1 t) = length (m_comps st t)) by (rewrite B1; apply update_vec_length).
  destruct (ctype_eq_dec t Fault) as [->|Ht].
  - apply update_vec_fine; try lia. { now rewrite L1, L. }
    intros i c1 u r Hc1 Hu.
    destruct (nth_error (m_comps st Fault) i) as [c|] eqn:Ec.
    2:{ apply nth_error_None in Ec. rewrite <- L in Ec. apply nth_error_None in Ec. congruence. }
    rewrite (HV i c Ec) in Hu. pose proof (H1 i) as H1'.
    pose proof (HR Fault i c Ec) as HRi. destruct (HB Fault i c Ec) as (W & F & SD).
    destruct (addressed_to i (us Fault) (sq Fault)) as [|u0 [|u1 r0]] eqn:EA;
      cbn [map length] in Hu, H1'; try discriminate; try lia.
    injection Hu as <- <-. split; auto.
    destruct (update_vec_spec Fault (us Fault) (sq Fault) (m_comps st Fault)) as (k & Hk & _).
    rewrite B1, Hk, Ec in Hc1. injection Hc1 as <-.
    pose proof (undo_component Fault c [u0] (addressed_to i (firstn k (us Fault)) (sq Fault)) Ex F W SD) as UD.
    assert (Hin : incl (addressed_to i (firstn k (us Fault)) (sq Fault)) [u0])
      by (rewrite <- EA; apply addressed_firstn_incl).
    inversion HRi as [|? ? [Hb Hr] _]; subst.
    specialize (UD ltac:(auto) ltac:(auto) Hin). cbn [map] in UD.
    set (c1 := upd_all _ _ (addressed_to _ _ _)) in *.
    assert (HS' : fault_sane c) by (eapply HS, nth_error_In; eauto).
    unfold fault_sane in HS'. rewrite <- UD in HS'. clear - HS'.
    unfold upd_all, upd_state in HS'. cbn [fold_left update] in *. unfold fault_update in *.
    destruct (set_status1 _ _). exact HS'.
  - apply update_vec_fine_other; try lia; auto. now rewrite L1, L.
Qed.

End Types.
End Facts.
