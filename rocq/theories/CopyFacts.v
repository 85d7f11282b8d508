(** Proofs about copies. *)
From Verif Require Import Common Container Component MainModel UpdateFacts CacheSpec CacheFacts Copy.

Section Facts.
Context {O : DOps} {T P Opt R : Type} (orc : oracles T P Opt R).
Notation comps := (forall t, list (comp t)).
Notation mm := (mm (T := T) (P := P)).
Notation cache := (cache (T := T) (P := P)).
Notation op := (op (Opt := Opt)).
Notation wop := (wop (Opt := Opt)).
Notation world := (world (T := T) (P := P)).

Lemma copy_Inv (st : mm) : Inv orc (m_comps st) (m_cache st) -> Inv orc (m_comps (copy_mm st)) (m_cache (copy_mm st)).
Proof. intros H. exact H. Qed.

Lemma raise_Inv sym gs (st : mm) : Inv orc (m_comps st) (m_cache st) ->
  Inv orc (m_comps (raise_flags sym gs st)) (m_cache (raise_flags sym gs st)).
Proof. intros H. exact H. Qed.
Lemma raise_InvS sym gs (st : mm) : InvS orc st -> InvS orc (raise_flags sym gs st).
Proof.
  intros [[H1 H2] H3]. split; [|exact H3]. split; [exact H1|]. cbn. intros HV top HT. destruct (H2 HV top HT) as [A B].
  split; [|exact B]. intros m y g f Hg Hy Hf Hd. apply A; auto.
  destruct (Bool.bool_dec sym m) as [<-|Hm]; [|now rewrite bset_neq in Hd]. rewrite bset_eq in Hd.
  apply Bool.orb_false_iff in Hd. tauto.
Qed.

(** What an operation does to components and undo records does not depend on the caches. *)
Definition same_data (a b : mm) : Prop := m_comps a = m_comps b /\ m_inv a = m_inv b /\ m_chg a = m_chg b.

Lemma update_component_data cached t us sq a b : same_data a b ->
  same_data (fst (update_component cached t us sq a)) (fst (update_component cached t us sq b)) /\
  snd (update_component cached t us sq a) = snd (update_component cached t us sq b).
Proof.
  intros H. pose proof H as (H1 & H2 & H3). unfold update_component. rewrite H1, H2, H3.
  destruct (if cached then inverse_vec t (m_comps b t) us sq else Some []); [|auto].
  destruct (vr_out _); split; auto; split; auto.
Qed.
Lemma for_types_data (f : ctype -> mm -> mm * outcome) l :
  (forall t a b, same_data a b -> same_data (fst (f t a)) (fst (f t b)) /\ snd (f t a) = snd (f t b)) ->
  forall a b, same_data a b ->
  same_data (fst (for_types f l a)) (fst (for_types f l b)) /\ snd (for_types f l a) = snd (for_types f l b).
Proof.
  intros HF. induction l as [|t l IH]; intros a b H; simpl; auto.
  destruct (HF t a b H) as [A B]. destruct (f t a) as [a' oa], (f t b) as [b' ob]. cbn [fst snd] in *. subst ob.
  destruct oa; auto.
Qed.
Lemma restore_component_data sq t a b : same_data a b ->
  same_data (fst (restore_component sq t a)) (fst (restore_component sq t b)) /\
  snd (restore_component sq t a) = snd (restore_component sq t b).
Proof.
  intros H. pose proof H as (H1 & H2 & H3). unfold restore_component. rewrite H2. destruct (m_inv b t); auto.
  destruct (update_component_data false t (c :: l) (sq t) a b H) as [A B].
  destruct (update_component false t (c :: l) (sq t) a) as [a' oa], (update_component false t (c :: l) (sq t) b) as [b' ob].
  cbn [fst snd] in *. subst ob. destruct oa; auto. destruct A as (A1 & A2 & A3). split; auto. split; [|split]; cbn; congruence.
Qed.

Lemma calculate_some opts (st : mm) : Inv orc (m_comps st) (m_cache st) -> snd (calculate orc opts st) <> None.
Proof.
  intros HI. unfold calculate. destruct (check_opts _ _ _); [discriminate|].
  set (sym := sym_of orc opts (m_comps st)). destruct (prepare_spec orc sym (m_comps st) (m_cache st) HI) as [_ HP]. cbn zeta in HP.
  destruct (prepare_solvers orc sym (m_comps st) (m_cache st)) as [k o]; cbn [fst snd] in HP.
  destruct (get_math_param orc sym (topo_of orc (m_comps st)) (m_comps st)) as [y|].
  - destruct HP as (-> & HT & HY & _). destruct (check_valid _ _); [discriminate|]. rewrite HT, HY.
    destruct (solve_groups _ _ _ _ _ _ _ _). discriminate.
  - destruct HP as [-> _]. discriminate.
Qed.
Lemma calculate_data opts (st : mm) : same_data (fst (calculate orc opts st)) st.
Proof.
  unfold calculate. destruct (check_opts _ _ _); [repeat split|].
  destruct (prepare_solvers _ _ _ _) as [k [| |]]; [|repeat split|repeat split].
  destruct (topo_cache k); [|repeat split]. destruct (ybus _ _); [|repeat split]. destruct (solve_groups _ _ _ _ _ _ _ _). repeat split.
Qed.

Lemma same_data_refl a : same_data a a. Proof. repeat split. Qed.
Lemma same_data_trans a b c : same_data a b -> same_data b c -> same_data a c.
Proof. intros (A1 & A2 & A3) (B1 & B2 & B3). split; [|split]; congruence. Qed.
Lemma same_data_sym a b : same_data a b -> same_data b a.
Proof. intros (A1 & A2 & A3). split; [|split]; congruence. Qed.

Lemma step_data o a b : same_data a b -> Inv orc (m_comps a) (m_cache a) -> Inv orc (m_comps b) (m_cache b) ->
  match step orc a o, step orc b o with
  | Some a', Some b' => same_data a' b'
  | None, None => True
  | _, _ => False
  end.
Proof.
  intros H IA IB. destruct o as [cached us sq|sq|opts]; simpl.
  - unfold update_components. destruct (for_types_data (fun t => update_component cached t (us t) (sq t)) all_ctypes
      (fun t a b => update_component_data cached t (us t) (sq t) a b) a b H) as [A B].
    destruct (for_types _ all_ctypes a) as [a' oa], (for_types _ all_ctypes b) as [b' ob]. cbn [fst snd] in *. subst ob.
    destruct oa; auto.
  - unfold restore_components. destruct (for_types_data (restore_component sq) all_ctypes (restore_component_data sq) a b H) as [A B].
    destruct (for_types _ all_ctypes a) as [a' oa], (for_types _ all_ctypes b) as [b' ob]. cbn [fst snd] in *. subst ob.
    destruct oa; auto. destruct A as (A1 & A2 & A3). split; [|split]; cbn; auto.
  - pose proof (calculate_some opts a IA) as SA. pose proof (calculate_some opts b IB) as SB.
    pose proof (calculate_data opts a) as DA. pose proof (calculate_data opts b) as DB.
    destruct (calculate orc opts a) as [a' [ra|]], (calculate orc opts b) as [b' [rb|]]; cbn [fst snd] in *; try congruence.
    eapply same_data_trans; [exact DA|]. eapply same_data_trans; [exact H|]. now apply same_data_sym.
Qed.

(** ** Worlds *)
Definition related (w : world) (so sc : mm) : Prop :=
  Inv orc (m_comps (w_copy w)) (m_cache (w_copy w)) /\ Inv orc (m_comps sc) (m_cache sc) /\ same_data (w_copy w) sc /\
  Inv orc (m_comps so) (m_cache so) /\
  match w_orig w with
  | None => True
  | Some st => Inv orc (m_comps st) (m_cache st) /\ same_data st so
  end.

Lemma wrun_related (xs : list wop) : forall (w w' : world) so sc, related w so sc -> wrun orc w xs = Some w' ->
  exists so' sc', run orc so (original_ops xs) = Some so' /\ run orc sc (copy_ops xs) = Some sc' /\ related w' so' sc'.
Proof.
  induction xs as [|x xs IH]; intros w w' so sc HR H; simpl in H.
  - injection H as <-. exists so, sc. auto.
  - destruct (wstep orc w x) as [w1|] eqn:E; [|discriminate].
    destruct HR as (IC & ISC & DC & ISO & HO). destruct x as [o|o|]; simpl in E; cbn [original_ops copy_ops flat_map app].
    + destruct (w_orig w) as [st|] eqn:EO; [|discriminate]. destruct HO as [IO DO].
      destruct (step orc st o) as [st'|] eqn:ES; [|discriminate]. injection E as <-.
      pose proof (step_data o st so DO IO ISO) as HD. rewrite ES in HD. cbn [run].
      destruct (step orc so o) as [so1|] eqn:ES'; [|contradiction].
      refine (IH _ w' so1 sc _ H). unfold related. cbn. pose proof (step_Inv orc st st' o ES IO). pose proof (step_Inv orc so so1 o ES' ISO).
      auto 10.
    + destruct (step orc (w_copy w) o) as [c'|] eqn:ES; [|discriminate].
      pose proof (step_data o (w_copy w) sc DC IC ISC) as HD. rewrite ES in HD. cbn [run].
      destruct (step orc sc o) as [sc1|] eqn:ES'; [|contradiction].
      pose proof (step_Inv orc _ _ o ES IC) as IC'. pose proof (step_Inv orc _ _ o ES' ISC) as ISC'.
      destruct (foreign_calls_of orc o (w_copy w)) as [sym gs].
      assert (HR1 : related w1 so sc1).
      { destruct gs as [|g gs].
        - injection E as <-. unfold related. cbn. auto 10.
        - destruct (w_solvers w); [|discriminate]. destruct (w_orig w) as [st|] eqn:EO; [|discriminate].
          injection E as <-. unfold related. cbn [w_orig w_copy]. destruct HO as [IO DO].
          refine (conj IC' (conj ISC' (conj HD (conj ISO (conj (raise_Inv sym (g :: gs) st IO) _))))). exact DO. }
      exact (IH w1 w' so sc1 HR1 H).
    + injection E as <-. refine (IH _ w' so sc _ H). unfold related. cbn. auto 10.
Qed.

Lemma wrun_InvS (xs : list wop) : Forall leaves_source_impedance (original_ops xs) -> forall (w w' : world),
  wrun orc w xs = Some w' ->
  (forall st, w_orig w = Some st -> Inv orc (m_comps st) (m_cache st) /\ InvS orc st) ->
  forall st', w_orig w' = Some st' -> Inv orc (m_comps st') (m_cache st') /\ InvS orc st'.
Proof.
  induction xs as [|x xs IH]; intros HL w w' H HO st' Hst'; simpl in H.
  - injection H as <-. auto.
  - destruct (wstep orc w x) as [w1|] eqn:E; [|discriminate].
    destruct x as [o|o|]; simpl in E; cbn [original_ops flat_map app] in HL.
    + destruct (w_orig w) as [st|] eqn:EO; [|discriminate]. destruct (step orc st o) as [st1|] eqn:ES; [|discriminate].
      injection E as <-. inversion HL; subst. destruct (HO st eq_refl) as [A B].
      eapply (IH ltac:(assumption) _ w' H); eauto. cbn. intros s Hs. injection Hs as <-.
      split; [eapply step_Inv; eauto|eapply step_InvS; eauto].
    + destruct (step orc (w_copy w) o) as [c'|]; [|discriminate]. destruct (foreign_calls_of orc o (w_copy w)) as [sym gs].
      eapply (IH HL w1 w' H); eauto. destruct gs as [|g gs].
      * injection E as <-. auto.
      * destruct (w_solvers w); [|discriminate]. destruct (w_orig w) as [st|] eqn:EO; [|discriminate].
        injection E as <-. cbn [w_orig]. intros s Hs. injection Hs as <-. destruct (HO st eq_refl) as [A B].
        split; [now apply raise_Inv|now apply raise_InvS].
    + injection E as <-. eapply (IH HL _ w' H); eauto. discriminate.
Qed.
End Facts.
