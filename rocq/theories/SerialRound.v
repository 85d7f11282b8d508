(** Proofs about Serial.v: the round trip *)
From Coq Require Import String Permutation.
From Verif Require Import Common Serial SerialSpec SerialFacts SerialTrip SerialWhole.
Local Open Scope nat_scope.

Section Round.
Context {D : Type} (nan : D) (is_nan : D -> bool) (of_int : Z -> D).
Hypothesis nan_nan : is_nan nan = true.
Variable (metas : list meta_set).
Variable (ds : dataset D).
Hypothesis ok : dataset_ok ds.
Hypothesis known : find (fun m => String.eqb (ms_name m) (ms_name (ds_meta ds))) metas = Some (ds_meta ds).
Variable (compact : bool).
Notation size := (ds_size ds).
Notation used := (used ds).
Notation mcd := (mcd ds).
Notation tot := (tot ds).
Notation own_attrs := (own_attrs nan is_nan ds).
Notation info_ok := (info_ok nan is_nan ds compact).

(** the result of the first pass *)
Lemma pre_parse_ok : exists p, pre_parse metas (fun n => n) (written nan is_nan ds compact) = Done p /\ pa_meta p = ds_meta ds /\ pa_batch p = ds_batch ds /\ pa_size p = size /\
  Forall2 (fun k i => exists cb, In cb used /\ cb_comp cb = k /\ info_ok cb i /\ (compact = true -> ci_attributes i = own_attrs cb)) (used_sorted ds) (pa_infos p) /\
  forall cb, In cb used -> map_find (cb_comp cb) (pa_attributes p) = if compact then Some (own_attrs cb) else None.
Proof.
  destruct (parse_root_ok nan is_nan ds ok compact) as (cs & E & F). unfold pre_parse.
  change (written nan is_nan ds compact) with (MapH 5 :: tl (written nan is_nan ds compact)). cbn [parse_map_array bindR fst snd]. rewrite E.
  cbn [bindR fst snd ro_version ro_type ro_attributes ro_data ro_has_is_batch ro_is_batch negb]. rewrite known. cbn [findR bindR].
  assert (LC : List.length cs = size) by (rewrite <- (forall2_len _ _ _ F), seq_length; reflexivity). rewrite LC.
  replace (negb (ds_batch ds) && negb (size =? 1)) with false
    by (destruct (ds_batch ds) eqn:Eb; [reflexivity|rewrite (do_single _ ok Eb); reflexivity]).
  destruct (count_data_ok nan is_nan of_int nan_nan ds ok compact cs F) as (infos & Ei & Fi). rewrite Ei. cbn [bindR].
  assert (KI : map ci_comp infos = used_sorted ds).
  { clear -Fi. induction Fi as [|k i l l' X Fi IH]; [reflexivity|]. cbn [map]. rewrite IH. destruct X as (cb & _ & <- & (Ec & _)). rewrite Ec. reflexivity. }
  destruct (predefined_ok nan is_nan nan_nan ds ok (alist nan is_nan ds compact) infos []) as (infos' & am & Ep & Fp & Mp).
  - intros k x H. unfold alist in H. destruct compact; [|contradiction]. destruct (amap_in nan is_nan ds ok k x H) as (cb & Hu & -> & ->).
    exists cb. split; [exact Hu|]. split; [reflexivity|]. split; [reflexivity|]. rewrite KI. unfold used_sorted. apply filter_In. split.
    + apply in_seq. destruct (used_meta nan is_nan nan_nan ds ok cb Hu) as (Hm & _). split; [lia|]. apply nth_error_Some. congruence.
    + apply existsb_exists. exists cb. split; [exact Hu|apply Nat.eqb_refl].
  - unfold alist. destruct compact; [apply (amap_nodup nan is_nan ds ok)|constructor].
  - rewrite Ep. cbn [bindR fst snd]. eexists. split; [reflexivity|]. cbn [pa_meta pa_batch pa_size pa_infos pa_attributes].
    split; [reflexivity|]. split; [reflexivity|]. split; [reflexivity|]. split.
    + clear Ep Mp KI Ei. revert infos' Fp. induction Fi as [|k i l l' X Fi IH]; intros infos' Fp; inversion Fp as [|? i' ? l'' Hi Fp']; subst; constructor.
      * destruct X as (cb & Hu & Ek & (I1 & I2 & I3 & I4 & I5)). destruct Hi as (E1 & E2 & E3 & E4 & E5 & E6). exists cb. split; [exact Hu|]. split; [exact Ek|]. split.
        -- unfold SerialWhole.info_ok. rewrite E1, E2, E3, E4, E5. auto.
        -- intros Hc. rewrite E6 by congruence. rewrite I1. unfold alist. rewrite Hc. rewrite (amap_find nan is_nan ds ok cb Hu). reflexivity.
      * apply IH. exact Fp'.
    + intros cb Hu. rewrite Mp. unfold alist. destruct compact; [rewrite (amap_find nan is_nan ds ok cb Hu)|]; reflexivity.
Qed.

(** ** components with elements *)
Notation elements := (elements ds).
Lemma own_buffer cb : In cb (ds_comps ds) -> buffer_of ds (cb_comp cb) = Some cb.
Proof. intros H. apply find_nodup; [exact (do_once _ ok)|exact H]. Qed.
Lemma own_elements cb s : In cb (ds_comps ds) -> elements s (cb_comp cb) = count_of cb s.
Proof. intros H. unfold SerialSpec.elements. rewrite own_buffer by exact H. reflexivity. Qed.
Lemma buffer_of_in c cb : buffer_of ds c = Some cb -> In cb (ds_comps ds) /\ cb_comp cb = c.
Proof. intros H. apply find_some in H. destruct H as (H & E). apply Nat.eqb_eq in E. auto. Qed.
Lemma used_in cb : In cb used <-> In cb (ds_comps ds) /\ exists s, s < size /\ 0 < count_of cb s.
Proof.
  unfold SerialWhole.used. rewrite filter_In, Nat.ltb_lt. split; intros (H & X); (split; [exact H|]); apply (count_tot nan is_nan of_int nan_nan ds ok cb H); exact X.
Qed.
Lemma used_iff c : (exists cb, In cb used /\ cb_comp cb = c) <-> exists s, s < size /\ 0 < elements s c.
Proof.
  split.
  - intros (cb & Hu & <-). apply used_in in Hu. destruct Hu as (H & s & Hs & Hc). exists s. rewrite own_elements by exact H. auto.
  - intros (s & Hs & He). unfold SerialSpec.elements in He. destruct (buffer_of ds c) as [cb|] eqn:E; [|lia]. apply buffer_of_in in E. destruct E as (H & E).
    exists cb. split; [|exact E]. apply used_in. split; [exact H|]. exists s. auto.
Qed.
Lemma sorted_in c : In c (used_sorted ds) <-> exists cb, In cb used /\ cb_comp cb = c.
Proof.
  unfold used_sorted. rewrite filter_In, in_seq, existsb_exists. split.
  - intros (_ & cb & Hu & E). apply Nat.eqb_eq in E. eauto.
  - intros (cb & Hu & <-). destruct (used_meta nan is_nan nan_nan ds ok cb Hu) as (Hm & _). split; [split; [lia|]; apply nth_error_Some; congruence|]. exists cb. split; [exact Hu|apply Nat.eqb_refl].
Qed.
Lemma sorted_nodup : NoDup (used_sorted ds).
Proof. apply NoDup_filter, seq_NoDup. Qed.
Definition infos_ok (p : parsed) : Prop :=
  Forall2 (fun k i => exists cb, In cb used /\ cb_comp cb = k /\ info_ok cb i /\ (compact = true -> ci_attributes i = own_attrs cb)) (used_sorted ds) (pa_infos p).
Lemma infos_comps p : infos_ok p -> map ci_comp (pa_infos p) = used_sorted ds.
Proof. intros F. unfold infos_ok in F. induction F as [|k i l l' X F IH]; [reflexivity|]. cbn [map]. rewrite IH. destruct X as (cb & _ & <- & (Ec & _) & _). rewrite Ec. reflexivity. Qed.
Lemma infos_in p i : infos_ok p -> In i (pa_infos p) -> exists cb, In cb used /\ info_ok cb i /\ (compact = true -> ci_attributes i = own_attrs cb).
Proof.
  intros F H. apply In_nth_error in H. destruct H as (k & Hk). destruct (forall2_nth_r _ _ _ _ _ F Hk) as (c & _ & cb & Hu & _ & X). exists cb. tauto.
Qed.
Lemma in_used cb : In cb used -> In cb (ds_comps ds).
Proof. intros H. apply used_in in H. tauto. Qed.
Lemma pos_in cb s i : In cb (ds_comps ds) -> s < size -> i < count_of cb s -> first_of cb s + i < tot cb.
Proof.
  intros H Hs Hi. pose proof (first_tot nan is_nan of_int nan_nan ds ok cb (S s) H ltac:(lia)) as X. rewrite (first_step nan is_nan of_int nan_nan ds ok cb s H Hs) in X. lia.
Qed.
(** every position belongs to a scenario *)
Lemma pos_of cb j : In cb (ds_comps ds) -> j < tot cb -> exists s i, s < size /\ i < count_of cb s /\ j = first_of cb s + i.
Proof.
  intros H. assert (X : forall n, n <= size -> j < first_of cb n -> exists s i, s < size /\ i < count_of cb s /\ j = first_of cb s + i).
  { induction n as [|n IH]; intros Hn Hj.
    - rewrite (first_0 nan is_nan nan_nan ds ok cb H) in Hj. lia.
    - rewrite (first_step nan is_nan of_int nan_nan ds ok cb n H ltac:(lia)) in Hj. destruct (lt_dec j (first_of cb n)) as [L|L]; [apply IH; [lia|exact L]|].
      exists n, (j - first_of cb n). lia. }
  intros Hj. apply (X size); [lia|exact Hj].
Qed.
Lemma described_ok p : pa_meta p = ds_meta ds -> pa_batch p = ds_batch ds -> pa_size p = size -> infos_ok p -> described is_nan ds compact p.
Proof.
  intros Pm Pb Ps F. constructor; try assumption.
  - rewrite infos_comps by exact F. exact sorted_nodup.
  - intros c. rewrite infos_comps by exact F. rewrite sorted_in. apply used_iff.
  - intros i Hi. destruct (infos_in p i F Hi) as (cb & Hu & (Ic & _ & _ & It & _) & _). apply in_used in Hu. rewrite It, Ic. unfold SerialWhole.tot.
    rewrite <- (sum_counts nan is_nan of_int nan_nan ds ok cb size Hu (le_n _)). f_equal. apply map_ext. intros s. symmetry. apply own_elements. exact Hu.
  - intros i e Hi. destruct (infos_in p i F Hi) as (cb & Hu & (Ic & _ & Ie & _) & _). apply in_used in Hu. rewrite Ie, Ic.
    split; intros X s Hs; specialize (X s Hs); rewrite own_elements in * by exact Hu; exact X.
  - intros i Hi. destruct (infos_in p i F Hi) as (cb & Hu & (_ & _ & _ & _ & Ii) & _). exact Ii.
  - intros i mc Hi Hm Hc. destruct (infos_in p i F Hi) as (cb & Hu & (Ic & _) & Ia). apply in_used in Hu. rewrite (Ia Hc). rewrite Ic in *. split; [apply attrs_of_nodup|].
    destruct (buffer_facts nan is_nan nan_nan ds ok cb Hu) as (Hm' & Ht & _). assert (E : mcd cb = mc) by congruence. clear Hm'.
    intros a. unfold SerialWhole.own_attrs. rewrite (attrs_of_in nan is_nan nan_nan), E. split.
    + intros (La & j & Hj & Hn). destruct (nth_error (mc_attrs mc) a) as [x|] eqn:Ex; [|apply nth_error_None in Ex; lia].
      destruct (pos_of cb j Hu Hj) as (s & k & Hs & Hk & ->). unfold content, ty in Hn. rewrite Ex in Hn.
      destruct (stored (cb_data cb) (first_of cb s + k) a) as [v|] eqn:Ev; [|rewrite (is_na_na nan is_nan nan_nan) in Hn; discriminate].
      exists x, s, k, v. split; [reflexivity|]. split; [exact Hs|]. split; [|exact Hn]. unfold datum. rewrite own_buffer by exact Hu. replace (k <? count_of cb s) with true by lia. exact Ev.
    + intros (x & s & k & v & Ex & Hs & Hd & Hn). split; [apply nth_error_Some; congruence|]. unfold datum in Hd. rewrite own_buffer in Hd by exact Hu.
      destruct (Nat.ltb_spec k (count_of cb s)) as [Hk|]; [|discriminate]. exists (first_of cb s + k). split; [apply pos_in; assumption|].
      unfold content, ty. rewrite Hd, Ex. exact Hn.
Qed.
Lemma same_norm v : same_value is_nan v (norm nan is_nan v).
Proof.
  assert (X : forall d, same_double is_nan d (norm_double nan is_nan d)) by (intros d; unfold same_double, norm_double; destruct (is_nan d) eqn:E; auto).
  destruct v as [z|d|a b c]; cbn; [reflexivity|apply X|]. split; [apply X|split; apply X].
Qed.
Lemma find_concat (infos : list (comp_info (D := D))) (ls : list (list (comp_buffer D))) k i l :
  Forall2 (fun i l => forall cb, In cb l -> cb_comp cb = ci_comp i) infos ls -> NoDup (map ci_comp infos) -> nth_error infos k = Some i -> nth_error ls k = Some l ->
  find (fun cb => cb_comp cb =? ci_comp i) (concat ls) = find (fun cb => cb_comp cb =? ci_comp i) l.
Proof.
  assert (Z : forall (x y : list (comp_buffer D)) q, find q (x ++ y) = match find q x with Some z => Some z | None => find q y end).
  { intros x y q. induction x as [|z x IH]; [reflexivity|]. cbn [app find]. destruct (q z); [reflexivity|exact IH]. }
  assert (Y : forall infos ls c, Forall2 (fun (i : comp_info (D := D)) (l : list (comp_buffer D)) => forall cb, In cb l -> cb_comp cb = ci_comp i) infos ls -> ~ In c (map ci_comp infos) ->
     find (fun cb => cb_comp cb =? c) (concat ls) = None).
  { intros is lss c F. induction F as [|i0 l0 is lss X F IH]; intros Hn; [reflexivity|]. cbn [concat]. rewrite Z. cbn [map] in Hn.
    destruct (find (fun cb => cb_comp cb =? c) l0) as [x|] eqn:E; [|apply IH; intros C; apply Hn; right; exact C].
    exfalso. apply find_some in E. destruct E as (Hx & E). apply Nat.eqb_eq in E. apply Hn. left. rewrite <- (X x Hx). exact E. }
  intros F. revert k. induction F as [|i0 l0 is lss X F IH]; intros k N Hi Hl; [destruct k; discriminate|]. cbn [map] in N. inversion N as [|? ? Hn N']; subst. cbn [concat]. rewrite Z.
  destruct k as [|k]; cbn in Hi, Hl.
  - injection Hi as <-. injection Hl as <-. rewrite (Y is lss (ci_comp i0) F Hn). destruct (find _ l0); reflexivity.
  - destruct (find (fun cb => cb_comp cb =? ci_comp i) l0) as [x|] eqn:E; [|apply (IH k N' Hi Hl)].
    exfalso. apply find_some in E. destruct E as (Hx & E). apply Nat.eqb_eq in E. apply Hn. rewrite <- (X x Hx), E. apply in_map. eapply nth_error_In; exact Hi.
Qed.
Definition outcome (cb : comp_buffer D) (t : target) (l : list (comp_buffer D)) : Prop :=
  (given t -> exists cb', l = [cb'] /\ cb_comp cb' = cb_comp cb /\ (forall s, s < size -> first_of cb' s = first_of cb s /\ count_of cb' s = count_of cb s) /\
    (forall j a v, stored (cb_data cb') j a = Some v -> target_has (mcd cb) t a) /\
    forall j a, j < tot cb -> target_has (mcd cb) t a -> stored (cb_data cb') j a = Some (norm nan is_nan (content nan (mcd cb) (cb_data cb) j a))) /\
  (~ given t -> l = []).
Lemma read_back_ok p targets : pa_meta p = ds_meta ds -> pa_batch p = ds_batch ds -> pa_size p = size -> infos_ok p ->
  (forall cb, In cb used -> map_find (cb_comp cb) (pa_attributes p) = if compact then Some (own_attrs cb) else None) ->
  (forall c mc, nth_error (ms_comps (ds_meta ds)) c = Some mc -> target_ok mc (targets c)) ->
  exists ds', parse nan of_int p targets = Done ds' /\ read_back nan is_nan ds targets ds'.
Proof.
  intros Pm Pb Ps F Ha Ht.
  destruct (mapR_forall2 (fun i => parse_component nan of_int p i (targets (ci_comp i)))
    (fun i l => exists cb, In cb used /\ ci_comp i = cb_comp cb /\ outcome cb (targets (ci_comp i)) l) (pa_infos p)) as (ls & E & FL).
  - intros i Hi. destruct (infos_in p i F Hi) as (cb & Hu & Io & _). assert (Ec := proj1 Io). destruct (used_meta nan is_nan nan_nan ds ok cb Hu) as (Hm & _ & H).
    assert (G : given (targets (ci_comp i)) \/ ~ given (targets (ci_comp i))) by (destruct (targets (ci_comp i)) as [| |[|]]; cbn; auto).
    destruct G as [G|G].
    + destruct (parse_component_ok nan is_nan of_int nan_nan ds ok compact p cb i (targets (ci_comp i)) Pm Ps Hu Io (Ha cb Hu)) as (cb' & E1 & E2 & E3 & E4 & E5).
      * rewrite Ec. apply Ht. exact Hm.
      * exact G.
      * exists [cb']. split; [exact E1|]. exists cb. split; [exact Hu|]. split; [exact Ec|]. split; [|contradiction]. intros _. exists cb'. auto.
    + exists []. split; [unfold parse_component; destruct (targets (ci_comp i)) as [| |[|]]; cbn in G; [reflexivity|tauto|reflexivity|tauto]|].
      exists cb. split; [exact Hu|]. split; [exact Ec|]. split; [contradiction|reflexivity].
  - unfold parse. rewrite E. cbn [bindR]. eexists. split; [reflexivity|].
    assert (FC : Forall2 (fun i l => forall cb, In cb l -> cb_comp cb = ci_comp i) (pa_infos p) ls).
    { eapply forall2_imp; [|exact FL]. intros i l _ (cb & Hu & Ec & O1 & O2) cb' Hin.
      assert (G : given (targets (ci_comp i)) \/ ~ given (targets (ci_comp i))) by (destruct (targets (ci_comp i)) as [| |[|]]; cbn; auto).
      destruct G as [G|G]; [|rewrite (O2 G) in Hin; contradiction]. destruct (O1 G) as (cb0 & -> & E0 & _). destruct Hin as [<-|[]]. congruence. }
    assert (NC : NoDup (map ci_comp (pa_infos p))) by (rewrite infos_comps by exact F; exact sorted_nodup).
    (* the buffer of a component with elements *)
    assert (K : forall cb, In cb used -> given (targets (cb_comp cb)) -> exists cb', find (fun x => cb_comp x =? cb_comp cb) (concat ls) = Some cb' /\
        (forall s, s < size -> first_of cb' s = first_of cb s /\ count_of cb' s = count_of cb s) /\
        (forall j a v, stored (cb_data cb') j a = Some v -> target_has (mcd cb) (targets (cb_comp cb)) a) /\
        forall j a, j < tot cb -> target_has (mcd cb) (targets (cb_comp cb)) a -> stored (cb_data cb') j a = Some (norm nan is_nan (content nan (mcd cb) (cb_data cb) j a))).
    { intros cb Hu G. assert (Hin : In (cb_comp cb) (map ci_comp (pa_infos p))) by (rewrite infos_comps by exact F; apply sorted_in; eauto).
      apply in_map_iff in Hin. destruct Hin as (i & Ei & Hi). apply In_nth_error in Hi. destruct Hi as (k & Hk).
      assert (Hl : exists l, nth_error ls k = Some l). { destruct (nth_error ls k) eqn:El; [eauto|]. apply nth_error_None in El. rewrite <- (forall2_len _ _ _ FL) in El. apply nth_error_None in El. congruence. }
      destruct Hl as (l & Hl). pose proof (forall2_nth _ _ _ _ _ _ FL Hk Hl) as (cb0 & Hu0 & Ec & O1 & _).
      assert (cb0 = cb) by (apply (comp_inj ds ok); [apply in_used; exact Hu0|apply in_used; exact Hu|congruence]). subst cb0.
      rewrite Ei in O1. destruct (O1 G) as (cb' & -> & E1 & E2 & E3 & E4). exists cb'. split; [|auto].
      rewrite <- Ei. rewrite (find_concat _ _ k i [cb'] FC NC Hk Hl). cbn [find]. rewrite E1, Ec, Nat.eqb_refl. reflexivity. }
    constructor; cbn [ds_meta ds_batch ds_size ds_comps]; try assumption.
    + intros s c Hs G. unfold SerialSpec.elements. cbn [buffer_of ds_comps]. unfold buffer_of at 1. cbn [ds_comps].
      destruct (Nat.eq_dec 0 (elements s c)) as [E0|E0].
      * unfold SerialSpec.elements in E0. rewrite <- E0. destruct (find (fun cb => cb_comp cb =? c) (concat ls)) as [cb'|] eqn:Ef; [|reflexivity].
        assert (Hc : exists i, In i (pa_infos p) /\ ci_comp i = c).
        { apply find_some in Ef. destruct Ef as (Hin & Ec). apply Nat.eqb_eq in Ec. apply in_concat in Hin. destruct Hin as (l & Hl & Hin). apply In_nth_error in Hl. destruct Hl as (k & Hk).
          destruct (forall2_nth_r _ _ _ _ _ FC Hk) as (i & Hi & X). exists i. split; [eapply nth_error_In; exact Hi|]. rewrite <- (X cb' Hin). exact Ec. }
        destruct Hc as (i & Hi & Ei). destruct (infos_in p i F Hi) as (cb & Hu & (Ic & _) & _). assert (Ecc : cb_comp cb = c) by congruence. rewrite <- Ecc in *.
        destruct (K cb Hu G) as (cb0 & Ef0 & S0 & _). assert (cb0 = cb') by congruence. subst cb0. destruct (S0 s Hs) as (_ & ->).
        rewrite own_buffer in E0 by (apply in_used; exact Hu). auto.
      * destruct (proj2 (used_iff c)) as (cb & Hu & <-); [exists s; split; [exact Hs|lia]|]. destruct (K cb Hu G) as (cb' & Ef & S' & _). rewrite Ef.
        rewrite own_buffer by (apply in_used; exact Hu). apply S'. exact Hs.
    + intros s c i a mc x Hs Hi Hm Hx Hh. destruct (proj2 (used_iff c)) as (cb & Hu & <-); [exists s; split; [exact Hs|lia]|].
      assert (H := in_used cb Hu). rewrite own_elements in Hi by exact H. destruct (buffer_facts nan is_nan nan_nan ds ok cb H) as (Hm' & _). assert (Em : mcd cb = mc) by congruence.
      assert (G : given (targets (cb_comp cb))) by (destruct (targets (cb_comp cb)) as [| |[|]]; cbn in *; auto).
      destruct (K cb Hu G) as (cb' & Ef & S' & _ & V'). destruct (S' s Hs) as (S1 & S2).
      assert (Ed' : datum (mkData (pa_meta p) (pa_batch p) (pa_size p) (concat ls)) s (cb_comp cb) i a = Some (norm nan is_nan (content nan mc (cb_data cb) (first_of cb s + i) a))).
      { unfold datum, buffer_of. cbn [ds_comps]. rewrite Ef, S1, S2. replace (i <? count_of cb s) with true by lia. rewrite <- Em. apply V'; [apply pos_in; assumption|rewrite Em; exact Hh]. }
      rewrite Ed'. split; [discriminate|]. unfold same_datum. unfold datum. rewrite own_buffer by exact H. replace (i <? count_of cb s) with true by lia.
      pose proof (same_norm (content nan mc (cb_data cb) (first_of cb s + i) a)) as X. unfold content at 1, ty in X. rewrite Hx in X. exact X.
    + intros s c i a mc v Hm Hd. unfold datum, buffer_of in Hd. cbn [ds_comps] in Hd. destruct (find (fun cb => cb_comp cb =? c) (concat ls)) as [cb'|] eqn:Ef; [|discriminate].
      destruct (i <? count_of cb' s); [|discriminate]. assert (Hin := Ef). apply find_some in Hin. destruct Hin as (Hin & Ec). apply Nat.eqb_eq in Ec. apply in_concat in Hin. destruct Hin as (l & Hl & Hin).
      apply In_nth_error in Hl. destruct Hl as (k & Hk). destruct (forall2_nth_r _ _ _ _ _ FL Hk) as (ci & Hi & cb & Hu & Eci & O1 & O2).
      assert (G : given (targets (ci_comp ci))). { assert (G : given (targets (ci_comp ci)) \/ ~ given (targets (ci_comp ci))) by (destruct (targets (ci_comp ci)) as [| |[|]]; cbn; auto).
        destruct G as [G|G]; [exact G|]. rewrite (O2 G) in Hin. contradiction. }
      destruct (O1 G) as (cb0 & -> & E0 & _ & E1 & _). destruct Hin as [<-|[]]. assert (Em : mcd cb = mc).
      { destruct (used_meta nan is_nan nan_nan ds ok cb Hu) as (Hm' & _). rewrite <- E0, Ec in Hm'. congruence. }
      rewrite <- Em. replace c with (ci_comp ci) by congruence. exact (E1 _ _ _ Hd).
Qed.
Theorem round_trip : exists ts p, serialize is_nan ds compact = Done ts /\ pre_parse metas (fun n => n) ts = Done p /\ described is_nan ds compact p /\
  forall targets, (forall c mc, nth_error (ms_comps (ds_meta ds)) c = Some mc -> target_ok mc (targets c)) ->
  exists ds', parse nan of_int p targets = Done ds' /\ read_back nan is_nan ds targets ds'.
Proof.
  destruct pre_parse_ok as (p & E & Pm & Pb & Ps & F & A). exists (written nan is_nan ds compact), p.
  split; [apply (serialize_ok nan is_nan of_int nan_nan ds ok)|]. split; [exact E|]. split; [apply described_ok; assumption|].
  intros targets Ht. apply read_back_ok; assumption.
Qed.
End Round.
