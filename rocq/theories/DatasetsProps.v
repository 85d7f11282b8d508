(** C35, C36: batch datasets and chains of datasets. *)
From Verif Require Import Common NatMap Datasets DatasetsSpec DatasetsFacts.
Open Scope Z_scope.

Section Props.
Context {V : Type} (default : nat -> V) (known : nat -> bool) (known_attribute : nat -> nat -> bool) (node : nat).
Notation built := (built known known_attribute).
Notation view := (view default).
Notation check_ok := (DatasetsFacts.check_ok default known known_attribute).
Notation built_well := (DatasetsFacts.built_well default known known_attribute).
Notation find_none := (DatasetsFacts.find_none default known known_attribute).
Notation adjacent_false := (DatasetsFacts.adjacent_false default known known_attribute).
Notation view_some := (DatasetsFacts.view_some default known known_attribute).
Notation view_whole := (DatasetsFacts.view_whole default known known_attribute).
Notation single_view := (DatasetsFacts.single_view default known known_attribute).
Notation slice_view := (DatasetsFacts.slice_view default known known_attribute).

(** ** C35 *)
(** A buffer is accepted exactly if the component is new and known and the sizes and offsets describe the batch. *)
Theorem C35_accepted : forall (d : @dataset V) c e t p rows, built d -> readable (batch_size d) p ->
  ((exists d', add_buffer known d c e t p rows = Ok d') <-> known c = true /\ ~ In c (map name (comps d)) /\ describes (batch_size d) e t p).
Proof.
  intros d c e t p rows B R. apply built_well in B. pose proof (w_size _ B) as Hn. split.
  - intros [d' H]. apply add_buffer_inv in H. destruct H as [s [H1 [H2 [H3 ->]]]]. unfold check_component in H2. destruct (find_component d c) eqn:F; [discriminate|]. apply find_none in F.
    destruct ((0 <=? e) && negb (e * batch_size d =? t)) eqn:U; [discriminate|]. destruct (known c); [|discriminate]. refine (conj eq_refl (conj F _)).
    apply (check_ok d e t p R Hn) in H1. destruct H1 as [[He ->]|H1]; [left; repeat split; lia|right; assumption].
  - intros [K [F D]]. assert (C : check_non_uniform d e t p = Ok tt) by (apply (check_ok d e t p R Hn); destruct D as [[? [? _]]|D]; [left; auto|right; assumption]).
    unfold add_buffer. rewrite C. cbn [bind]. unfold check_component. apply find_none in F. rewrite F, K.
    replace ((0 <=? e) && negb (e * batch_size d =? t)) with false by (destruct D as [[? [_ ?]]|[? _]]; lia). cbn [bind].
    destruct p as [l|]; [|eexists; reflexivity]. specialize (R l eq_refl). unfold indptr_span. replace (length l <? Z.to_nat (batch_size d + 1))%nat with false by lia. cbn [bind]. eexists; reflexivity.
Qed.
(** The scenarios' views lie one behind the other and together are all elements, each once. *)
Theorem C35_cover : forall (d : @dataset V) x, built d -> In x (comps d) -> backed x ->
  exists vs, length vs = Z.to_nat (batch_size d) /\ (forall s, (s < Z.to_nat (batch_size d))%nat -> view d (name x) (Z.of_nat s) = Ok (nth s vs [])) /\
    view d (name x) (-1) = Ok (concat vs) /\ Z.of_nat (length (concat vs)) = total x.
Proof.
  intros d x B Hx Bk. apply built_well in B. pose proof (w_size _ B) as Hn. pose proof (w_comps _ B x Hx) as G. pose proof (find_intro d x B Hx) as F.
  destruct (view_whole _ x Hn G Bk) as [vs [L [Hv [Hw Ht]]]]. exists vs. refine (conj L (conj _ (conj _ Ht))).
  - intros s Hs. unfold Datasets.view. replace (batch_size d <=? Z.of_nat s) with false by lia.
    replace (negb (is_batch d) && (0 <? Z.of_nat s)) with false; [rewrite F; now apply Hv|]. symmetry. destruct (is_batch d) eqn:I; [reflexivity|]. apply w_single in I; [|assumption]. cbn. lia.
  - unfold Datasets.view. replace (batch_size d <=? -1) with false by lia. replace (negb (is_batch d) && (0 <? -1)) with false by (rewrite andb_false_r; reflexivity). rewrite F. exact Hw.
Qed.
(** Taking one scenario out of the batch gives the elements of this scenario. *)
Theorem C35_individual : forall (d : @dataset V) s, built d -> 0 <= s < batch_size d ->
  exists r, individual d s = Ok r /\ is_batch r = false /\ batch_size r = 1 /\ map name (comps r) = map name (comps d) /\
    forall c, view r c (-1) = view d c s /\ view r c 0 = view d c s.
Proof.
  intros d s B Hs. apply built_well in B. rewrite individual_ok by assumption. eexists. refine (conj eq_refl (conj eq_refl (conj eq_refl (conj _ _)))).
  - cbn [comps]. rewrite map_map. reflexivity.
  - intros c. unfold Datasets.view, find_component. cbn [batch_size is_batch comps negb andb]. change (1 <=? -1) with false. change (1 <=? 0) with false. change (0 <? -1) with false. change (0 <? 0) with false. cbn iota.
    rewrite find_map by reflexivity. replace (batch_size d <=? s) with false by lia.
    replace (negb (is_batch d) && (0 <? s)) with false; [|symmetry; destruct (is_batch d) eqn:I; [reflexivity|]; apply w_single in I; [|assumption]; cbn; lia].
    destruct (find (fun y => Nat.eqb (name y) c) (comps d)) as [x|] eqn:F; cbn [option_map]; [|split; reflexivity]. apply find_some in F. destruct F as [F _]. apply (single_view (batch_size d)); [now apply B|assumption].
Qed.
(** Scenario [j] of a slice is scenario [b + j] of the batch. *)
Theorem C35_slice : forall (d : @dataset V) b e, built d -> is_batch d = true -> is_dense d = true -> 0 <= b < e -> e <= batch_size d ->
  exists r, slice known node d b e = Ok r /\ is_batch r = true /\ batch_size r = e - b /\ map name (comps r) = map name (comps d) /\
    forall c j, 0 <= j < e - b -> view r c j = view d c (b + j).
Proof.
  intros d b e B Ib Id Hb He. apply built_well in B. unfold slice. rewrite Ib, Id. replace ((b <=? e) && (0 <=? b) && (e <=? batch_size d)) with true by lia. cbn [negb andb].
  replace (b =? e) with false by lia. rewrite individual_ok by (assumption || lia). cbn [bind comps]. eexists. refine (conj eq_refl (conj eq_refl (conj eq_refl (conj _ _)))).
  - cbn [comps]. rewrite !map_map. reflexivity.
  - intros c j Hj. unfold Datasets.view, find_component. cbn [batch_size is_batch comps negb andb]. rewrite Ib. cbn [negb andb]. replace (e - b <=? j) with false by lia. replace (batch_size d <=? b + j) with false by lia.
    rewrite map_map, find_map by reflexivity. destruct (find (fun y => Nat.eqb (name y) c) (comps d)) as [x|] eqn:F; cbn [option_map]; [|reflexivity]. apply find_some in F. destruct F as [F _].
    change (name (single_comp b x)) with (name x). assert (G : good (batch_size d) x) by now apply B.
    apply (slice_view (batch_size d)); try assumption; try lia. unfold is_dense in Id. rewrite forallb_forall in Id. specialize (Id x F). unfold is_dense_comp in Id.
    destruct (Z.lt_ge_cases (eps x) 0) as [L|L]; [|assumption]. destruct (g_sparse _ _ G L) as [Q _]. destruct (indptr (buf x)); [cbn in Q; lia|discriminate].
Qed.
Theorem C35_slice_empty : forall (d : @dataset V) b, built d -> known node = true -> is_batch d = true -> is_dense d = true -> 0 <= b <= batch_size d ->
  exists r, slice known node d b b = Ok r /\ is_batch r = true /\ batch_size r = 0 /\ forall c, view r c (-1) = Ok [].
Proof.
  intros d b _ K Ib Id Hb. unfold slice. rewrite Ib, Id, Z.eqb_refl. replace ((b <=? b) && (0 <=? b) && (b <=? batch_size d)) with true by lia. unfold add_buffer, check_non_uniform, check_component. cbn. rewrite K. cbn.
  eexists. refine (conj eq_refl (conj eq_refl (conj eq_refl _))). intros c. unfold Datasets.view, find_component. cbn. destruct (Nat.eqb node c); reflexivity.
Qed.
(** A columnar buffer shows the same values as a row based one: the given attributes are those of the rows, the others are not given. *)
Theorem C35_columnar : forall (d1 d2 : @dataset V) x1 x2 rows s l1 l2, built d1 -> built d2 -> In x1 (comps d1) -> In x2 (comps d2) ->
  batch_size d1 = batch_size d2 -> name x1 = name x2 -> eps x1 = eps x2 -> total x1 = total x2 -> indptr (buf x1) = indptr (buf x2) ->
  data (buf x1) = Some rows -> data (buf x2) = None -> (forall a col, In (a, col) (attributes (buf x2)) -> col = Some (map (fun r => r a) rows)) ->
  -1 <= s < batch_size d1 -> view d1 (name x1) s = Ok l1 -> view d2 (name x2) s = Ok l2 -> Forall2 (agrees default (map fst (attributes (buf x2)))) l1 l2.
Proof.
  intros d1 d2 x1 x2 rows s l1 l2 B1 B2 H1 H2 Eb En Ee Et Ei Dr Dc Hc Hs V1 V2. apply built_well in B1; apply built_well in B2.
  unfold Datasets.view in V1, V2. rewrite (find_intro d1 x1 B1 H1) in V1. rewrite (find_intro d2 x2 B2 H2) in V2. replace (batch_size d1 <=? s) with false in V1 by lia. replace (batch_size d2 <=? s) with false in V2 by lia.
  destruct (negb (is_batch d1) && (0 <? s)); [discriminate|]. destruct (negb (is_batch d2) && (0 <? s)); [discriminate|].
  unfold component_view in V1, V2. assert (Sp : span_of x1 s = span_of x2 s) by (unfold span_of; rewrite Ee, Et, Ei; reflexivity). rewrite <- Sp in V2. destruct (span_of x1 s) as [[a b]|]; [|discriminate].
  destruct (elements default (buf x1) a (Z.to_nat (b - a))) eqn:L1; [|discriminate]. destruct (elements default (buf x2) a (Z.to_nat (b - a))) eqn:L2; [|discriminate]. inversion V1; inversion V2; subst.
  pose proof (w_comps _ B2 x2 H2) as G2. pose proof (w_comps _ B1 x1 H1) as G1. assert (A1 : attributes (buf x1) = []) by (apply (g_rows _ _ G1); congruence). pose proof (g_atts _ _ G2) as Na.
  destruct (buf x1) as [da1 at1 i1]. destruct (buf x2) as [da2 at2 i2]. cbn [data attributes indptr] in *. subst. eapply elements_agree; eassumption.
Qed.
(** Writing element [i] of a columnar view sets the given attributes of this element and nothing else. *)
Theorem C35_store : forall (atts : list (nat * option (list V))) i (r : record), NoDup (map fst atts) -> (forall a col, In (a, col) atts -> exists l, col = Some l /\ (i < length l)%nat) ->
  (exists q, gather (store atts i r) (Z.of_nat i) default = Some q /\ agrees default (map fst atts) r q) /\
  (forall j, j <> i -> gather (store atts i r) (Z.of_nat j) default = gather atts (Z.of_nat j) default).
Proof.
  intros atts i r N H. assert (Fs : map fst (store atts i r) = map fst atts) by (unfold store; rewrite map_map; reflexivity). split.
  - destruct (gather (store atts i r) (Z.of_nat i) default) as [q|] eqn:G.
    + exists q. split; [reflexivity|]. rewrite <- Fs in N. destruct (gather_spec _ _ _ _ N G) as [G1 G2]. intros a. destruct (existsb (Nat.eqb a) (map fst atts)) eqn:X.
      * apply existsb_in in X. apply in_map_iff in X. destruct X as [[a' col] [<- Hin]]. cbn [fst]. destruct (H _ _ Hin) as [l [-> Hl]].
        specialize (G1 a' (Some (upd i (r a') l))). cbn [column_at] in G1. replace (Z.of_nat i <? 0) with false in G1 by lia. rewrite Nat2Z.id, nth_error_upd_eq in G1 by assumption.
        enough (Some (r a') = Some (q a')) by congruence. apply G1. unfold store. apply in_map_iff. exists (a', Some l). auto.
      * apply G2. rewrite Fs. intros Q. apply existsb_in in Q. congruence.
    + exfalso. revert G. apply gather_some. intros a col Hin. unfold store in Hin. apply in_map_iff in Hin. destruct Hin as [[a' c'] [E Hin]]. destruct (H _ _ Hin) as [l [-> Hl]]. inversion E; subst.
      cbn [column_at option_map]. replace (Z.of_nat i <? 0) with false by lia. rewrite Nat2Z.id, nth_error_upd_eq by assumption. discriminate.
  - intros j Hj. clear N Fs H. generalize default. induction atts as [|[a col] atts IH]; intros q; [reflexivity|]. cbn [store map gather fst snd].
    replace (column_at (option_map (fun l => upd i (r a) l) col) (Z.of_nat j)) with (column_at col (Z.of_nat j)); [|destruct col as [l|]; cbn; [|reflexivity]; destruct (Z.of_nat j <? 0); [reflexivity|]; rewrite Nat2Z.id, nth_error_upd_neq by congruence; reflexivity].
    destruct (column_at col (Z.of_nat j)); [|reflexivity]. apply IH.
Qed.
(** A batch with at least one scenario is called uniform exactly if all scenarios have the same number of elements, and this number is given. *)
Theorem C35_uniform : forall (d : @dataset V) x, built d -> In x (comps d) -> backed x -> 0 < batch_size d ->
  exists u, is_uniform d (name x) = Ok u /\
    (u = true <-> exists k, forall s, 0 <= s < batch_size d -> exists l, view d (name x) s = Ok l /\ Z.of_nat (length l) = k) /\
    (u = true -> exists k, uniform_elements_per_scenario d (name x) = Ok k /\ forall s l, 0 <= s < batch_size d -> view d (name x) s = Ok l -> Z.of_nat (length l) = k).
Proof.
  intros d x B Hx Bk Hn. apply built_well in B. pose proof (w_comps _ B x Hx) as G. pose proof (find_intro d x B Hx) as F. unfold is_uniform, uniform_elements_per_scenario. rewrite F.
  assert (Vw : forall s, 0 <= s < batch_size d -> exists l, view d (name x) s = Ok l /\ Z.of_nat (length l) = bound x (s + 1) - bound x s).
  { intros s Hs. unfold Datasets.view. rewrite F. replace (batch_size d <=? s) with false by lia.
    replace (negb (is_batch d) && (0 <? s)) with false; [|symmetry; destruct (is_batch d) eqn:I; [reflexivity|]; apply w_single in I; [|assumption]; cbn; lia].
    destruct (view_some _ x s G Bk Hs) as [l [L1 [_ L2]]]. exists l. auto. }
  unfold is_uniform_comp. destruct (is_dense_comp x) eqn:Dn.
  - assert (E : 0 <= eps x). { unfold is_dense_comp in Dn. destruct (Z.lt_ge_cases (eps x) 0) as [L|L]; [|assumption]. destruct (g_sparse _ _ G L) as [Q _]. destruct (indptr (buf x)); [cbn in Q; lia|discriminate]. }
    assert (Bd : forall s, bound x (s + 1) - bound x s = eps x) by (intros s; unfold bound; replace (eps x <? 0) with false by lia; ring).
    exists true. refine (conj eq_refl (conj _ _)).
    + split; [|reflexivity]. intros _. exists (eps x). intros s Hs. destruct (Vw s Hs) as [l [L1 L2]]. exists l. rewrite Bd in L2. auto.
    + intros _. exists (eps x). split; [reflexivity|]. intros s l Hs Hl. destruct (Vw s Hs) as [l' [L1 L2]]. rewrite Bd in L2. congruence.
  - assert (E : eps x < 0). { unfold is_dense_comp in Dn. destruct (Z.lt_ge_cases (eps x) 0) as [L|L]; [assumption|]. destruct (g_dense _ _ G L) as [Q _]. rewrite Q in Dn. discriminate. }
    destruct (g_sparse _ _ G E) as [Len _]. assert (Bd : forall s, bound x s = nth (Z.to_nat s) (indptr (buf x)) 0) by (intros s; unfold bound; replace (eps x <? 0) with true by lia; reflexivity).
    destruct (indptr (buf x)) as [|a [|b rest]] eqn:Ip; [cbn in Len; lia|cbn in Len; lia|]. set (ip := a :: b :: rest) in *.
    assert (B1 : bound x (0 + 1) - bound x 0 = b - a) by (rewrite !Bd; reflexivity).
    assert (U : adjacent (fun start stop => negb (stop - start =? b - a)) ip = false <-> forall s, 0 <= s < batch_size d -> bound x (s + 1) - bound x s = b - a).
    { rewrite adjacent_false. split.
      - intros H s Hs. specialize (H (Z.to_nat s)). rewrite !Bd. replace (Z.to_nat (s + 1)) with (S (Z.to_nat s)) by lia. rewrite Len in H. specialize (H ltac:(lia)). lia.
      - intros H i Hi. rewrite Len in Hi. specialize (H (Z.of_nat i) ltac:(lia)). rewrite !Bd in H. replace (Z.to_nat (Z.of_nat i + 1)) with (S i) in H by lia. rewrite Nat2Z.id in H. lia. }
    eexists. refine (conj eq_refl (conj _ _)).
    + rewrite negb_true_iff, U. split.
      * intros H. exists (b - a). intros s Hs. destruct (Vw s Hs) as [l [L1 L2]]. exists l. rewrite H in L2 by assumption. auto.
      * intros [k H] s Hs. destruct (H 0 ltac:(lia)) as [l0 [A1 A2]]. destruct (H s Hs) as [l [A3 A4]]. destruct (Vw 0 ltac:(lia)) as [l0' [V1 V2]]. destruct (Vw s Hs) as [l' [V3 V4]].
        rewrite A1 in V1. inversion V1; subst l0'. rewrite A3 in V3. inversion V3; subst l'. lia.
    + intros H. rewrite negb_true_iff, U in H. exists (b - a). split; [reflexivity|]. intros s l Hs Hl. destruct (Vw s Hs) as [l' [L1 L2]]. rewrite Hl in L1. inversion L1; subst l'. rewrite L2. now apply H.
Qed.
End Props.

(** For a batch of no scenarios with offsets the check for uniformity reads behind the offsets (dataset.hpp 338-339): the precondition of C35_uniform cannot be dropped. *)
Theorem C35_uniform_empty_refuted : exists (d : @dataset Z) x, DatasetsSpec.built (fun _ => true) (fun _ _ => true) d /\ In x (comps d) /\ backed x /\ is_uniform d (name x) = Undefined.
Proof.
  set (x := @mkComp Z 7%nat (-1) 0 (mkBuffer (Some []) [] [0])). exists (mkDataset true 0 [x]), x. refine (conj _ (conj _ (conj _ _))); [|left; reflexivity|cbn; lia|reflexivity].
  eapply b_buffer with (c := 7%nat) (e := -1) (t := 0) (p := Some [0]) (rows := Some []); [eapply b_create with (b := true) (n := 0); reflexivity|reflexivity].
Qed.

(** ** C36 *)
(** Whatever is created, linked and destroyed: no chain of datasets closes. *)
Theorem C36_acyclic : forall xs, acyclic (run [] xs).
Proof. intros xs. apply run_acyclic. intros p L. inversion L; subst; discriminate. Qed.
(** Every attempt ends; it is refused, and changes nothing, exactly if it would close a chain; otherwise just this link is set. *)
Theorem C36_link : forall xs p n, let h := run [] xs in mfind p h <> None -> mfind n h <> None -> no_dangling h ->
  ((n = p \/ leads h n p) -> do_call h (SetNext p n) = (h, Refused)) /\
  (~ (n = p \/ leads h n p) -> exists h', do_call h (SetNext p n) = (h', Done) /\ mfind p h' = Some (Some n) /\ forall q, q <> p -> mfind q h' = mfind q h).
Proof.
  intros xs p n h Hp Hn Nd. assert (Ac : acyclic h) by apply C36_acyclic. clearbody h. cbn [do_call]. destruct (mfind p h) as [o|]; [|congruence].
  assert (ND : forall fuel c, mfind c h <> None -> walk fuel h p (Some c) <> Dangling).
  { induction fuel as [|fuel IH]; intros c Hc; [discriminate|]. cbn [walk]. destruct (Nat.eqb p c); [discriminate|]. destruct (mfind c h) as [[q|]|] eqn:E; [|destruct fuel; discriminate|congruence].
    apply IH. eapply Nd. eassumption. }
  pose proof (walk_ends h Ac p n) as Fu. specialize (ND (S (S (length h))) n Hn). destruct (walk (S (S (length h))) h p (Some n)) eqn:W; try congruence.
  - split; [reflexivity|]. intros Q. exfalso. apply Q. destruct (walk_found h _ _ _ W); [left; auto|right; assumption].
  - destruct (walk_end h _ _ _ W) as [W1 [W2 _]]. split; [intros [->|L]; contradiction|]. intros _. eexists. refine (conj eq_refl (conj _ _)); [apply mfind_mset_eq|]. intros q Hq. now apply mfind_mset_neq.
Qed.
Theorem C36_refused_unchanged : forall h x h', do_call h x = (h', Refused) -> h' = h.
Proof.
  intros h [p|p n|p] h'; cbn [do_call]; destruct (mfind p h); try (intros [=]; congruence). destruct (walk _ h p (Some n)); intros [=]; congruence.
Qed.

(** ** Cases *)
Definition ex_known (c : nat) : bool := (c <? 5)%nat.
Definition ex_rec (k : Z) : nat -> Z := fun a => 100 * k + Z.of_nat a.
Definition ex_default : nat -> Z := fun _ => -1.
Definition ex_rows : list (nat -> Z) := [ex_rec 0; ex_rec 1; ex_rec 2; ex_rec 3; ex_rec 4; ex_rec 5].
(** a batch of three scenarios: a uniform component with two records per scenario and a columnar one with offsets 0, 1, 1, 4 *)
Definition ex_calls : outcome (@dataset Z) :=
  bind (create true 3) (fun d => bind (add_buffer ex_known d 1 2 6 None (Some ex_rows)) (fun d => bind (add_buffer ex_known d 2 (-1) 4 (Some [0; 1; 1; 4]) None) (fun d =>
    add_attribute_buffer (fun _ _ => true) d 2 3 (Some (map (fun r => r 3%nat) ex_rows))))).
Example ex_built : exists d, ex_calls = Ok d /\ DatasetsSpec.built ex_known (fun _ _ => true) d /\ Forall backed (comps d) /\ is_uniform d 2 = Ok false /\
  match view ex_default d 2 2, view ex_default d 1 1 with Ok l, Ok m => map (fun r => r 3%nat) l = [103; 203; 303] /\ map (fun r => r 0%nat) l = [-1; -1; -1] /\ map (fun r => r 0%nat) m = [200; 300] | _, _ => False end.
Proof.
  eexists. refine (conj eq_refl (conj _ (conj _ (conj eq_refl _)))).
  - eapply b_attribute with (c := 2%nat) (a := 3%nat) (col := Some (map (fun r => r 3%nat) ex_rows)).
    + eapply b_buffer with (c := 2%nat) (e := -1) (t := 4) (p := Some [0; 1; 1; 4]) (rows := None).
      * eapply b_buffer with (c := 1%nat) (e := 2) (t := 6) (p := None) (rows := Some ex_rows); [eapply b_create with (b := true) (n := 3); reflexivity|reflexivity].
      * reflexivity.
    + reflexivity.
  - repeat constructor; [unfold backed; cbn; lia|]. unfold backed. cbn. intros a col [E|[]]. inversion E; subst. cbn. lia.
  - cbv. repeat split.
Qed.
Example ex_refused : exists e, bind (create true 3) (fun d => add_buffer (V := Z) ex_known d 2 (-1) 4 (Some [0; 2; 1; 4]) None) = Throw e.
Proof. eexists. reflexivity. Qed.
Example ex_chain : let h := run [] [Create 1; Create 2; Create 3; SetNext 1 2; SetNext 2 3] in
  no_dangling h /\ leads h 1 3 /\ do_call h (SetNext 3 1) = (h, Refused) /\ snd (do_call h (SetNext 1 3)) = Done.
Proof.
  cbn. refine (conj _ (conj _ (conj eq_refl eq_refl))); [|eapply l_more; [reflexivity|apply l_one; reflexivity]].
  intros p q. cbn. repeat (destruct (_ =? _)%nat; [intros [= <-]; cbn; discriminate|]). discriminate.
Qed.

Print Assumptions C35_accepted.
Print Assumptions C35_cover.
Print Assumptions C35_individual.
Print Assumptions C35_slice.
Print Assumptions C35_slice_empty.
Print Assumptions C35_columnar.
Print Assumptions C35_store.
Print Assumptions C35_uniform.
Print Assumptions C35_uniform_empty_refuted.
Print Assumptions C36_acyclic.
Print Assumptions C36_link.
Print Assumptions C36_refused_unchanged.
