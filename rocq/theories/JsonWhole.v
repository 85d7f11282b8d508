(** What is written is one object of few levels; the values that are read from the text. *)
From Coq Require Import String Ascii DecimalString.
From Verif Require Import Common Serial SerialSpec SerialFacts SerialTrip SerialWhole SerialRound Json JsonSpec JsonFacts JsonTrip JsonSim.
Local Open Scope nat_scope.

Section Whole.
Context {D : Type} (nan : D) (is_nan : D -> bool) (of_int : Z -> D).
Notation obj := (obj is_nan).
Lemma obj_more d : forall l, obj d l -> obj (S d) l.
Proof.
  induction d as [|d IH]; intros l H; [contradiction|]. destruct H as [H|[(ls & F & E & H)|(ls & F & E & H)]]; [left; exact H| |].
  - right. left. exists ls. refine (conj F (conj E _)). eapply Forall_impl; [|exact H]. exact IH.
  - right. right. exists ls. refine (conj F (conj E _)). eapply Forall_impl; [|exact H]. intros kl (P & O). split; [exact P|apply IH; exact O].
Qed.
Lemma obj_leaf d t : scalar_ok is_nan t -> obj (S d) [t].
Proof. intros H. left. exists t. auto. Qed.
Lemma obj_array {A} d (f : A -> list (token D)) l n : n = List.length l -> fits n -> (forall x, In x l -> obj d (f x)) -> obj (S d) (ArrayH n :: concat (map f l)).
Proof.
  intros -> F H. right. left. exists (map f l). rewrite map_length. refine (conj F (conj eq_refl _)). apply Forall_forall. intros y Hy. apply in_map_iff in Hy. destruct Hy as (x & <- & Hx). apply H. exact Hx.
Qed.
Lemma obj_map {A} d (k : A -> string) (f : A -> list (token D)) l n : n = List.length l -> fits n -> (forall x, In x l -> plain (k x) /\ obj d (f x)) ->
  obj (S d) (MapH n :: concat (map (fun x => Str (k x) :: f x) l)).
Proof.
  intros -> F H. right. right. exists (map (fun x => (k x, f x)) l). rewrite map_length. refine (conj F (conj _ _)); [rewrite map_map; reflexivity|].
  apply Forall_forall. intros y Hy. apply in_map_iff in Hy. destruct Hy as (x & <- & Hx). apply H. exact Hx.
Qed.
Lemma obj_scalar d x : obj (S d) [pack_scalar is_nan x].
Proof. apply obj_leaf. unfold pack_scalar. destruct (is_nan x) eqn:E; [exact I|exact E]. Qed.
Lemma fits_small n : n < 1000 -> fits n.
Proof. unfold fits. lia. Qed.
Lemma obj_value d t v : typed t v -> is_na is_nan t v = false -> obj (S (S d)) (pack_value is_nan v).
Proof.
  intros T N. destruct t, v; cbn in T, N; try contradiction; cbn [pack_value]; try (apply obj_leaf; exact I); try (apply obj_leaf; exact N).
  apply (obj_array (S d) (fun x => [pack_scalar is_nan x]) [a; b; c] 3 eq_refl); [apply fits_small; lia|]. intros x _. apply obj_scalar.
Qed.
Lemma obj_vtok d t v : typed t v -> obj (S (S d)) (vtok is_nan t v).
Proof. intros T. unfold vtok. destruct (is_na is_nan t v) eqn:E; [apply obj_leaf; exact I|eapply obj_value; eassumption]. Qed.

Hypothesis nan_nan : is_nan nan = true.
Variable (ds : dataset D).
Hypothesis ok : dataset_ok ds.
Hypothesis names : names_ok (ds_meta ds).
Variable (compact : bool).
Notation mcd := (mcd ds).
Notation tot := (tot ds).
Lemma name_plain cb : In cb (ds_comps ds) -> In (mcd cb) (ms_comps (ds_meta ds)).
Proof. intros H. destruct (buffer_facts nan is_nan nan_nan ds ok cb H) as (Hm & _). eapply nth_error_In. exact Hm. Qed.
Lemma nm_proper cb a : In cb (ds_comps ds) -> a < List.length (mc_attrs (mcd cb)) -> proper (nm (mcd cb) a).
Proof.
  intros H Ha. unfold nm. destruct (nth_error (mc_attrs (mcd cb)) a) as [x|] eqn:E; [|apply nth_error_None in E; lia]. eapply nm_attr; [exact names|apply name_plain; exact H|eapply nth_error_In; exact E].
Qed.
Lemma attrs_len cb : In cb (ds_comps ds) -> fits (List.length (mc_attrs (mcd cb))).
Proof. intros H. destruct (mo_attrs _ (do_meta _ ok) _ (name_plain cb H)) as (_ & F). exact F. Qed.
Lemma own_len cb : In cb (ds_comps ds) -> fits (List.length (own_attrs nan is_nan ds cb)).
Proof. intros H. eapply fits_le; [|apply attrs_len; exact H]. unfold own_attrs, attrs_of. etransitivity; [apply filter_len|rewrite seq_length; lia]. Qed.
Lemma obj_tok cb j : In cb (ds_comps ds) -> j < tot cb -> obj 3 (tok nan is_nan ds compact cb j).
Proof.
  intros H Hj. destruct (buffer_facts nan is_nan nan_nan ds ok cb H) as (_ & Ht & _). unfold tok, etok. destruct compact.
  - unfold etok_list. apply obj_array; [reflexivity|apply own_len; exact H|]. intros a Ha. apply obj_vtok. eapply content_typed; [exact nan_nan|exact Ht|exact Hj|].
    apply (attrs_of_in nan is_nan nan_nan) in Ha. tauto.
  - unfold etok_dict. apply obj_map; [reflexivity| |].
    + eapply fits_le; [|apply attrs_len; exact H]. unfold dict_keys. etransitivity; [apply filter_len|].
      apply nodup_bound; [eapply dict_attrs_nodup; exact Ht|]. intros a Ha. eapply held_lt; [eapply typed_shaped; exact Ht|apply (dict_attrs_held nan is_nan nan_nan); exact Ha].
    + intros a Ha. destruct (dict_keys_lt nan is_nan nan_nan (mcd cb) (tot cb) _ j a Ht Ha) as (La & _ & N). split; [apply nm_proper; assumption|].
      eapply obj_value; [|exact N]. eapply content_typed; [exact nan_nan|exact Ht|exact Hj|exact La].
Qed.
Lemma obj_stok s : s < ds_size ds -> obj 5 (stok nan is_nan ds compact s).
Proof.
  intros Hs. unfold stok. apply (obj_map 4 (fun cb => mc_name (mcd cb)) (fun cb => btok nan is_nan ds compact cb s)); [reflexivity| |].
  - eapply fits_le; [apply filter_len|exact (comps_fit nan is_nan nan_nan ds ok)].
  - intros cb Hc. apply shown_in in Hc. destruct Hc as (H & _). split; [apply (nm_comp _ names _ (name_plain cb H))|]. destruct (buffer_facts nan is_nan nan_nan ds ok cb H) as (_ & _ & _ & Hf).
    unfold btok. apply obj_array; [rewrite seq_length; reflexivity|apply Hf; exact Hs|]. intros j Hj. apply obj_tok; [exact H|]. apply in_seq in Hj.
    pose proof (first_tot nan is_nan of_int nan_nan ds ok cb (S s) H ltac:(lia)) as X. rewrite (first_step nan is_nan of_int nan_nan ds ok cb s H Hs) in X. lia.
Qed.
Lemma obj_dtok : obj 6 (dtok nan is_nan ds compact).
Proof.
  unfold dtok. destruct (ds_batch ds) eqn:E.
  - cbn [app]. apply obj_array; [rewrite seq_length; reflexivity|exact (do_size _ ok)|]. intros s Hs. apply in_seq in Hs. apply obj_stok. lia.
  - rewrite (do_single _ ok E). cbn [seq map concat app]. rewrite app_nil_r. apply obj_more. apply obj_stok. rewrite (do_single _ ok E). lia.
Qed.
Lemma concat_single {A} (l : list A) : concat (map (fun x => [x]) l) = l.
Proof. induction l; cbn; congruence. Qed.
Lemma obj_atok : obj 3 (atok nan is_nan ds compact).
Proof.
  unfold atok. unfold atok_of.
  apply (obj_map 2 (fun ka => mc_name (meta_no ds (fst ka))) (fun ka => ArrayH (List.length (snd ka)) :: map Str (map (nm (meta_no ds (fst ka))) (snd ka)))); [reflexivity| |].
  - unfold alist. destruct compact; [|apply fits_small; cbn; lia]. eapply fits_le; [|exact (comps_fit nan is_nan nan_nan ds ok)].
    rewrite (Permutation.Permutation_length (amap_perm nan is_nan ds ok)), map_length. apply filter_len.
  - intros (k, x) Hk. unfold alist in Hk. destruct compact; [|contradiction]. destruct (amap_in nan is_nan ds ok k x Hk) as (cb & Hu & -> & ->). destruct (used_meta nan is_nan nan_nan ds ok cb Hu) as (_ & Em & H).
    cbn [fst snd]. rewrite Em. split; [apply (nm_comp _ names _ (name_plain cb H))|].
    rewrite <- (concat_single (map Str _)), !map_map. apply obj_array; [reflexivity|apply own_len; exact H|]. intros a Ha. apply obj_leaf. apply nm_proper; [exact H|].
    apply (attrs_of_in nan is_nan nan_nan) in Ha. tauto.
Qed.
Lemma obj_written : obj 11 (written nan is_nan ds compact).
Proof.
  do 4 apply obj_more. right. right.
  exists [("version"%string, [Str "1.0"]); ("type"%string, [Str (ms_name (ds_meta ds))]); ("is_batch"%string, [TBool (ds_batch ds)]); ("attributes"%string, atok nan is_nan ds compact); ("data"%string, dtok nan is_nan ds compact)].
  refine (conj _ (conj _ _)); [apply fits_small; cbn; lia| |].
  - unfold written. cbn [map concat fst snd app]. rewrite app_nil_r. reflexivity.
  - assert (P : forall s, forallb (fun c => negb (Ascii.eqb c quote) && negb (Ascii.eqb c backslash) && (32 <=? nat_of_ascii c)) (list_ascii_of_string s) = true -> plain s).
    { induction s as [|c s IH]; cbn [list_ascii_of_string forallb plain]; [auto|]. rewrite !Bool.andb_true_iff, !Bool.negb_true_iff, !Ascii.eqb_neq, Nat.leb_le. intros (((? & ?) & ?) & ?). auto. }
    apply Forall_forall. intros kl Hkl.
    assert (V : proper "1.0") by (split; [apply P; reflexivity|refine (conj _ (conj _ _)); discriminate]).
    destruct Hkl as [<-|[<-|[<-|[<-|[<-|[]]]]]]; (split; [apply P; reflexivity|]); cbn [snd].
    + apply obj_leaf. exact V.
    + apply obj_leaf. exact (nm_set _ names).
    + apply obj_leaf. exact I.
    + do 3 apply obj_more. apply obj_atok.
    + apply obj_dtok.
Qed.

(** ** the values that are read *)
Context (pinf ninf : D) (inf_sign : D -> option bool) (show_double : D -> string) (read_double : string -> option D) (equal : D -> D -> Prop).
Hypothesis laws : text_laws nan is_nan of_int pinf ninf inf_sign show_double read_double equal.
Notation reread := (reread is_nan inf_sign show_double).
Definition canon (d : D) : D := match reread_double is_nan inf_sign show_double d with TInt z => of_int z | _ => d end.
Lemma reread_other t : (forall d, t <> TFloat d) -> reread t = t.
Proof. destruct t; intros H; try reflexivity. exfalso. eapply H. reflexivity. Qed.
Lemma reread_float d : reread (TFloat d) = TFloat (canon d) \/ exists z, reread (TFloat d) = TInt z /\ of_int z = canon d.
Proof.
  cbn [JsonFacts.reread]. unfold canon, reread_double. destruct (is_nan d); [left; reflexivity|]. destruct (inf_sign d); [left; reflexivity|]. destruct (NilZero.int_of_string _); [right; eexists; split; reflexivity|left; reflexivity].
Qed.
Lemma canon_nan_any d : is_nan d = true -> canon d = d.
Proof. intros H. unfold canon, reread_double. rewrite H. reflexivity. Qed.
Lemma canon_int z : canon (of_int z) = of_int z.
Proof.
  unfold canon, reread_double. rewrite (tl_int _ _ _ _ _ _ _ _ _ laws). destruct (inf_sign (of_int z)) eqn:E; [reflexivity|]. destruct (NilZero.int_of_string _) as [i|] eqn:Ei; [|reflexivity].
  exact (tl_int_int _ _ _ _ _ _ _ _ _ laws z i E Ei).
Qed.
Lemma canon_equal d : equal_double is_nan equal d (canon d).
Proof.
  unfold equal_double. destruct (is_nan d) eqn:E; [left; rewrite canon_nan_any by exact E; auto|]. right. split; [reflexivity|]. unfold canon, reread_double. rewrite E.
  destruct (inf_sign d) eqn:Ei; [split; [exact E|exact (tl_refl _ _ _ _ _ _ _ _ _ laws d E)]|]. destruct (tl_show _ _ _ _ _ _ _ _ _ laws d E Ei) as (_ & _ & _ & H).
  destruct (NilZero.int_of_string _) as [i|]; [split; [apply (tl_int _ _ _ _ _ _ _ _ _ laws)|exact H]|split; [exact E|exact (tl_refl _ _ _ _ _ _ _ _ _ laws d E)]].
Qed.
Lemma same_equal x y : same_double is_nan x y -> equal_double is_nan equal x (canon y).
Proof.
  intros [(A & B)|(A & <-)].
  - left. split; [exact A|]. rewrite canon_nan_any; exact B.
  - apply canon_equal.
Qed.
Lemma same_equal_value v w : same_value is_nan v w -> equal_value is_nan equal v (cv canon w).
Proof. destruct v, w; cbn; try contradiction; [auto|apply same_equal|]. intros (A & B & C). refine (conj _ (conj _ _)); apply same_equal; assumption. Qed.
Lemma stored_cbuf b i a : stored (cbuf canon b) i a = option_map (cv canon) (stored b i a).
Proof.
  destruct b as [rows|cols]; cbn [cbuf stored].
  - rewrite nth_error_map. destruct (nth_error rows i); cbn [option_map]; [apply nth_error_map|reflexivity].
  - induction cols as [|(a', col) cols IH]; [reflexivity|]. cbn [map find fst]. destruct (a' =? a); [cbn [snd]; apply nth_error_map|exact IH].
Qed.
Lemma find_ccb c l : find (fun cb => cb_comp cb =? c) (map (ccb canon) l) = option_map (ccb canon) (find (fun cb => cb_comp cb =? c) l).
Proof. induction l as [|x l IH]; [reflexivity|]. cbn [map find]. change (cb_comp (ccb canon x)) with (cb_comp x). destruct (cb_comp x =? c); [reflexivity|exact IH]. Qed.
Lemma buffer_cds d c : buffer_of (cds canon d) c = option_map (ccb canon) (buffer_of d c).
Proof. unfold buffer_of. cbn [cds ds_comps]. apply find_ccb. Qed.
Lemma elements_cds d s c : elements (cds canon d) s c = elements d s c.
Proof. unfold elements. rewrite buffer_cds. destruct (buffer_of d c); reflexivity. Qed.
Lemma datum_cds d s c i a : datum (cds canon d) s c i a = option_map (cv canon) (datum d s c i a).
Proof.
  unfold datum. rewrite buffer_cds. destruct (buffer_of d c) as [cb|]; [|reflexivity]. cbn [option_map]. change (count_of (ccb canon cb) s) with (count_of cb s). change (first_of (ccb canon cb) s) with (first_of cb s).
  destruct (i <? count_of cb s); [|reflexivity]. cbn [ccb cb_data]. apply stored_cbuf.
Qed.
Lemma read_back_cds d targets : read_back nan is_nan ds targets d -> read_back_json nan is_nan equal ds targets (cds canon d).
Proof.
  intros [R1 R2 R3 R4 R5 R6]. constructor; try assumption.
  - intros s c Hs Hg. rewrite elements_cds. apply R4; assumption.
  - intros s c i a mc x Hs Hi Hm Hx Ht. destruct (R5 s c i a mc x Hs Hi Hm Hx Ht) as (N & E). rewrite datum_cds. unfold equal_datum, same_datum in *. destruct (datum d s c i a) as [w|]; [|congruence].
    split; [discriminate|]. cbn [option_map]. apply same_equal_value. exact E.
  - intros s c i a mc v Hm Hd. rewrite datum_cds in Hd. destruct (datum d s c i a) as [w|] eqn:E; [|discriminate]. eapply R6; eassumption.
Qed.
Lemma described_map p : described is_nan ds compact p -> described is_nan ds compact (mparsed reread p).
Proof.
  assert (C : map ci_comp (map (minfo reread) (pa_infos p)) = map ci_comp (pa_infos p)) by (rewrite map_map; reflexivity).
  intros [R1 R2 R3 R4 R5 R6 R7 R8 R9]. constructor; cbn [mparsed pa_meta pa_batch pa_size pa_infos]; try assumption; rewrite ?C; try assumption.
  - intros i Hi. apply in_map_iff in Hi. destruct Hi as (j & <- & Hj). exact (R6 j Hj).
  - intros i e Hi. apply in_map_iff in Hi. destruct Hi as (j & <- & Hj). exact (R7 j e Hj).
  - intros i Hi. apply in_map_iff in Hi. destruct Hi as (j & <- & Hj). exact (R8 j Hj).
  - intros i mc Hi. apply in_map_iff in Hi. destruct Hi as (j & <- & Hj). exact (R9 j mc Hj).
Qed.
Theorem json_trip metas indent level : find (fun m => String.eqb (ms_name m) (ms_name (ds_meta ds))) metas = Some (ds_meta ds) ->
  exists ts txt ts' p, serialize is_nan ds compact = Done ts /\ convert inf_sign show_double indent level [] ts = Done txt /\ txt <> EmptyString /\
  json_to_msgpack pinf ninf read_double txt = Done ts' /\ pre_parse metas (fun n => n) ts' = Done p /\ described is_nan ds compact p /\
  forall targets, (forall c mc, nth_error (ms_comps (ds_meta ds)) c = Some mc -> target_ok mc (targets c)) ->
  exists ds', parse nan of_int p targets = Done ds' /\ read_back_json nan is_nan equal ds targets ds'.
Proof.
  intros Hk. destruct (round_trip nan is_nan of_int nan_nan metas ds ok Hk compact) as (ts & p & E1 & E2 & De & H).
  pose proof (serialize_ok nan is_nan of_int nan_nan ds ok compact) as E3. rewrite E1 in E3. injection E3 as ->.
  assert (Cn : canon nan = nan) by (apply canon_nan_any; exact nan_nan).
  destruct (text_trip nan is_nan of_int pinf ninf inf_sign show_double read_double equal indent level laws _ 5 _ eq_refl obj_written) as (txt & T1 & T2 & T3).
  eexists _, txt, _, (mparsed reread p). split; [exact E1|]. split; [exact T1|]. split; [exact T3|]. split; [exact T2|]. split.
  - exact (sim_pre_parse of_int reread canon reread_other reread_float metas _ _ p E2).
  - split; [apply described_map; exact De|]. intros targets Ht. destruct (H targets Ht) as (ds' & E4 & RB). exists (cds canon ds'). split; [|apply read_back_cds; exact RB].
    exact (sim_parse nan of_int reread canon reread_other reread_float Cn canon_int p targets ds' E4).
Qed.
End Whole.
