(** Proofs about Serial.v: whole datasets *)
From Coq Require Import String Permutation.
From Verif Require Import Common Serial SerialSpec SerialFacts SerialTrip.
Local Open Scope nat_scope.

Lemma filter_map_swap {A B} (p : B -> bool) (f : A -> B) l : filter p (map f l) = map f (filter (fun x => p (f x)) l).
Proof. induction l as [|a l IH]; [reflexivity|]. cbn [map filter]. rewrite IH. destruct (p (f a)); reflexivity. Qed.
Lemma nth_ok {A} (l : list A) k d x : nth_error l k = Some x -> nth k l d = x.
Proof. revert k. induction l; intros [|k] H; cbn in *; try discriminate; [congruence|auto]. Qed.
Lemma nth_error_nth_lt {A} (l : list A) k d : k < List.length l -> nth_error l k = Some (nth k l d).
Proof. revert k. induction l; intros [|k] H; cbn in *; try lia; [reflexivity|apply IHl; lia]. Qed.
Lemma find_nodup {A} (key : A -> nat) l x : NoDup (map key l) -> In x l -> find (fun y => key y =? key x) l = Some x.
Proof.
  induction l as [|y l IH]; intros N H; [contradiction|]. cbn [map] in N. inversion N as [|? ? Hy N']; subst. cbn [find].
  destruct H as [->|H]; [rewrite Nat.eqb_refl; reflexivity|]. destruct (Nat.eqb_spec (key y) (key x)) as [E|]; [exfalso; apply Hy; rewrite E; apply in_map; exact H|apply IH; assumption].
Qed.
Lemma forall2_map_l {A B C} (f : A -> B) (P : B -> C -> Prop) l l' : Forall2 P (map f l) l' <-> Forall2 (fun x y => P (f x) y) l l'.
Proof.
  split; revert l'; induction l as [|a l IH]; intros l' H; inversion H; subst; constructor; auto.
Qed.
Lemma forall2_imp {A B} (P Q : A -> B -> Prop) l l' : (forall x y, In x l -> P x y -> Q x y) -> Forall2 P l l' -> Forall2 Q l l'.
Proof. intros H F. induction F; constructor; [apply H; [left; reflexivity|assumption]|apply IHF; intros; apply H; [right; assumption|assumption]]. Qed.
Lemma forall2_nth_r {A B} (P : A -> B -> Prop) l l' k y : Forall2 P l l' -> nth_error l' k = Some y -> exists x, nth_error l k = Some x /\ P x y.
Proof. intros H. revert k. induction H; intros [|k] E; cbn in *; try discriminate; [injection E as <-; eauto|eauto]. Qed.
Lemma forall2_len {A B} (P : A -> B -> Prop) l l' : Forall2 P l l' -> List.length l = List.length l'.
Proof. induction 1; cbn; congruence. Qed.
Lemma nth_seq s n k x : nth_error (seq s n) k = Some x -> x = s + k /\ k < n.
Proof.
  revert s k. induction n as [|n IH]; intros s k H; [destruct k; discriminate|]. destruct k; cbn in H; [injection H as <-; lia|].
  apply IH in H. lia.
Qed.
Lemma stored_means_held {D} mc total (b : buffer D) j a v : shaped mc total b -> stored b j a = Some v -> held mc b a.
Proof.
  destruct b as [rows|cols]; cbn [shaped stored held].
  - intros (_ & R) H. destruct (nth_error rows j) as [row|] eqn:E; [|discriminate]. rewrite <- (R row (nth_error_In _ _ E)). apply nth_error_Some. congruence.
  - intros _ H. destruct (find (fun x => fst x =? a) cols) as [y|] eqn:Ey; [|discriminate]. apply find_some in Ey. destruct Ey as (Hy & Ey). apply Nat.eqb_eq in Ey. subst a. apply in_map. exact Hy.
Qed.

Section Whole.
Context {D : Type} (nan : D) (is_nan : D -> bool) (of_int : Z -> D).
Hypothesis nan_nan : is_nan nan = true.
Notation token := (token D).
Notation value := (value D).
Notation comp_buffer := (comp_buffer D).
Notation dataset := (dataset D).
Notation attrs_of := (attrs_of nan is_nan).
Notation content := (content nan).
Variable (ds : dataset).
Hypothesis ok : dataset_ok ds.
Variable (compact : bool).

Notation size := (ds_size ds).
Definition mcd (cb : comp_buffer) : meta_comp := nth (cb_comp cb) (ms_comps (ds_meta ds)) (mkComp "" []).
Definition tot (cb : comp_buffer) : nat := first_of cb size.

(** ** sizes *)
Lemma buffer_facts cb : In cb (ds_comps ds) -> nth_error (ms_comps (ds_meta ds)) (cb_comp cb) = Some (mcd cb) /\ typed_buffer (mcd cb) (tot cb) (cb_data cb) /\
  sized size cb (tot cb) /\ forall s, s < size -> fits (count_of cb s).
Proof.
  intros H. destruct (do_buffer _ ok cb H) as (mc & total & Hm & Hs & Ht & Hf).
  assert (E : mcd cb = mc) by (unfold mcd; apply nth_ok; exact Hm).
  assert (E' : tot cb = total). { unfold tot, first_of. unfold sized in Hs. destruct (cb_eps cb); [lia|tauto]. }
  rewrite E, E'. auto.
Qed.
Lemma first_step cb s : In cb (ds_comps ds) -> s < size -> first_of cb (S s) = first_of cb s + count_of cb s.
Proof.
  intros H Hs. destruct (buffer_facts cb H) as (_ & _ & Z & _). unfold sized in Z. unfold first_of, count_of. destruct (cb_eps cb) as [e|]; [lia|].
  destruct Z as (_ & _ & _ & Z). specialize (Z s Hs). lia.
Qed.
Lemma first_0 cb : In cb (ds_comps ds) -> first_of cb 0 = 0.
Proof. intros H. destruct (buffer_facts cb H) as (_ & _ & Z & _). unfold sized in Z. unfold first_of. destruct (cb_eps cb); [reflexivity|tauto]. Qed.
Lemma first_le cb n s : In cb (ds_comps ds) -> s + n <= size -> first_of cb s <= first_of cb (s + n).
Proof.
  intros H. revert s. induction n as [|n IH]; intros s Hn; [rewrite Nat.add_0_r; lia|].
  replace (s + S n) with (S (s + n)) by lia. rewrite first_step by (try exact H; lia). specialize (IH s ltac:(lia)). lia.
Qed.
Lemma first_tot cb s : In cb (ds_comps ds) -> s <= size -> first_of cb s <= tot cb.
Proof. intros H Hs. unfold tot. replace size with (s + (size - s)) by lia. apply first_le; [exact H|lia]. Qed.
Lemma count_tot cb : In cb (ds_comps ds) -> 0 < tot cb <-> exists s, s < size /\ 0 < count_of cb s.
Proof.
  intros H. split.
  - unfold tot. intros Hp. assert (X : forall n, n <= size -> 0 < first_of cb n -> exists s, s < size /\ 0 < count_of cb s).
    { induction n as [|n IH]; intros Hn Hf; [rewrite first_0 in Hf by exact H; lia|]. rewrite first_step in Hf by (try exact H; lia).
      destruct (Nat.eq_dec (count_of cb n) 0) as [E|E]; [apply IH; lia|exists n; lia]. }
    apply (X size); [lia|exact Hp].
  - intros (s & Hs & Hc). pose proof (first_tot cb (S s) H ltac:(lia)). rewrite first_step in H0 by assumption. lia.
Qed.
Lemma view_ok cb s : In cb (ds_comps ds) -> s < size -> view_of cb s (S s) = Done (cb, first_of cb s, count_of cb s).
Proof.
  intros H Hs. destruct (buffer_facts cb H) as (_ & _ & Z & _). unfold view_of, first_of, count_of, sized in *. destruct (cb_eps cb) as [e|].
  - do 2 f_equal; [f_equal; lia|]. replace (S s - s) with 1 by lia. lia.
  - destruct Z as (L & _). rewrite !(nth_error_nth_lt _ _ 0) by lia. reflexivity.
Qed.
Lemma view_all cb : In cb (ds_comps ds) -> view_of cb 0 size = Done (cb, 0, tot cb).
Proof.
  intros H. destruct (buffer_facts cb H) as (_ & _ & Z & _). unfold view_of, tot, first_of, sized in *. destruct (cb_eps cb) as [e|].
  - do 2 f_equal; [f_equal; lia|]. rewrite Nat.sub_0_r. lia.
  - destruct Z as (L & Z0 & _). rewrite !(nth_error_nth_lt _ _ 0) by lia. cbn [getR bindR]. rewrite Z0. do 2 f_equal. lia.
Qed.
Definition shown (s : nat) : list comp_buffer := filter (fun cb => 0 <? count_of cb s) (ds_comps ds).
Lemma create_view_ok s : s < size -> create_view ds s (S s) = Done (map (fun cb => (cb, first_of cb s, count_of cb s)) (shown s)).
Proof.
  intros Hs. unfold create_view. rewrite (mapR_done (B := view (D := D)) _ (fun cb => (cb, first_of cb s, count_of cb s))) by (intros cb H; apply view_ok; assumption).
  cbn [bindR]. rewrite filter_map_swap. reflexivity.
Qed.
Definition used : list comp_buffer := filter (fun cb => 0 <? tot cb) (ds_comps ds).
Lemma create_view_all : create_view ds 0 size = Done (map (fun cb => (cb, 0, tot cb)) used).
Proof.
  unfold create_view. rewrite (mapR_done (B := view (D := D)) _ (fun cb => (cb, 0, tot cb))) by (intros cb H; apply view_all; assumption).
  cbn [bindR]. rewrite filter_map_swap. reflexivity.
Qed.

(** ** what is written *)
Definition own_attrs (cb : comp_buffer) : list nat := attrs_of (mcd cb) (cb_data cb) (tot cb).
Definition amap : list (nat * list nat) :=
  fold_left (fun acc kx => map_insert (fst kx) (snd kx) acc) (map (fun cb => (cb_comp cb, own_attrs cb)) used) [].
Lemma check_attributes_ok : check_attributes is_nan ds = Done amap.
Proof.
  unfold check_attributes. rewrite create_view_all. cbn [bindR].
  rewrite (mapR_done _ (fun v : view (D := D) => (cb_comp (fst (fst v)), own_attrs (fst (fst v))))).
  - cbn [bindR]. rewrite map_map. reflexivity.
  - intros v Hv. apply in_map_iff in Hv. destruct Hv as (cb & <- & Hcb). apply filter_In in Hcb. destruct Hcb as (Hcb & _).
    destruct (buffer_facts cb Hcb) as (Hm & Ht & _). unfold check_component. cbn [fst snd]. unfold meta_of. rewrite Hm. cbn [getR bindR].
    rewrite (mapR_done _ (fun a => if negb (forallb (fun i => is_na is_nan (ty (mcd cb) a) (content (mcd cb) (cb_data cb) i a)) (seq 0 (tot cb))) then [a] else [])).
    + cbn [bindR]. unfold own_attrs, attrs_of. rewrite <- concat_filter. reflexivity.
    + intros a Ha. apply in_seq in Ha. apply (check_attribute_ok nan is_nan nan_nan); [exact Ht|lia].
Qed.
Lemma used_nodup : NoDup (map cb_comp used).
Proof.
  pose proof (do_once _ ok) as N. unfold used. induction (ds_comps ds) as [|cb l IH]; [constructor|]. cbn [map] in N. inversion N as [|? ? Hc N']; subst.
  cbn [filter]. destruct (0 <? tot cb); [|apply IH; exact N']. cbn [map]. constructor; [|apply IH; exact N'].
  intros C. apply Hc. apply in_map_iff in C. destruct C as (x & <- & Hx). apply filter_In in Hx. apply in_map. tauto.
Qed.
Lemma amap_perm : Permutation amap (map (fun cb => (cb_comp cb, own_attrs cb)) used).
Proof.
  unfold amap. rewrite fold_insert_perm.
  - rewrite app_nil_r. reflexivity.
  - cbn [map]. rewrite app_nil_r, map_map. cbn [fst]. exact used_nodup.
Qed.
Lemma amap_nodup : NoDup (map fst amap).
Proof.
  eapply Permutation_NoDup; [symmetry; apply Permutation_map; apply amap_perm|]. rewrite map_map. cbn [fst]. exact used_nodup.
Qed.
Lemma amap_find cb : In cb used -> map_find (cb_comp cb) amap = Some (own_attrs cb).
Proof.
  intros H. apply map_find_in; [exact amap_nodup|]. eapply Permutation_in; [symmetry; apply amap_perm|].
  apply in_map_iff. exists cb. auto.
Qed.
Lemma amap_in k x : In (k, x) amap -> exists cb, In cb used /\ k = cb_comp cb /\ x = own_attrs cb.
Proof.
  intros H. eapply Permutation_in in H; [|apply amap_perm]. apply in_map_iff in H. destruct H as (cb & E & Hcb). exists cb. injection E as <- <-. auto.
Qed.
Definition tok (cb : comp_buffer) (j : nat) : list token := etok nan is_nan compact (mcd cb) (cb_data cb) (tot cb) j.
Definition btok (cb : comp_buffer) (s : nat) : list token := ArrayH (count_of cb s) :: concat (map (tok cb) (seq (first_of cb s) (count_of cb s))).
Definition ctok (s : nat) (cb : comp_buffer) : list token := Str (mc_name (mcd cb)) :: btok cb s.
Definition stok (s : nat) : list token := MapH (List.length (shown s)) :: concat (map (ctok s) (shown s)).
Lemma shown_in s cb : In cb (shown s) <-> In cb (ds_comps ds) /\ 0 < count_of cb s.
Proof. unfold shown. rewrite filter_In. rewrite Nat.ltb_lt. tauto. Qed.
Lemma shown_used s cb : s < size -> In cb (shown s) -> In cb used.
Proof.
  intros Hs H. apply shown_in in H. destruct H as (H & Hc). apply filter_In. split; [exact H|]. apply Nat.ltb_lt. apply count_tot; [exact H|]. exists s. auto.
Qed.
Lemma pack_component_ok s cb : s < size -> In cb (shown s) ->
  pack_component is_nan ds (if compact then Some amap else None) (cb, first_of cb s, count_of cb s) = Done (ctok s cb).
Proof.
  intros Hs H. pose proof (shown_used s cb Hs H) as Hu. apply shown_in in H. destruct H as (H & Hc).
  destruct (buffer_facts cb H) as (Hm & Ht & _ & Hf). assert (Hmc : In (mcd cb) (ms_comps (ds_meta ds))) by (eapply nth_error_In; exact Hm).
  destruct (mo_attrs _ (do_meta _ ok) _ Hmc) as (_ & Fa).
  unfold pack_component. cbn [fst snd]. unfold meta_of. rewrite Hm. cbn [getR bindR]. rewrite pack_array_ok by (apply Hf; exact Hs). cbn [bindR].
  assert (L : forall j, In j (seq (first_of cb s) (count_of cb s)) -> j < tot cb).
  { intros j Hj. apply in_seq in Hj. pose proof (first_tot cb (S s) H ltac:(lia)) as X. rewrite first_step in X by assumption. lia. }
  unfold ctok, btok, tok, etok. destruct compact.
  - rewrite amap_find by exact Hu. cbn [getR bindR]. unfold own_attrs.
    rewrite (mapR_done _ (etok_list nan is_nan (mcd cb) (cb_data cb) (attrs_of (mcd cb) (cb_data cb) (tot cb)))); [reflexivity|].
    intros j Hj. apply (pack_list_ok nan is_nan nan_nan); [exact Ht|exact Fa|apply L; exact Hj].
  - cbn [bindR]. rewrite (mapR_done _ (etok_dict nan is_nan (mcd cb) (cb_data cb))); [reflexivity|].
    intros j Hj. eapply (pack_dict_ok nan is_nan nan_nan); [exact Ht|exact Fa|apply L; exact Hj].
Qed.
Lemma comps_fit : fits (List.length (ds_comps ds)).
Proof.
  eapply fits_le; [|exact (mo_fits _ (do_meta _ ok))]. rewrite <- (map_length cb_comp). apply nodup_bound; [exact (do_once _ ok)|].
  intros k Hk. apply in_map_iff in Hk. destruct Hk as (cb & <- & H). destruct (buffer_facts cb H) as (Hm & _). apply nth_error_Some. congruence.
Qed.
Lemma pack_scenario_ok s : s < size -> pack_scenario is_nan ds (if compact then Some amap else None) s = Done (stok s).
Proof.
  intros Hs. unfold pack_scenario. rewrite create_view_ok by exact Hs. cbn [bindR]. rewrite map_length.
  rewrite pack_map_ok by (eapply fits_le; [apply filter_len|exact comps_fit]). cbn [bindR].
  rewrite (mapR_done _ (fun v : view (D := D) => ctok s (fst (fst v)))).
  - cbn [bindR]. rewrite map_map. reflexivity.
  - intros v Hv. apply in_map_iff in Hv. destruct Hv as (cb & <- & Hcb). cbn [fst]. apply pack_component_ok; assumption.
Qed.
Definition meta_no (k : nat) : meta_comp := nth k (ms_comps (ds_meta ds)) (mkComp "" []).
Definition atok_of (ka : nat * list nat) : list token :=
  Str (mc_name (meta_no (fst ka))) :: ArrayH (List.length (snd ka)) :: map Str (map (nm (meta_no (fst ka))) (snd ka)).
Definition alist : list (nat * list nat) := if compact then amap else [].
Definition atok : list token := MapH (List.length alist) :: concat (map atok_of alist).
Lemma pack_attributes_ok : pack_attributes (D := D) ds (if compact then Some amap else None) = Done atok.
Proof.
  unfold pack_attributes, atok, alist. destruct compact; [|reflexivity]. rewrite (mapR_done _ atok_of); [reflexivity|].
  intros (k, x) H. destruct (amap_in k x H) as (cb & Hu & -> & ->). apply filter_In in Hu. destruct Hu as (Hcb & _).
  destruct (buffer_facts cb Hcb) as (Hm & _). cbn [fst snd]. rewrite Hm. cbn [getR bindR].
  rewrite (mapR_done _ (nm (mcd cb))).
  - cbn [bindR]. unfold atok_of. cbn [fst snd]. rewrite map_length. reflexivity.
  - intros a Ha. apply name_of_ok. apply (attrs_of_in nan is_nan nan_nan) in Ha. tauto.
Qed.
Definition dtok : list token := (if ds_batch ds then [ArrayH size] else []) ++ concat (map stok (seq 0 size)).
Definition written : list token :=
  MapH 5 :: Str "version" :: Str "1.0" :: Str "type" :: Str (ms_name (ds_meta ds)) :: Str "is_batch" :: TBool (ds_batch ds) :: Str "attributes" ::
  atok ++ Str "data" :: dtok.
Lemma serialize_ok : serialize is_nan ds compact = Done written.
Proof.
  unfold serialize.
  replace (if compact then bindR (check_attributes is_nan ds) (fun l => Done (Some l)) else Done None) with (Done (if compact then Some amap else None))
    by (rewrite check_attributes_ok; destruct compact; reflexivity).
  cbn [bindR]. rewrite pack_attributes_ok. cbn [bindR].
  replace (if ds_batch ds then pack_array size else Done []) with (Done (if ds_batch ds then [ArrayH (D := D) size] else []))
    by (rewrite pack_array_ok by exact (do_size _ ok); destruct (ds_batch ds); reflexivity).
  cbn [bindR]. rewrite (mapR_done _ stok) by (intros s Hs; apply in_seq in Hs; apply pack_scenario_ok; lia). reflexivity.
Qed.

(** ** the first pass over what was written *)
Lemma read_strings_ok l : forall rest, read_strings (List.length l) (map Str l ++ rest) = Done (l, rest : list token).
Proof.
  induction l as [|x l IH]; intros rest; cbn [List.length read_strings map app]; [reflexivity|]. cbn [parse_string bindR snd fst]. rewrite IH. reflexivity.
Qed.
Definition attr_names (ka : nat * list nat) : string * list string := (mc_name (meta_no (fst ka)), map (nm (meta_no (fst ka))) (snd ka)).
Lemma read_attributes_ok l : forall rest, read_attributes (List.length l) (concat (map atok_of l) ++ rest) = Done (map attr_names l, rest).
Proof.
  induction l as [|ka l IH]; intros rest; cbn [List.length read_attributes map concat]; [reflexivity|]. unfold atok_of at 1. cbn [app parse_string bindR snd fst parse_map_array].
  rewrite <- app_assoc. replace (List.length (snd ka)) with (List.length (map (nm (meta_no (fst ka))) (snd ka))) by apply map_length.
  rewrite read_strings_ok. cbn [bindR snd fst]. rewrite IH. reflexivity.
Qed.
Notation msg_okc cb s x := (msg_ok nan is_nan compact (mcd cb) (cb_data cb) (tot cb) (first_of cb s) (count_of cb s) x).
Definition scen_ok (s : nat) (ms : list (byte_meta (D := D))) : Prop := Forall2 (fun cb x => bm_comp x = mc_name (mcd cb) /\ msg_okc cb s x) (shown s) ms.
Lemma btok_objs cb s : objs 1 (btok cb s) (negb compact && (0 <? count_of cb s)).
Proof.
  unfold btok. apply objs_array.
  pose proof (objs_concat (tok cb) 1 (negb compact) (seq (first_of cb s) (count_of cb s)) (fun j _ => etok_objs nan is_nan compact (mcd cb) (tot cb) (cb_data cb) j)) as H.
  rewrite seq_length, Nat.mul_1_l in H. exact H.
Qed.
Lemma pre_count_components_ok s l : forall rest, exists ms, pre_count_components (List.length l) (concat (map (ctok s) l) ++ rest) = Done (ms, rest) /\
  Forall2 (fun cb x => bm_comp x = mc_name (mcd cb) /\ msg_okc cb s x) l ms.
Proof.
  induction l as [|cb l IH]; intros rest; cbn [List.length pre_count_components map concat].
  - exists []. split; [reflexivity|constructor].
  - unfold ctok at 1. cbn [app parse_string bindR fst snd]. rewrite <- app_assoc. rewrite (skip_one (btok cb s) _ _ (btok_objs cb s)).
    destruct (IH rest) as (ms & E & F). unfold btok at 1. cbn [app parse_map_array bindR fst snd]. rewrite E. cbn [bindR fst snd]. eexists. split; [reflexivity|].
    constructor; [|exact F]. cbn [bm_comp]. split; [reflexivity|]. unfold msg_ok. cbn [bm_size bm_map bm_data]. split; [reflexivity|]. split; [reflexivity|].
    intros _. eexists. unfold btok. cbn [app]. reflexivity.
Qed.
Lemma pre_count_scenarios_ok l : forall rest, exists cs, pre_count_scenarios (List.length l) (concat (map stok l) ++ rest) = Done (cs, rest) /\ Forall2 scen_ok l cs.
Proof.
  induction l as [|s l IH]; intros rest; cbn [List.length pre_count_scenarios map concat].
  - exists []. split; [reflexivity|constructor].
  - rewrite <- app_assoc. unfold pre_count_scenario. unfold stok at 1. cbn [app parse_map_array bindR fst snd].
    destruct (pre_count_components_ok s (shown s) (concat (map stok l) ++ rest)) as (ms & E & F). rewrite E. cbn [bindR fst snd].
    destruct (IH rest) as (cs & E' & F'). rewrite E'. cbn [bindR fst snd]. eexists. split; [reflexivity|]. constructor; assumption.
Qed.
Lemma pre_count_data_ok : exists cs, pre_count_data (Some (ds_batch ds)) dtok = Done (ds_batch ds, cs, []) /\ Forall2 scen_ok (seq 0 size) cs.
Proof.
  destruct (pre_count_scenarios_ok (seq 0 size) []) as (cs & E & F). rewrite app_nil_r, seq_length in E. exists cs. split; [|exact F].
  unfold pre_count_data, dtok. destruct (ds_batch ds) eqn:Eb.
  - cbn [app parse_map_array bindR fst snd negb Bool.eqb]. rewrite E. reflexivity.
  - rewrite (do_single _ ok Eb) in E |- *. cbn [seq map concat app] in E |- *. rewrite app_nil_r in E |- *. unfold stok at 1. cbn [app parse_map_array bindR fst snd negb Bool.eqb].
    change (MapH (List.length (shown 0)) :: concat (map (ctok 0) (shown 0))) with (stok 0). rewrite E. reflexivity.
Qed.
Lemma parse_root_ok : exists cs, parse_root 5 (mkRoot None None false false None None) (tl written) =
    Done (mkRoot (Some "1.0"%string) (Some (ms_name (ds_meta ds))) (ds_batch ds) true (Some (map attr_names alist)) (Some cs), []) /\ Forall2 scen_ok (seq 0 size) cs.
Proof.
  destruct pre_count_data_ok as (cs & E & F). exists cs. split; [|exact F]. unfold written. cbn [tl].
  cbn [parse_root parse_string parse_bool bindR String.eqb Ascii.eqb Bool.eqb fst snd ro_version ro_type ro_is_batch ro_has_is_batch ro_attributes ro_data].
  unfold atok. cbn [app parse_map_array bindR fst snd]. rewrite read_attributes_ok. cbn [bindR fst snd parse_string String.eqb Ascii.eqb Bool.eqb ro_version ro_type ro_is_batch ro_has_is_batch ro_attributes ro_data].
  rewrite E. reflexivity.
Qed.

(** ** what the first pass tells *)
Definition info_ok (cb : comp_buffer) (i : comp_info (D := D)) : Prop :=
  ci_comp i = cb_comp cb /\ Forall2 (fun s x => msg_okc cb s x) (seq 0 size) (ci_msg i) /\
  (forall e, ci_eps i = Some e <-> forall s, s < size -> count_of cb s = e) /\ ci_total i = tot cb /\ ci_indicated i = compact.
Lemma name_inj cb cb' : In cb (ds_comps ds) -> In cb' (ds_comps ds) -> mc_name (mcd cb) = mc_name (mcd cb') -> cb_comp cb = cb_comp cb'.
Proof.
  intros H H' E. destruct (buffer_facts cb H) as (Hm & _). destruct (buffer_facts cb' H') as (Hm' & _).
  pose proof (comp_index_ok _ _ _ (mo_names _ (do_meta _ ok)) Hm) as X. pose proof (comp_index_ok _ _ _ (mo_names _ (do_meta _ ok)) Hm') as X'. rewrite E in X. congruence.
Qed.
Lemma comp_inj cb cb' : In cb (ds_comps ds) -> In cb' (ds_comps ds) -> cb_comp cb = cb_comp cb' -> cb = cb'.
Proof.
  intros H H' E. pose proof (find_nodup cb_comp _ cb (do_once _ ok) H) as X. pose proof (find_nodup cb_comp _ cb' (do_once _ ok) H') as X'. rewrite E in X. congruence.
Qed.
Lemma scenario_meta_ok cb s ms : In cb (ds_comps ds) -> scen_ok s ms -> msg_okc cb s (scenario_meta (mc_name (mcd cb)) ms).
Proof.
  intros H F. unfold scenario_meta. destruct (find (fun x => String.eqb (bm_comp x) (mc_name (mcd cb))) ms) as [x|] eqn:E.
  - apply find_some in E. destruct E as (Hx & En). apply String.eqb_eq in En. apply In_nth_error in Hx. destruct Hx as (k & Hk).
    destruct (forall2_nth_r _ _ _ _ _ F Hk) as (cb' & Hk' & Hn & Hmsg). apply nth_error_In in Hk'. apply shown_in in Hk'. destruct Hk' as (H' & _).
    replace cb with cb'; [exact Hmsg|]. apply comp_inj; [exact H'|exact H|]. apply name_inj; [exact H'|exact H|]. congruence.
  - destruct (Nat.eq_dec (count_of cb s) 0) as [E0|E0].
    + unfold msg_ok. cbn [bm_size bm_map bm_data]. rewrite E0. rewrite andb_false_r. split; [reflexivity|]. split; [reflexivity|lia].
    + exfalso. assert (Hs : In cb (shown s)) by (apply shown_in; split; [exact H|lia]). apply In_nth_error in Hs. destruct Hs as (k & Hk).
      assert (X : exists x, nth_error ms k = Some x /\ bm_comp x = mc_name (mcd cb)).
      { clear -F Hk. unfold scen_ok in F. revert k Hk. induction F as [|a b l l' Hab F IH]; intros [|k] Hk; cbn in *; try discriminate; [|apply IH; exact Hk].
        injection Hk as ->. exists b. tauto. }
      destruct X as (x & Hx & Ex). apply nth_error_In in Hx. pose proof (find_none _ _ E x Hx) as C. cbn beta in C. rewrite Ex, String.eqb_refl in C. discriminate.
Qed.
Lemma adjacent_all l e : (forall x, In x l -> x = e) -> adjacent_equal l = true.
Proof.
  induction l as [|x l IH]; intros H; [reflexivity|]. cbn [adjacent_equal]. destruct l as [|y l]; [reflexivity|].
  assert (E : x = y) by (transitivity e; [|symmetry]; apply H; cbn; auto). subst x. rewrite Nat.eqb_refl. apply IH. intros z Hz. apply H. right. exact Hz.
Qed.
Lemma adjacent_hd l x : adjacent_equal (x :: l) = true -> forall y, In y (x :: l) -> y = x.
Proof.
  revert x. induction l as [|z l IH]; intros x H y Hy; [destruct Hy as [<-|[]]; reflexivity|].
  cbn [adjacent_equal] in H. apply andb_prop in H. destruct H as (E & H). apply Nat.eqb_eq in E. subst z. destruct Hy as [<-|Hy]; [reflexivity|]. apply IH; assumption.
Qed.
Lemma sum_counts cb n : In cb (ds_comps ds) -> n <= size -> list_sum (map (count_of cb) (seq 0 n)) = first_of cb n.
Proof.
  intros H. induction n as [|n IH]; intros Hn; [rewrite first_0 by exact H; reflexivity|].
  rewrite seq_S, map_app, list_sum_app. cbn [Nat.add map list_sum fold_right]. rewrite IH by lia. rewrite first_step by (try exact H; lia). lia.
Qed.
Lemma count_component_ok cb cs : In cb used -> Forall2 scen_ok (seq 0 size) cs -> exists i, count_component (ds_meta ds) size cs (cb_comp cb) = Done i /\ info_ok cb i.
Proof.
  intros Hu F. apply filter_In in Hu. destruct Hu as (H & Hp). apply Nat.ltb_lt in Hp.
  destruct (buffer_facts cb H) as (Hm & Ht & _). unfold count_component. rewrite Hm. cbn [getR bindR]. cbv zeta.
  set (msg := map (scenario_meta (mc_name (mcd cb))) cs).
  assert (FM : Forall2 (fun s x => msg_okc cb s x) (seq 0 size) msg).
  { unfold msg. clear -F H ok nan_nan of_int. revert F. generalize (seq 0 size). induction cs as [|c cs IH]; intros l F; inversion F; subst; cbn [map]; constructor.
    - apply scenario_meta_ok; assumption.
    - apply IH; assumption. }
  assert (EC : map bm_size msg = map (count_of cb) (seq 0 size)).
  { clear -FM. induction FM as [|s x l l' M FM IH]; [reflexivity|]. cbn [map]. rewrite IH. destruct M as (-> & _). reflexivity. }
  rewrite EC. assert (LC : List.length cs = size) by (rewrite <- (forall2_len _ _ _ F), seq_length; reflexivity).
  assert (Hpos : 0 < size). { apply count_tot in Hp; [|exact H]. destruct Hp as (s & Hs & _). lia. }
  assert (HM : existsb bm_map msg = negb compact).
  { apply count_tot in Hp; [|exact H]. destruct Hp as (s & Hs & Hc). destruct compact; cbn [negb].
    - apply not_true_is_false. intros C. apply existsb_exists in C. destruct C as (x & Hx & Ex). apply In_nth_error in Hx. destruct Hx as (k & Hk).
      destruct (forall2_nth_r _ _ _ _ _ FM Hk) as (s' & _ & (_ & M & _)). cbn in M. congruence.
    - apply existsb_exists. assert (L : s < List.length msg) by (rewrite <- (forall2_len _ _ _ FM), seq_length; exact Hs).
      destruct (nth_error msg s) as [x|] eqn:Ex; [|apply nth_error_None in Ex; lia]. exists x. split; [eapply nth_error_In; exact Ex|].
      destruct (forall2_nth_r _ _ _ _ _ FM Ex) as (s' & Es & (_ & M & _)). apply nth_seq in Es. destruct Es as (-> & _). cbn [Nat.add] in M. rewrite M. cbn [negb andb]. apply Nat.ltb_lt. exact Hc. }
  assert (EI : forall s, s < size -> In (count_of cb s) (map (count_of cb) (seq 0 size))) by (intros s Hs; apply in_map, in_seq; lia).
  assert (EH : exists tl_, map (count_of cb) (seq 0 size) = count_of cb 0 :: tl_) by (destruct size; [lia|cbn [seq map]; eauto]).
  destruct EH as (tl_ & EH).
  assert (ES : forall s, size < 2 -> s < size -> count_of cb s = count_of cb 0) by (intros s L Hs; replace s with 0 by lia; reflexivity).
  unfold uniform_elements. destruct (negb ((size <? 2) || adjacent_equal (map (count_of cb) (seq 0 size)))) eqn:EU.
  - cbn [bindR]. eexists. split; [reflexivity|]. unfold info_ok. cbn [ci_comp ci_msg ci_eps ci_total ci_indicated].
    split; [reflexivity|]. split; [exact FM|]. split; [|split].
    + intros e. split; [discriminate|]. intros X. apply negb_true_iff, orb_false_elim in EU. destruct EU as (_ & EU).
      rewrite (adjacent_all _ e) in EU; [discriminate|]. intros x Hx. apply in_map_iff in Hx. destruct Hx as (s & <- & Hs). apply in_seq in Hs. apply X. lia.
    + change (list_sum (map (count_of cb) (seq 0 size)) = tot cb). apply sum_counts; [exact H|lia].
    + rewrite HM. destruct compact; reflexivity.
  - replace (size =? 0) with false by lia. rewrite EH. cbn [bindR]. eexists. split; [reflexivity|]. unfold info_ok. cbn [ci_comp ci_msg ci_eps ci_total ci_indicated].
    assert (EA : forall s, s < size -> count_of cb s = count_of cb 0).
    { intros s Hs. apply negb_false_iff in EU. apply orb_prop in EU. destruct EU as [EU|EU]; [apply ES; [apply Nat.ltb_lt; exact EU|exact Hs]|].
      rewrite EH in EU. apply (adjacent_hd _ _ EU). rewrite <- EH. apply EI. exact Hs. }
    split; [reflexivity|]. split; [exact FM|]. split; [|split].
    + intros e. split; [intros X s Hs; injection X as <-; apply EA; exact Hs|]. intros X. f_equal. apply X. lia.
    + rewrite LC. unfold tot. rewrite <- (sum_counts cb size H (le_n _)).
      assert (X : forall n, n <= size -> list_sum (map (count_of cb) (seq 0 n)) = count_of cb 0 * n).
      { induction n as [|n IH]; intros Hn; [cbn; lia|]. rewrite seq_S, map_app, list_sum_app. cbn [Nat.add map list_sum fold_right]. rewrite IH by lia. rewrite (EA n) by lia. lia. }
      rewrite X by lia. reflexivity.
    + rewrite HM. destruct compact; reflexivity.
Qed.
Definition used_sorted : list nat := filter (fun k => existsb (fun cb => cb_comp cb =? k) used) (seq 0 (List.length (ms_comps (ds_meta ds)))).
Definition info_for (k : nat) (i : comp_info (D := D)) : Prop := exists cb, In cb used /\ cb_comp cb = k /\ info_ok cb i.
Lemma count_data_ok cs : Forall2 scen_ok (seq 0 size) cs -> exists infos, count_data (ds_meta ds) size cs = Done infos /\ Forall2 info_for used_sorted infos.
Proof.
  intros F. unfold count_data.
  assert (X : exists ks, mapR (fun s => mapR (fun x => findR (comp_index (ds_meta ds) (bm_comp x))) s) cs = Done ks /\
      Forall2 (fun ms k => k = map cb_comp (shown ms)) (seq 0 size) ks).
  { assert (X1 : forall l ms, (forall cb, In cb l -> In cb (ds_comps ds)) -> Forall2 (fun cb x => bm_comp x = mc_name (mcd cb)) l ms ->
      mapR (fun x : byte_meta (D := D) => findR (comp_index (ds_meta ds) (bm_comp x))) ms = Done (map cb_comp l)).
    { clear cs F. intros l ms HL F. induction F as [|cb x l ms E F IH]; [reflexivity|]. cbn [mapR map]. rewrite E.
      destruct (buffer_facts cb (HL cb (or_introl eq_refl))) as (Hm & _). rewrite (comp_index_ok _ _ _ (mo_names _ (do_meta _ ok)) Hm). cbn [findR bindR].
      rewrite IH by (intros c Hc; apply HL; right; exact Hc). reflexivity. }
    revert F. generalize (seq 0 size). induction cs as [|c cs IH]; intros l F; inversion F as [|s ? l0 ? Hs F']; subst.
    - exists []. split; [reflexivity|constructor].
    - destruct (IH l0 F') as (ks & E & FK). cbn [mapR]. rewrite (X1 (shown s)).
      + cbn [bindR]. rewrite E. exists (map cb_comp (shown s) :: ks). split; [reflexivity|constructor; [reflexivity|exact FK]].
      + intros cb Hc. apply shown_in in Hc. tauto.
      + eapply forall2_imp; [|exact Hs]. intros cb x _ (E' & _). exact E'. }
  destruct X as (ks & E & FK). rewrite E. cbn [bindR].
  assert (EF : filter (fun k => existsb (Nat.eqb k) (concat ks)) (seq 0 (List.length (ms_comps (ds_meta ds)))) = used_sorted).
  { apply filter_ext. intros k. apply Bool.eq_true_iff_eq. rewrite !existsb_exists. split.
    - intros (k' & Hk & Ek). apply Nat.eqb_eq in Ek. subst k'. apply in_concat in Hk. destruct Hk as (l & Hl & Hk). apply In_nth_error in Hl. destruct Hl as (n & Hn).
      destruct (forall2_nth_r _ _ _ _ _ FK Hn) as (s & Hs & ->). apply nth_seq in Hs. apply in_map_iff in Hk. destruct Hk as (cb & <- & Hc).
      exists cb. split; [apply (shown_used s); [lia|exact Hc]|apply Nat.eqb_refl].
    - intros (cb & Hu & Ek). apply Nat.eqb_eq in Ek. subst k. apply filter_In in Hu. destruct Hu as (H & Hp). apply Nat.ltb_lt in Hp. apply count_tot in Hp; [|exact H].
      destruct Hp as (s & Hs & Hc). exists (cb_comp cb). split; [|apply Nat.eqb_refl]. apply in_concat. exists (map cb_comp (shown s)). split.
      + assert (L : s < List.length ks) by (rewrite <- (forall2_len _ _ _ FK), seq_length; exact Hs). destruct (nth_error ks s) as [x|] eqn:Ex; [|apply nth_error_None in Ex; lia].
        destruct (forall2_nth_r _ _ _ _ _ FK Ex) as (s' & Es & Ex'). apply nth_seq in Es. destruct Es as (-> & _). cbn [Nat.add] in Ex'. subst x. eapply nth_error_In; exact Ex.
      + apply in_map. apply shown_in. auto. }
  rewrite EF. apply mapR_forall2. intros k Hk. unfold used_sorted in Hk. apply filter_In in Hk. destruct Hk as (_ & Hk). apply existsb_exists in Hk.
  destruct Hk as (cb & Hu & Ek). apply Nat.eqb_eq in Ek. subst k. destruct (count_component_ok cb cs Hu F) as (i & Ei & Oi). exists i. split; [exact Ei|]. exists cb. auto.
Qed.
(** *** the predefined attributes *)
Lemma used_meta cb : In cb used -> nth_error (ms_comps (ds_meta ds)) (cb_comp cb) = Some (mcd cb) /\ meta_no (cb_comp cb) = mcd cb /\ In cb (ds_comps ds).
Proof. intros H. apply filter_In in H. destruct H as (H & _). destruct (buffer_facts cb H) as (Hm & _). split; [exact Hm|]. split; [reflexivity|exact H]. Qed.
Lemma predefined_ok l : forall (infos : list (comp_info (D := D))) am, (forall k x, In (k, x) l -> exists cb, In cb used /\ k = cb_comp cb /\ x = own_attrs cb /\ In k (map ci_comp infos)) -> NoDup (map fst l) ->
  exists infos' am', foldR (predefined (ds_meta ds)) (map attr_names l) (infos, am) = Done (infos', am') /\
    Forall2 (fun i i' => ci_comp i' = ci_comp i /\ ci_eps i' = ci_eps i /\ ci_total i' = ci_total i /\ ci_msg i' = ci_msg i /\ ci_indicated i' = ci_indicated i /\
      (ci_indicated i = true -> ci_attributes i' = match map_find (ci_comp i) l with Some x => x | None => ci_attributes i end)) infos infos' /\
    forall k, map_find k am' = match map_find k l with Some x => Some x | None => map_find k am end.
Proof.
  induction l as [|(k, x) l IH]; intros infos am H N; cbn [map foldR].
  - exists infos, am. split; [reflexivity|]. split; [|intros; reflexivity]. clear. induction infos as [|i l IH]; constructor; [auto 10|exact IH].
  - destruct (H k x (or_introl eq_refl)) as (cb & Hu & -> & -> & Hi). destruct (used_meta cb Hu) as (Hm & Em & Hcb).
    assert (Hmc : In (mcd cb) (ms_comps (ds_meta ds))) by (eapply nth_error_In; exact Hm). destruct (mo_attrs _ (do_meta _ ok) _ Hmc) as (Na & _).
    unfold predefined at 1. cbn [attr_names fst snd]. rewrite Em. rewrite (comp_index_ok _ _ _ (mo_names _ (do_meta _ ok)) Hm). cbn [findR bindR]. rewrite Hm. cbn [getR bindR].
    assert (EA : mapR (fun name => findR (attr_index (mcd cb) name)) (map (nm (mcd cb)) (own_attrs cb)) = Done (own_attrs cb)).
    { assert (X : forall l', (forall a, In a l' -> a < List.length (mc_attrs (mcd cb))) -> mapR (fun name => findR (attr_index (mcd cb) name)) (map (nm (mcd cb)) l') = Done l').
      { induction l' as [|a l' IHl]; intros B; [reflexivity|]. cbn [map mapR]. rewrite attr_nm by (try exact Na; apply B; left; reflexivity). cbn [findR bindR].
        rewrite IHl by (intros y Hy; apply B; right; exact Hy). reflexivity. }
      apply X. intros a Ha. apply (attrs_of_in nan is_nan nan_nan) in Ha. tauto. }
    rewrite EA. cbn [bindR fst snd].
    assert (EX : existsb (fun i : comp_info => ci_comp i =? cb_comp cb) infos = true).
    { apply in_map_iff in Hi. destruct Hi as (i & Ei & Hi). apply existsb_exists. exists i. split; [exact Hi|]. apply Nat.eqb_eq. exact Ei. }
    rewrite EX. cbn [bindR]. cbn [map] in N. inversion N as [|? ? Hk N']; subst.
    destruct (IH (map (set_indications (cb_comp cb) (own_attrs cb)) infos) (map_insert (cb_comp cb) (own_attrs cb) am)) as (infos' & am' & E & F & M).
    + intros k x Hk'. destruct (H k x (or_intror Hk')) as (cb' & Hu' & -> & -> & Hi'). exists cb'. repeat (split; [try assumption; reflexivity|]).
      rewrite map_map. erewrite map_ext; [exact Hi'|]. intros i. unfold set_indications. destruct (ci_comp i =? cb_comp cb), (ci_indicated i); reflexivity.
    + exact N'.
    + exists infos', am'. split; [exact E|]. split.
      * apply forall2_map_l in F. eapply forall2_imp; [|exact F]. intros i i' _ (E1 & E2 & E3 & E4 & E5 & E6). unfold set_indications in *.
        unfold map_find in *. cbn [find fst]. rewrite (Nat.eqb_sym (cb_comp cb) (ci_comp i)).
        destruct (Nat.eqb_spec (ci_comp i) (cb_comp cb)) as [Ec|Ec]; [destruct (ci_indicated i) eqn:Ei|]; cbn [ci_comp ci_eps ci_total ci_msg ci_indicated ci_attributes] in *;
          (split; [assumption|]; split; [assumption|]; split; [assumption|]; split; [assumption|]; split; [congruence|]).
        -- intros _. rewrite E6 by reflexivity. cbn [option_map snd].
           destruct (find (fun x => fst x =? ci_comp i) l) as [(k', x')|] eqn:Ef; [|reflexivity].
           exfalso. apply find_some in Ef. destruct Ef as (Hin & Ek). apply Nat.eqb_eq in Ek. cbn in Ek. subst k'. apply Hk. rewrite <- Ec. apply (in_map fst) in Hin. exact Hin.
        -- intros C. congruence.
        -- intros Hc. apply E6. exact Hc.
      * intros k. rewrite M, map_find_insert. unfold map_find at 3. cbn [find fst]. rewrite (Nat.eqb_sym (cb_comp cb) k). destruct (Nat.eqb_spec k (cb_comp cb)) as [->|Ek].
        -- cbn [option_map snd]. destruct (map_find (cb_comp cb) l) as [y|] eqn:Ef; [|reflexivity].
           exfalso. apply map_find_in in Ef; [|exact N']. apply Hk. apply (in_map fst) in Ef. exact Ef.
        -- reflexivity.
Qed.

(** *** the second pass, component by component *)
Lemma nth_error_running cb n : forall s k, In cb (ds_comps ds) -> s + n <= size -> k < n ->
  nth_error (running (first_of cb s) (map (count_of cb) (seq s n))) k = Some (first_of cb (S (s + k))).
Proof.
  induction n as [|n IH]; intros s k H Hn Hk; [lia|]. cbn [seq map running]. rewrite <- first_step by (try exact H; lia).
  destruct k as [|k]; cbn [nth_error]; [rewrite Nat.add_0_r; reflexivity|]. rewrite IH by (try exact H; lia). replace (S s + k) with (s + S k) by lia. reflexivity.
Qed.
Lemma given_not_no t : given t -> t <> No_buffer.
Proof. destruct t; cbn; [contradiction|discriminate|discriminate]. Qed.
Lemma parse_component_ok p cb i t : pa_meta p = ds_meta ds -> pa_size p = size -> In cb used -> info_ok cb i ->
  map_find (cb_comp cb) (pa_attributes p) = (if compact then Some (own_attrs cb) else None) -> target_ok (mcd cb) t -> given t ->
  exists cb', parse_component nan of_int p i t = Done [cb'] /\ cb_comp cb' = cb_comp cb /\
    (forall s, s < size -> first_of cb' s = first_of cb s /\ count_of cb' s = count_of cb s) /\
    (forall j a v, stored (cb_data cb') j a = Some v -> target_has (mcd cb) t a) /\
    forall j a, j < tot cb -> target_has (mcd cb) t a -> stored (cb_data cb') j a = Some (norm nan is_nan (content (mcd cb) (cb_data cb) j a)).
Proof.
  intros Pm Ps Hu (Ic & Im & Ie & It & Ii) Ma To Tg. destruct (used_meta cb Hu) as (Hm & _ & H).
  destruct (buffer_facts cb H) as (_ & Ht & _). assert (Hmc : In (mcd cb) (ms_comps (ds_meta ds))) by (eapply nth_error_In; exact Hm). destruct (mo_attrs _ (do_meta _ ok) _ Hmc) as (Na & _).
  assert (EC : map bm_size (ci_msg i) = map (count_of cb) (seq 0 size)).
  { clear -Im. induction Im as [|s x l l' M FM IH]; [reflexivity|]. cbn [map]. rewrite IH. destruct M as (-> & _). reflexivity. }
  assert (LM : List.length (ci_msg i) = size) by (rewrite <- (forall2_len _ _ _ Im), seq_length; reflexivity).
  set (attrs := if compact then own_attrs cb else []).
  assert (EAt : match map_find (cb_comp cb) (pa_attributes p) with Some l => l | None => [] end = attrs) by (rewrite Ma; unfold attrs; destruct compact; reflexivity).
  destruct (blank_ok nan is_nan nan_nan compact (mcd cb) (cb_data cb) (tot cb) t To (given_not_no t Tg)) as (b & Eb & Hb & Pb).
  set (indptr := match ci_eps i with None => 0 :: running 0 (map bm_size (ci_msg i)) | Some _ => [] end).
  set (G := fun s => match ci_eps i with None => getR (nth_error indptr s) | Some e => Done (s * e) end).
  assert (EG : forall s, s <= size -> ci_eps i = None -> nth_error indptr s = Some (first_of cb s)).
  { intros s Hs En. unfold indptr. rewrite En. destruct s as [|s]; cbn [nth_error]; [rewrite first_0 by exact H; reflexivity|]. rewrite EC.
    rewrite <- (first_0 cb H) at 1. rewrite nth_error_running by (try exact H; lia). reflexivity. }
  assert (EE : forall e s, ci_eps i = Some e -> s <= size -> first_of cb s = s * e).
  { intros e s En. pose proof (proj1 (Ie e) En) as X. induction s as [|s IH]; intros Hs; [apply first_0; exact H|]. rewrite first_step by (try exact H; lia). rewrite IH, X by lia. lia. }
  assert (GG : forall s, s <= size -> G s = Done (first_of cb s)).
  { intros s Hs. unfold G. destruct (ci_eps i) as [e|] eqn:En; [rewrite (EE e s eq_refl Hs); reflexivity|]. rewrite (EG s Hs eq_refl). reflexivity. }
  assert (Par : exists b', (if ci_indicated i && no_overlap b attrs then Done b
        else foldR (fun b sx => bindR (G (fst sx)) (fun fst_ => parse_scenario of_int (mcd cb) attrs fst_ (snd sx) b)) (combine (seq 0 (pa_size p)) (ci_msg i)) b) = Done b' /\
      (forall a, held (mcd cb) b' a <-> held (mcd cb) b a) /\
      partly nan (mcd cb) (tot cb) (fun j a => norm nan is_nan (content (mcd cb) (cb_data cb) j a)) (fun j _ => j <? tot cb) b').
  { destruct (ci_indicated i && no_overlap b attrs) eqn:Es.
    - exists b. split; [reflexivity|]. split; [tauto|]. apply andb_prop in Es. destruct Es as (E1 & E2). rewrite Ii in E1.
      eapply (skip_all nan is_nan nan_nan compact); [exact Ht|exact E1| |exact Pb]. exact E2.
    - replace (pa_size p) with (List.length (ci_msg i)) by congruence. destruct (parse_scenarios_ok nan is_nan of_int nan_nan compact (mcd cb) (cb_data cb) (tot cb) Ht Na (first_of cb) G (ci_msg i) 0 b) as (b' & E' & H' & _ & P').
      + intros k x Hk. cbn [Nat.add]. destruct (forall2_nth_r _ _ _ _ _ Im Hk) as (s & Hs & M). apply nth_seq in Hs. destruct Hs as (-> & Hs). cbn [Nat.add] in M.
        rewrite first_step by assumption. replace (first_of cb k + count_of cb k - first_of cb k) with (count_of cb k) by lia.
        split; [exact M|]. split; [lia|]. split; [rewrite <- first_step by assumption; apply first_tot; [exact H|lia]|apply GG; lia].
      + eapply partly_ext; [|exact Pb]. intros j a _ _. rewrite first_0 by exact H. reflexivity.
      + exists b'. split; [exact E'|]. split; [exact H'|]. eapply partly_ext; [|exact P']. intros j a _ _. cbn [Nat.add]. rewrite LM. reflexivity. }
  destruct Par as (b' & Ep & Hh & Pp).
  exists (mkBuf (ci_comp i) (ci_eps i) indptr b'). split.
  - unfold parse_component. rewrite Pm, Ic, Hm, It. cbn [getR bindR]. rewrite Eb. cbn [bindR]. cbv zeta. rewrite EAt. fold indptr.
    change (bindR (if ci_indicated i && no_overlap b attrs then Done b
        else foldR (fun b sx => bindR (G (fst sx)) (fun fst_ => parse_scenario of_int (mcd cb) attrs fst_ (snd sx) b)) (combine (seq 0 (pa_size p)) (ci_msg i)) b)
        (fun b'0 => Done [mkBuf (cb_comp cb) (ci_eps i) indptr b'0])) with (bindR (if ci_indicated i && no_overlap b attrs then Done b
        else foldR (fun b sx => bindR (G (fst sx)) (fun fst_ => parse_scenario of_int (mcd cb) attrs fst_ (snd sx) b)) (combine (seq 0 (pa_size p)) (ci_msg i)) b)
        (fun b'0 => Done [mkBuf (cb_comp cb) (ci_eps i) indptr b'0])).
    assert (X : forall r : res (list comp_buffer), match t with No_buffer | Col_buffer [] => Done [] | _ => r end = r) by (intros r; destruct t as [| |[|]]; cbn in Tg; [contradiction|reflexivity|contradiction|reflexivity]).
    etransitivity; [|exact (X _)]. destruct t as [| |[|]]; cbn in Tg; try contradiction; unfold G in Ep; rewrite Ep; reflexivity.
  - cbn [cb_comp cb_eps cb_indptr cb_data]. split; [exact Ic|]. split.
    + intros s Hs.
      change (match ci_eps i with Some e => s * e | None => nth s indptr 0 end = first_of cb s /\
              match ci_eps i with Some e => e | None => nth (S s) indptr 0 - nth s indptr 0 end = count_of cb s).
      destruct (ci_eps i) as [e|] eqn:En.
      * split; [symmetry; apply EE; [reflexivity|lia]|]. symmetry. apply (proj1 (Ie e) eq_refl). exact Hs.
      * rewrite !(nth_ok _ _ _ _ (EG s ltac:(lia) eq_refl)), (nth_ok _ _ _ _ (EG (S s) ltac:(lia) eq_refl)). split; [reflexivity|]. rewrite first_step by assumption. lia.
    + split; [intros j a v Hv; apply Hb, Hh; exact (stored_means_held _ _ _ _ _ _ (proj1 Pp) Hv)|].
      intros j a Hj Ha. destruct Pp as (_ & Pp). rewrite Pp; [|exact Hj|apply Hh, Hb; exact Ha]. replace (j <? tot cb) with true by lia. reflexivity.
Qed.
End Whole.
