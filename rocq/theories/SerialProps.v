(** C37: deserialising what was serialised gives back the same dataset (msgpack; JSON is in JsonProps.v). *)
From Coq Require Import String.
From Verif Require Import Common Serial SerialSpec SerialFacts SerialTrip SerialWhole SerialRound.
Local Open Scope nat_scope.

(** Every dataset, in the compact and in the verbose form: writing succeeds; the reader is told the right type, batch size, components,
    element counts and attributes; and whatever buffers the user then gives are filled with the values of the dataset. *)
Theorem C37_msgpack : forall (D : Type) (nan : D) (is_nan : D -> bool) (of_int : Z -> D) (metas : list meta_set) (ds : dataset D) (compact : bool),
  is_nan nan = true -> dataset_ok ds -> find (fun m => String.eqb (ms_name m) (ms_name (ds_meta ds))) metas = Some (ds_meta ds) ->
  exists ts p, serialize is_nan ds compact = Done ts /\ pre_parse metas (fun n => n) ts = Done p /\ described is_nan ds compact p /\
  forall targets, (forall c mc, nth_error (ms_comps (ds_meta ds)) c = Some mc -> target_ok mc (targets c)) ->
  exists ds', parse nan of_int p targets = Done ds' /\ read_back nan is_nan ds targets ds'.
Proof. intros D nan is_nan of_int metas ds compact Hn Ho Hk. apply round_trip; assumption. Qed.

(** With row based buffers for all components nothing is lost. *)
Theorem C37_msgpack_rows : forall (D : Type) (nan : D) (is_nan : D -> bool) (of_int : Z -> D) (metas : list meta_set) (ds : dataset D) (compact : bool),
  is_nan nan = true -> dataset_ok ds -> find (fun m => String.eqb (ms_name m) (ms_name (ds_meta ds))) metas = Some (ds_meta ds) ->
  exists ts p ds', serialize is_nan ds compact = Done ts /\ pre_parse metas (fun n => n) ts = Done p /\ parse nan of_int p (fun _ => Row_buffer) = Done ds' /\
    ds_meta ds' = ds_meta ds /\ ds_batch ds' = ds_batch ds /\ ds_size ds' = ds_size ds /\
    (forall s c, s < ds_size ds -> elements ds' s c = elements ds s c) /\
    forall s c i a mc x, s < ds_size ds -> i < elements ds s c -> nth_error (ms_comps (ds_meta ds)) c = Some mc -> nth_error (mc_attrs mc) a = Some x ->
      same_datum nan is_nan (ma_type x) (datum ds s c i a) (datum ds' s c i a).
Proof.
  intros D nan is_nan of_int metas ds compact Hn Ho Hk. destruct (C37_msgpack D nan is_nan of_int metas ds compact Hn Ho Hk) as (ts & p & E1 & E2 & _ & H).
  destruct (H (fun _ => Row_buffer)) as (ds' & E3 & [R1 R2 R3 R4 R5]); [intros; exact I|]. exists ts, p, ds'. repeat (split; [assumption|]). split.
  - intros s c Hs. apply R4; [exact Hs|exact I].
  - intros s c i a mc x Hs Hi Hm Hx. apply (R5 s c i a mc x Hs Hi Hm Hx). cbn. apply nth_error_Some. congruence.
Qed.

(** With columns for exactly the attributes that the compact form indicates nothing is lost either: the others are not available everywhere. *)
Theorem C37_msgpack_indicated : forall (D : Type) (nan : D) (is_nan : D -> bool) (of_int : Z -> D) (metas : list meta_set) (ds : dataset D),
  is_nan nan = true -> dataset_ok ds -> find (fun m => String.eqb (ms_name m) (ms_name (ds_meta ds))) metas = Some (ds_meta ds) ->
  exists ts p, serialize is_nan ds true = Done ts /\ pre_parse metas (fun n => n) ts = Done p /\
  forall targets, (forall i, In i (pa_infos p) -> targets (ci_comp i) = Col_buffer (ci_attributes i)) -> (forall c, ~ In c (map ci_comp (pa_infos p)) -> targets c = No_buffer) ->
  exists ds', parse nan of_int p targets = Done ds' /\
    forall s c i a mc x, s < ds_size ds -> i < elements ds s c -> nth_error (ms_comps (ds_meta ds)) c = Some mc -> nth_error (mc_attrs mc) a = Some x ->
      match datum ds s c i a, datum ds' s c i a with
      | Some v, Some w => same_value is_nan v w
      | Some v, None => is_na is_nan (ma_type x) v = true
      | None, Some _ => False
      | None, None => True
      end.
Proof.
  intros D nan is_nan of_int metas ds Hn Ho Hk. destruct (C37_msgpack D nan is_nan of_int metas ds true Hn Ho Hk) as (ts & p & E1 & E2 & DE & H). exists ts, p.
  split; [exact E1|]. split; [exact E2|]. intros targets T1 T2.
  destruct (H targets) as (ds' & E3 & RB).
  - intros c mc Hm. destruct (in_dec Nat.eq_dec c (map ci_comp (pa_infos p))) as [Hin|Hin].
    + apply in_map_iff in Hin. destruct Hin as (i & <- & Hi). rewrite (T1 i Hi). destruct (de_attributes _ _ _ _ DE i mc Hi Hm eq_refl) as (N & X). split; [exact N|].
      intros a Ha. apply X in Ha. destruct Ha as (x & _ & _ & _ & Hx & _). apply nth_error_Some. congruence.
    + rewrite (T2 c Hin). exact I.
  - exists ds'. split; [exact E3|]. intros s c i a mc x Hs Hi Hm Hx.
    assert (Hc : In c (map ci_comp (pa_infos p))) by (apply (de_comps _ _ _ _ DE); exists s; split; [exact Hs|lia]).
    apply in_map_iff in Hc. destruct Hc as (ci & <- & Hci). destruct (de_attributes _ _ _ _ DE ci mc Hci Hm eq_refl) as (_ & X).
    pose proof (rb_only _ _ _ _ _ RB s (ci_comp ci) i a mc) as RO. rewrite (T1 ci Hci) in RO. cbn [target_has] in RO.
    destruct (in_dec Nat.eq_dec a (ci_attributes ci)) as [Ha|Ha].
    + destruct (rb_datum _ _ _ _ _ RB s (ci_comp ci) i a mc x Hs Hi Hm Hx) as (R1 & R2); [rewrite (T1 ci Hci); exact Ha|].
      unfold same_datum in R2. destruct (datum ds' s (ci_comp ci) i a) as [w|]; [|congruence]. destruct (datum ds s (ci_comp ci) i a) as [v|] eqn:Ev; [exact R2|].
      (* an indicated attribute has a place in the dataset *)
      apply X in Ha. destruct Ha as (x' & s' & k' & v' & Hx' & Hs' & Hd' & _). unfold datum in Hd', Ev. unfold elements in Hi.
      destruct (buffer_of ds (ci_comp ci)) as [cb|] eqn:Eb; [|discriminate]. apply find_some in Eb. destruct Eb as (Hcb & _).
      destruct (k' <? count_of cb s') eqn:Ek; [|discriminate]. replace (i <? count_of cb s) with true in Ev by lia.
      destruct (buffer_facts nan is_nan Hn ds Ho cb Hcb) as (_ & Ht & _). apply typed_shaped in Ht. pose proof (stored_means_held _ _ _ _ _ _ Ht Hd') as Hh.
      destruct (stored_held _ _ _ (first_of cb s + i) a Ht) as (v & Hv); [eapply (pos_in nan is_nan of_int Hn); [exact Ho|exact Hcb|exact Hs|exact Hi]|exact Hh|]. congruence.
    + destruct (datum ds' s (ci_comp ci) i a) as [w|]; [exfalso; apply Ha; apply (RO w Hm eq_refl)|].
      destruct (datum ds s (ci_comp ci) i a) as [v|] eqn:Ev; [|exact I]. apply not_false_is_true. intros C. apply Ha. apply X. exists x, s, i, v. auto.
Qed.

(** ** a dataset for which all hypotheses hold: two scenarios, nodes by row with a changing number, loads by column *)
Definition odd_double : Type := option Z.
Definition no_double (d : odd_double) : bool := match d with None => true | Some _ => false end.
Definition node_meta : meta_comp := mkComp "node" [mkAttr "id" A_id; mkAttr "u_rated" A_double].
Definition load_meta : meta_comp := mkComp "asym_load" [mkAttr "id" A_id; mkAttr "status" A_int8; mkAttr "p_specified" A_double3; mkAttr "q_specified" A_double3].
Definition update_meta : meta_set := mkSet "update" [node_meta; load_meta].
Definition all_metas : list meta_set := [mkSet "input" []; update_meta].
Definition nodes : comp_buffer odd_double := mkBuf 0 None [0; 1; 3] (Rows [[V_int 7; V_double (Some 10%Z)]; [V_int 8; V_double None]; [V_int 9; V_double (Some 20%Z)]]).
Definition loads : comp_buffer odd_double :=
  mkBuf 1 (Some 1) [] (Cols [(2, [V_double3 (Some 1%Z) None (Some 3%Z); V_double3 None None None]); (0, [V_int 4; V_int 5]); (3, [V_double3 None None None; V_double3 None None None])]).
Definition small : dataset odd_double := mkData update_meta true 2 [loads; nodes].
Example small_ok : dataset_ok small /\ find (fun m => String.eqb (ms_name m) (ms_name (ds_meta small))) all_metas = Some (ds_meta small) /\ no_double None = true.
Proof.
  split; [|split; reflexivity]. constructor.
  - constructor.
    + cbn. repeat constructor; cbn; intuition discriminate.
    + intros mc [<-|[<-|[]]]; (split; [cbn; repeat constructor; cbn; intuition discriminate|unfold fits; cbn; lia]).
    + unfold fits. cbn. lia.
  - discriminate.
  - unfold fits. cbn. lia.
  - cbn. repeat constructor; cbn; intuition discriminate.
  - intros cb [<-|[<-|[]]].
    + exists load_meta, 2. split; [reflexivity|]. split; [cbn; reflexivity|]. split.
      * cbn. split; [repeat constructor; cbn; intuition discriminate|]. intros a col H.
        destruct H as [H|[H|[H|[]]]]; injection H as <- <-; (split; [reflexivity|]); eexists; (split; [reflexivity|]); repeat constructor; cbn; lia.
      * intros s Hs. unfold fits. cbn. lia.
    + exists node_meta, 3. split; [reflexivity|]. split; [|split].
      * cbn. split; [reflexivity|]. split; [reflexivity|]. split; [reflexivity|]. intros [|[|s]] Hs; cbn; lia.
      * cbn. split; [reflexivity|]. intros row [<-|[<-|[<-|[]]]]; repeat constructor; cbn; lia.
      * intros [|[|s]] Hs; cbn in *; unfold fits; cbn; lia.
Qed.
Example small_compact : serialize no_double small true = Done
  [MapH 5; Str "version"; Str "1.0"; Str "type"; Str "update"; Str "is_batch"; TBool true; Str "attributes";
   MapH 2; Str "node"; ArrayH 2; Str "id"; Str "u_rated"; Str "asym_load"; ArrayH 2; Str "id"; Str "p_specified";
   Str "data"; ArrayH 2;
   MapH 2; Str "asym_load"; ArrayH 1; ArrayH 2; TInt 4; ArrayH 3; TFloat (Some 1%Z); Nil; TFloat (Some 3%Z);
           Str "node"; ArrayH 1; ArrayH 2; TInt 7; TFloat (Some 10%Z);
   MapH 2; Str "asym_load"; ArrayH 1; ArrayH 2; TInt 5; Nil;
           Str "node"; ArrayH 2; ArrayH 2; TInt 8; Nil; ArrayH 2; TInt 9; TFloat (Some 20%Z)].
Proof. reflexivity. Qed.
Example small_verbose : serialize no_double small false = Done
  [MapH 5; Str "version"; Str "1.0"; Str "type"; Str "update"; Str "is_batch"; TBool true; Str "attributes"; MapH 0; Str "data"; ArrayH 2;
   MapH 2; Str "asym_load"; ArrayH 1; MapH 2; Str "p_specified"; ArrayH 3; TFloat (Some 1%Z); Nil; TFloat (Some 3%Z); Str "id"; TInt 4;
           Str "node"; ArrayH 1; MapH 2; Str "id"; TInt 7; Str "u_rated"; TFloat (Some 10%Z);
   MapH 2; Str "asym_load"; ArrayH 1; MapH 1; Str "id"; TInt 5;
           Str "node"; ArrayH 2; MapH 1; Str "id"; TInt 8; MapH 2; Str "id"; TInt 9; Str "u_rated"; TFloat (Some 20%Z)].
Proof. reflexivity. Qed.

(** ** what does not hold *)
(** The first pass reads the batch size from an object that is constructed from its own result. If the compiler does not construct it in
    place and the memory holds 0 there, the reader is told wrong sizes. *)
Theorem C37_without_elision_refuted : exists (ds : dataset odd_double) ts p, dataset_ok ds /\ serialize no_double ds true = Done ts /\
  pre_parse all_metas (fun _ => 0) ts = Done p /\ ~ described no_double ds true p /\
  parse None (fun z => Some z) p (fun _ => Row_buffer) = Undef.
Proof.
  exists small. eexists. eexists. split; [exact (proj1 small_ok)|]. split; [vm_compute; reflexivity|]. split; [vm_compute; reflexivity|]. split.
  - intros H. pose proof (de_total _ _ _ _ H) as T. specialize (T _ (or_introl eq_refl)). vm_compute in T. discriminate.
  - vm_compute. reflexivity.
Qed.
(** Attributes may only be predefined for components that have data: a document in which a component has no elements but has its attributes
    listed is refused. (The serializer does not produce such documents.) *)
Example unused_attributes_refused :
  pre_parse all_metas (fun n => n) ([MapH 5; Str "version"; Str "1.0"; Str "type"; Str "update"; Str "is_batch"; TBool false; Str "attributes";
    MapH 1; Str "node"; ArrayH 1; Str "id"; Str "data"; MapH 0] : list (token odd_double)) = Thrown.
Proof. vm_compute. reflexivity. Qed.

Print Assumptions C37_msgpack.
Print Assumptions C37_msgpack_rows.
Print Assumptions C37_msgpack_indicated.
Print Assumptions C37_without_elision_refuted.
