(** C37, C54: the JSON form; what a serializer returns. *)
From Coq Require Import String Ascii DecimalString DecimalZ.
From Verif Require Import Common Serial SerialSpec SerialFacts SerialTrip SerialWhole SerialRound SerialProps Json JsonSpec JsonFacts JsonTrip JsonSim JsonWhole.
Local Open Scope nat_scope.

Section Calls.
Context {D : Type} (nan : D) (is_nan : D -> bool) (of_int : Z -> D) (pinf ninf : D) (inf_sign : D -> option bool).
Context (show_double : D -> string) (read_double : string -> option D) (equal : D -> D -> Prop).
Notation reply_to := (request_reply inf_sign show_double is_nan).
Notation after := (after_requests inf_sign show_double is_nan).
(** the state after any calls: what is stored belongs to the stored form *)
Notation level ds := (if ds_batch ds then 4 else 3).
Record kept (ds : dataset D) (s : serializer D) : Prop := {
  kp_msgpack : forall l, se_msgpack s = Some l -> serialize is_nan ds (se_compact s) = Done l;
  kp_json : se_json s <> EmptyString -> exists indent l, serialize is_nan ds (se_compact s) = Done l /\ convert inf_sign show_double indent (level ds) [] l = Done (se_json s);
  kp_indent : se_indent s = (-1)%Z }.
Lemma kept_new ds : kept ds new_serializer.
Proof. constructor; cbn; [discriminate|congruence|reflexivity]. Qed.
Lemma msgpack_kept ds compact s l s' : (forall l, se_msgpack s = Some l -> serialize is_nan ds (se_compact s) = Done l) -> get_msgpack is_nan ds compact s = Done (l, s') ->
  serialize is_nan ds compact = Done l /\ se_compact s' = compact /\ se_msgpack s' = Some l /\ se_json s' = se_json s /\ se_indent s' = se_indent s.
Proof.
  intros K H. unfold get_msgpack in H.
  assert (X : bindR (serialize is_nan ds compact) (fun l0 => Done (l0, mkSer compact (Some l0) (se_json s) (se_indent s))) = Done (l, s') ->
    serialize is_nan ds compact = Done l /\ se_compact s' = compact /\ se_msgpack s' = Some l /\ se_json s' = se_json s /\ se_indent s' = se_indent s).
  { intros E. destruct (serialize is_nan ds compact) as [l0| |]; try discriminate. cbn [bindR] in E. injection E as -> <-. cbn. auto. }
  destruct (se_msgpack s) as [l0|] eqn:Es; [|exact (X H)]. destruct (Bool.eqb (se_compact s) compact) eqn:Ec; [|exact (X H)].
  apply Bool.eqb_prop in Ec. injection H as -> ->. specialize (K l eq_refl). rewrite Ec in *. auto.
Qed.
Lemma json_kept ds compact indent s txt s' : kept ds s -> get_json inf_sign show_double is_nan ds compact indent s = Done (txt, s') ->
  (txt <> EmptyString -> kept ds s') /\ exists i l, serialize is_nan ds compact = Done l /\ convert inf_sign show_double i (level ds) [] l = Done txt /\ (indent <> (-1)%Z -> i = indent).
Proof.
  intros [K1 K2 K3] H. unfold get_json in H. destruct (String.eqb (se_json s) EmptyString || negb (Bool.eqb (se_compact s) compact) || negb (Z.eqb (se_indent s) indent)) eqn:E.
  - destruct (get_msgpack is_nan ds compact s) as [(l, s1)| |] eqn:Em; try discriminate. cbn [bindR fst snd] in H. destruct (msgpack_kept _ _ _ _ _ K1 Em) as (E1 & E2 & E3 & E4 & E5).
    destruct (convert inf_sign show_double indent (level ds) [] l) as [t| |] eqn:Ec; try discriminate. cbn [bindR] in H. injection H as -> <-. split.
    + intros _. constructor; cbn [se_msgpack se_compact se_json se_indent].
      * intros l0 Hl. rewrite E3 in Hl. injection Hl as <-. rewrite E2. exact E1.
      * intros _. exists indent, l. rewrite E2. auto.
      * congruence.
    + exists indent, l. auto.
  - injection H as <- <-. apply Bool.orb_false_iff in E. destruct E as (E & Ei). apply Bool.orb_false_iff in E. destruct E as (Ej & Ec). apply Bool.negb_false_iff, Bool.eqb_prop in Ec. apply Bool.negb_false_iff, Z.eqb_eq in Ei. apply String.eqb_neq in Ej.
    split; [intros _; constructor; assumption|]. destruct (K2 Ej) as (i & l & H1 & H2). exists i, l. rewrite <- Ec. split; [exact H1|]. split; [exact H2|]. congruence.
Qed.
Hypothesis laws : text_laws nan is_nan of_int pinf ninf inf_sign show_double read_double equal.
Variable (metas : list meta_set) (ds : dataset D).
Hypothesis ok : dataset_ok ds.
Hypothesis names : names_ok (ds_meta ds).
Hypothesis known : find (fun m => String.eqb (ms_name m) (ms_name (ds_meta ds))) metas = Some (ds_meta ds).
Lemma json_made compact indent s : kept ds s -> exists txt s', get_json inf_sign show_double is_nan ds compact indent s = Done (txt, s') /\ txt <> EmptyString.
Proof.
  intros [K1 K2 K3]. assert (nan_nan : is_nan nan = true) by apply laws.
  destruct (json_trip nan is_nan of_int nan_nan ds ok names compact pinf ninf inf_sign show_double read_double equal laws metas indent (level ds) known) as (ts & txt & _ & _ & E1 & E2 & E3 & _).
  unfold get_json. destruct (String.eqb (se_json s) EmptyString || negb (Bool.eqb (se_compact s) compact) || negb (Z.eqb (se_indent s) indent)) eqn:E.
  - assert (X : exists s1, get_msgpack is_nan ds compact s = Done (ts, s1)).
    { unfold get_msgpack. rewrite E1. cbn [bindR]. destruct (se_msgpack s) as [l|] eqn:Es; [|eauto]. destruct (Bool.eqb (se_compact s) compact) eqn:Ec; [|eauto]. apply Bool.eqb_prop in Ec. specialize (K1 l eq_refl).
      rewrite Ec, E1 in K1. injection K1 as <-. eauto. }
    destruct X as (s1 & ->). cbn [bindR fst snd]. rewrite E2. cbn [bindR]. eauto.
  - exists (se_json s), s. split; [reflexivity|]. apply Bool.orb_false_iff in E. destruct E as (E & _). apply Bool.orb_false_iff in E. destruct E as (Ej & _). apply String.eqb_neq in Ej. exact Ej.
Qed.
Lemma kept_after qs : forall s, kept ds s -> kept ds (after F_json ds qs s).
Proof.
  induction qs as [|q qs IH]; intros s K; cbn [after_requests]; [exact K|]. apply IH.
  assert (X : forall compact indent, match bindR (get_json inf_sign show_double is_nan ds compact indent s) (fun r => Done (R_text (D := D) (fst r), snd r)) with Done r => kept ds (snd r) | _ => True end).
  { intros compact indent. destruct (json_made compact indent s K) as (txt & s' & E & N). rewrite E. cbn [bindR fst snd]. apply (proj1 (json_kept _ _ _ _ _ _ K E) N). }
  destruct q as [compact|compact indent]; cbn [request_reply].
  - specialize (X compact (-1)%Z). destruct (bindR _ _); [exact X|exact K|exact K].
  - specialize (X compact indent). destruct (bindR _ _); [exact X|exact K|exact K].
Qed.
End Calls.

(** A JSON serializer returns a text from which the same dataset is read, whatever was asked before; doubles are read back equal (==). *)
Theorem C37_json : forall (D : Type) (nan : D) (is_nan : D -> bool) (of_int : Z -> D) (pinf ninf : D) (inf_sign : D -> option bool)
    (show_double : D -> string) (read_double : string -> option D) (equal : D -> D -> Prop) (metas : list meta_set) (ds : dataset D),
  text_laws nan is_nan of_int pinf ninf inf_sign show_double read_double equal -> dataset_ok ds -> names_ok (ds_meta ds) ->
  find (fun m => String.eqb (ms_name m) (ms_name (ds_meta ds))) metas = Some (ds_meta ds) ->
  forall (before : list request) (compact : bool) (indent : Z),
  exists txt s ts p,
    request_reply inf_sign show_double is_nan F_json ds (Get_string compact indent) (after_requests inf_sign show_double is_nan F_json ds before new_serializer) = Done (R_text txt, s) /\
    json_to_msgpack pinf ninf read_double txt = Done ts /\ pre_parse metas (fun n => n) ts = Done p /\ described is_nan ds compact p /\
    forall targets, (forall c mc, nth_error (ms_comps (ds_meta ds)) c = Some mc -> target_ok mc (targets c)) ->
    exists ds', parse nan of_int p targets = Done ds' /\ read_back_json nan is_nan equal ds targets ds'.
Proof.
  intros D nan is_nan of_int pinf ninf inf_sign show_double read_double equal metas ds laws ok names known before compact indent. assert (nan_nan : is_nan nan = true) by apply laws.
  assert (K := kept_after nan is_nan of_int pinf ninf inf_sign show_double read_double equal laws metas ds ok names known before _ (kept_new is_nan inf_sign show_double ds)).
  destruct (json_made nan is_nan of_int pinf ninf inf_sign show_double read_double equal laws metas ds ok names known compact indent _ K) as (txt & s & E & _).
  destruct (json_kept is_nan inf_sign show_double _ _ _ _ _ _ K E) as (_ & i & l & E1 & E2 & _).
  destruct (json_trip nan is_nan of_int nan_nan ds ok names compact pinf ninf inf_sign show_double read_double equal laws metas i (if ds_batch ds then 4 else 3) known) as (l' & txt' & ts & p & F1 & F2 & _ & F3 & F4 & F5 & F6).
  rewrite E1 in F1. injection F1 as <-. rewrite E2 in F2. injection F2 as <-. exists txt, s, ts, p. cbn [request_reply]. rewrite E. cbn [bindR fst snd]. auto.
Qed.

(** ** what a call returns depends only on the dataset and on the options of the call *)
(** The msgpack form: after any calls, the same as from a new serializer. *)
Theorem C54_msgpack : forall (D : Type) (is_nan : D -> bool) (inf_sign : D -> option bool) (show_double : D -> string) (ds : dataset D) (before : list request) (q : request),
  match request_reply inf_sign show_double is_nan F_msgpack ds q (after_requests inf_sign show_double is_nan F_msgpack ds before new_serializer), request_reply inf_sign show_double is_nan F_msgpack ds q new_serializer with
  | Done (r, _), Done (r', _) => r = r'
  | Thrown, Thrown => True
  | Undef, Undef => True
  | _, _ => False
  end.
Proof.
  intros D is_nan inf_sign show_double ds before q. set (ok s := forall l, se_msgpack s = Some l -> serialize is_nan ds (se_compact s) = Done l).
  assert (K : forall qs s, ok s -> ok (after_requests inf_sign show_double is_nan F_msgpack ds qs s)).
  { induction qs as [|q' qs IH]; intros s K; cbn [after_requests]; [exact K|]. apply IH. destruct q' as [c|]; cbn [request_reply]; [|exact K]. destruct (get_msgpack is_nan ds c s) as [(l, s')| |] eqn:E; [|exact K|exact K].
    cbn [bindR snd]. destruct (msgpack_kept _ _ _ _ _ _ K E) as (E1 & E2 & E3 & _). intros l' Hl. rewrite E3 in Hl. injection Hl as <-. rewrite E2. exact E1. }
  assert (K0 : ok new_serializer) by (intros l H; discriminate). specialize (K before _ K0). set (s := after_requests _ _ _ _ _ _ _) in *. clearbody s.
  destruct q as [c|]; cbn [request_reply]; [|exact I].
  replace (get_msgpack is_nan ds c new_serializer) with (bindR (serialize is_nan ds c) (fun l => Done (l, mkSer c (Some l) EmptyString (-1)%Z))) by reflexivity.
  unfold get_msgpack. destruct (se_msgpack s) as [l|] eqn:Es.
  - destruct (Bool.eqb (se_compact s) c) eqn:Ec; [|destruct (serialize is_nan ds c); cbn; auto]. apply Bool.eqb_prop in Ec. specialize (K l Es). rewrite Ec in K. rewrite K. reflexivity.
  - destruct (serialize is_nan ds c); cbn; auto.
Qed.
(** The JSON form: the same as from a new serializer if an indent is asked for. *)
Theorem C54_json_indent_partial : forall (D : Type) (nan : D) (is_nan : D -> bool) (of_int : Z -> D) (pinf ninf : D) (inf_sign : D -> option bool)
    (show_double : D -> string) (read_double : string -> option D) (equal : D -> D -> Prop) (metas : list meta_set) (ds : dataset D),
  text_laws nan is_nan of_int pinf ninf inf_sign show_double read_double equal -> dataset_ok ds -> names_ok (ds_meta ds) ->
  find (fun m => String.eqb (ms_name m) (ms_name (ds_meta ds))) metas = Some (ds_meta ds) ->
  forall (before : list request) (compact : bool) (indent : Z), indent <> (-1)%Z ->
  exists txt s s', request_reply inf_sign show_double is_nan F_json ds (Get_string compact indent) (after_requests inf_sign show_double is_nan F_json ds before new_serializer) = Done (R_text txt, s) /\
    request_reply inf_sign show_double is_nan F_json ds (Get_string compact indent) new_serializer = Done (R_text txt, s').
Proof.
  intros D nan is_nan of_int pinf ninf inf_sign show_double read_double equal metas ds laws ok names known before compact indent Hi.
  assert (K0 := kept_new is_nan inf_sign show_double ds).
  assert (K := kept_after nan is_nan of_int pinf ninf inf_sign show_double read_double equal laws metas ds ok names known before _ K0).
  destruct (json_made nan is_nan of_int pinf ninf inf_sign show_double read_double equal laws metas ds ok names known compact indent _ K) as (txt & s & E & _).
  destruct (json_made nan is_nan of_int pinf ninf inf_sign show_double read_double equal laws metas ds ok names known compact indent _ K0) as (txt' & s' & E' & _).
  destruct (json_kept is_nan inf_sign show_double _ _ _ _ _ _ K E) as (_ & i & l & E1 & E2 & E3). destruct (json_kept is_nan inf_sign show_double _ _ _ _ _ _ K0 E') as (_ & i' & l' & E1' & E2' & E3').
  rewrite E1 in E1'. injection E1' as <-. rewrite (E3 Hi) in E2. rewrite (E3' Hi) in E2'. rewrite E2 in E2'. injection E2' as <-. exists txt, s, s'. cbn [request_reply]. rewrite E, E'. auto.
Qed.
(** The JSON form without indent: the same as from a new serializer if no indent was asked for before. *)
Definition no_indent (q : request) : Prop := match q with Get_binary _ => True | Get_string _ indent => indent = (-1)%Z end.
Theorem C54_json_flat_partial : forall (D : Type) (nan : D) (is_nan : D -> bool) (of_int : Z -> D) (pinf ninf : D) (inf_sign : D -> option bool)
    (show_double : D -> string) (read_double : string -> option D) (equal : D -> D -> Prop) (metas : list meta_set) (ds : dataset D),
  text_laws nan is_nan of_int pinf ninf inf_sign show_double read_double equal -> dataset_ok ds -> names_ok (ds_meta ds) ->
  find (fun m => String.eqb (ms_name m) (ms_name (ds_meta ds))) metas = Some (ds_meta ds) ->
  forall (before : list request) (q : request), Forall no_indent before -> no_indent q ->
  exists txt s s', request_reply inf_sign show_double is_nan F_json ds q (after_requests inf_sign show_double is_nan F_json ds before new_serializer) = Done (R_text txt, s) /\
    request_reply inf_sign show_double is_nan F_json ds q new_serializer = Done (R_text txt, s').
Proof.
  intros D nan is_nan of_int pinf ninf inf_sign show_double read_double equal metas ds laws ok names known before q Hb Hq.
  assert (K0 := kept_new is_nan inf_sign show_double ds). set (lvl := if ds_batch ds then 4 else 3).
  set (flat s := kept is_nan inf_sign show_double ds s /\ (se_json s <> EmptyString -> exists l, serialize is_nan ds (se_compact s) = Done l /\ convert inf_sign show_double (-1) lvl [] l = Done (se_json s))).
  assert (Step : forall s c, flat s -> exists txt s', get_json inf_sign show_double is_nan ds c (-1) s = Done (txt, s') /\ flat s' /\ exists l, serialize is_nan ds c = Done l /\ convert inf_sign show_double (-1) lvl [] l = Done txt).
  { intros s c (K & J). destruct (json_made nan is_nan of_int pinf ninf inf_sign show_double read_double equal laws metas ds ok names known c (-1)%Z s K) as (txt & s' & E & N). exists txt, s'. split; [exact E|].
    destruct (json_kept is_nan inf_sign show_double _ _ _ _ _ _ K E) as (K' & _). specialize (K' N). unfold get_json in E.
    destruct (String.eqb (se_json s) EmptyString || negb (Bool.eqb (se_compact s) c) || negb (Z.eqb (se_indent s) (-1))) eqn:G.
    - destruct (get_msgpack is_nan ds c s) as [(l, s1)| |] eqn:Em; try discriminate. cbn [bindR fst snd] in E. destruct (msgpack_kept _ _ _ _ _ _ (kp_msgpack _ _ _ _ _ K) Em) as (E1 & E2 & _). fold lvl in E.
      destruct (convert inf_sign show_double (-1) lvl [] l) as [t| |] eqn:Ec; try discriminate. cbn [bindR] in E. injection E as -> <-. split; [|eauto]. split; [exact K'|]. intros _. exists l. cbn [se_compact se_json]. rewrite E2. auto.
    - injection E as <- <-. split; [split; assumption|]. destruct (J N) as (l & J1 & J2). exists l. apply Bool.orb_false_iff in G. destruct G as (G & _). apply Bool.orb_false_iff in G. destruct G as (_ & Ec). apply Bool.negb_false_iff, Bool.eqb_prop in Ec.
      rewrite <- Ec. auto. }
  assert (F0 : flat new_serializer) by (split; [exact K0|intros H; cbn in H; congruence]).
  assert (FA : forall qs s, Forall no_indent qs -> flat s -> flat (after_requests inf_sign show_double is_nan F_json ds qs s)).
  { induction qs as [|q' qs IH]; intros s Hn F; cbn [after_requests]; [exact F|]. inversion Hn as [|? ? H1 H2]; subst. apply IH; [exact H2|].
    destruct q' as [c|c i]; cbn [request_reply no_indent] in *; [|subst i]; destruct (Step s c F) as (txt & s' & E & F' & _); rewrite E; exact F'. }
  specialize (FA before _ Hb F0). set (s := after_requests _ _ _ _ _ _ _) in *. clearbody s.
  assert (X : forall c, exists txt s1 s2, get_json inf_sign show_double is_nan ds c (-1) s = Done (txt, s1) /\ get_json inf_sign show_double is_nan ds c (-1) new_serializer = Done (txt, s2)).
  { intros c. destruct (Step s c FA) as (txt & s1 & E & _ & l & A1 & A2). destruct (Step _ c F0) as (txt' & s2 & E' & _ & l' & B1 & B2). rewrite A1 in B1. injection B1 as <-. rewrite A2 in B2. injection B2 as <-. eauto. }
  destruct q as [c|c i]; cbn [request_reply no_indent] in *; [|subst i]; destruct (X c) as (txt & s1 & s2 & E & E'); exists txt, s1, s2; rewrite E, E'; auto.
Qed.

(** ** examples: a type of numbers with NaN, infinities, both zeros, the integers and one half *)
Inductive jd := J_nan | J_inf (positive : bool) | J_int (z : Z) | J_negative_zero | J_half.
Definition j_nan (d : jd) : bool := match d with J_nan => true | _ => false end.
Definition j_inf (d : jd) : option bool := match d with J_inf b => Some b | _ => None end.
Definition j_show (d : jd) : string := match d with J_int z => show_int z | J_negative_zero => "-0" | J_half => "0.5" | _ => "" end%string.
Definition j_read (s : string) : option jd := if String.eqb s "0.5" then Some J_half else None.
Definition j_equal (x y : jd) : Prop := x <> J_nan /\ (x = y \/ (x = J_negative_zero /\ y = J_int 0) \/ (x = J_int 0 /\ y = J_negative_zero)).
Example j_laws : text_laws J_nan j_nan J_int (J_inf true) (J_inf false) j_inf j_show j_read j_equal.
Proof.
  constructor.
  - auto.
  - reflexivity.
  - intros [| [] | | |]; cbn; auto.
  - intros z i _ H. cbn [j_show] in H. rewrite read_int in H. injection H as <-. rewrite of_to. reflexivity.
  - intros [| | | |]; cbn; congruence.
  - intros d H. split; [intros ->; discriminate|left; reflexivity].
  - intros [|b|z| |]; cbn [j_nan j_inf]; try discriminate; intros _ _; cbn [j_show].
    + destruct (show_int_ok z) as (A & B & C). refine (conj A (conj B (conj C _))). rewrite read_int, of_to. split; [discriminate|left; reflexivity].
    + cbn. repeat split; try discriminate; [intuition discriminate|right; left; auto].
    + cbn. repeat split; try discriminate. intuition discriminate.
Qed.
Definition j_nodes : comp_buffer jd := mkBuf 0 None [0; 1; 3] (Rows [[V_int 7; V_double (J_int 10)]; [V_int 8; V_double J_nan]; [V_int 9; V_double J_negative_zero]]).
Definition j_loads : comp_buffer jd := mkBuf 1 (Some 1) [] (Cols [(2, [V_double3 (J_inf true) J_nan J_half; V_double3 J_nan J_nan J_nan]); (0, [V_int 3; V_int 4])]).
Definition j_small : dataset jd := mkData update_meta true 2 [j_loads; j_nodes].
Example j_small_ok : dataset_ok j_small /\ names_ok (ds_meta j_small) /\ find (fun m => String.eqb (ms_name m) (ms_name (ds_meta j_small))) all_metas = Some (ds_meta j_small).
Proof.
  refine (conj _ (conj _ eq_refl)).
  - destruct small_ok as (O & _). constructor.
    + exact (do_meta _ O).
    + discriminate.
    + exact (do_size _ O).
    + exact (do_once _ O).
    + intros cb [<-|[<-|[]]].
      * exists load_meta, 2. refine (conj eq_refl (conj eq_refl (conj _ _))); [|intros s _; unfold fits; cbn; lia]. split; [repeat constructor; cbn; intuition discriminate|].
        intros a col [H|[H|[]]]; injection H as <- <-; (split; [reflexivity|]); eexists; (split; [reflexivity|]); repeat constructor; cbn; lia.
      * exists node_meta, 3. refine (conj eq_refl (conj _ (conj _ _))).
        -- cbn. repeat split; try reflexivity. intros [|[|s]] Hs; cbn; lia.
        -- split; [reflexivity|]. intros row [<-|[<-|[<-|[]]]]; repeat constructor; cbn; lia.
        -- intros [|[|s]] Hs; unfold fits; cbn in *; lia.
  - assert (P : forall s, (forallb (fun c => negb (Ascii.eqb c quote) && negb (Ascii.eqb c backslash) && (32 <=? nat_of_ascii c)) (list_ascii_of_string s) && negb (existsb (String.eqb s) ["inf"; "+inf"; "-inf"])%string = true) -> proper s).
    { intros s H. apply Bool.andb_true_iff in H. destruct H as (H & N). split.
      - clear N. revert H. induction s as [|c s IH]; cbn [list_ascii_of_string forallb plain]; [auto|]. rewrite !Bool.andb_true_iff, !Bool.negb_true_iff, !Ascii.eqb_neq, Nat.leb_le. intros (((? & ?) & ?) & ?). auto.
      - apply Bool.negb_true_iff in N. cbn [existsb] in N. rewrite !Bool.orb_false_iff, !String.eqb_neq in N. destruct N as (? & ? & ? & _). repeat split; assumption. }
    constructor.
    + apply P. reflexivity.
    + intros mc [<-|[<-|[]]]; apply P; reflexivity.
    + intros mc x [<-|[<-|[]]]; cbn [mc_attrs node_meta load_meta In]; intros H; repeat (destruct H as [<-|H]; [apply P; reflexivity|]); contradiction.
Qed.
(** the texts *)
Example j_small_verbose : match get_json j_inf j_show j_nan j_small false (-1) new_serializer with Done r => fst r | _ => ""%string end =
  "{""version"":""1.0"",""type"":""update"",""is_batch"":true,""attributes"":{},""data"":[{""asym_load"":[{""p_specified"":[""inf"",null,0.5],""id"":3}],""node"":[{""id"":7,""u_rated"":10}]},{""asym_load"":[{""id"":4}],""node"":[{""id"":8},{""id"":9,""u_rated"":-0}]}]}"%string.
Proof. vm_compute. reflexivity. Qed.
Example j_small_compact : match get_json j_inf j_show j_nan j_small true (-1) new_serializer with Done r => fst r | _ => ""%string end =
  "{""version"":""1.0"",""type"":""update"",""is_batch"":true,""attributes"":{""node"":[""id"",""u_rated""],""asym_load"":[""id"",""p_specified""]},""data"":[{""asym_load"":[[3,[""inf"",null,0.5]]],""node"":[[7,10]]},{""asym_load"":[[4,null]],""node"":[[8,null],[9,-0]]}]}"%string.
Proof. vm_compute. reflexivity. Qed.
(** Not the very same doubles: the sign of -0.0 is lost (it is kept in the msgpack form). *)
Theorem C37_json_exact_refuted : exists (ds : dataset jd) txt s ts p ds', dataset_ok ds /\ names_ok (ds_meta ds) /\
  get_json j_inf j_show j_nan ds true (-1) new_serializer = Done (txt, s) /\ json_to_msgpack (J_inf true) (J_inf false) j_read txt = Done ts /\
  pre_parse all_metas (fun n => n) ts = Done p /\ parse J_nan J_int p (fun _ => Row_buffer) = Done ds' /\
  datum ds 1 0 1 1 = Some (V_double J_negative_zero) /\ datum ds' 1 0 1 1 = Some (V_double (J_int 0)) /\ ~ read_back J_nan j_nan ds (fun _ => Row_buffer) ds'.
Proof.
  exists j_small. destruct j_small_ok as (O & N & K). do 5 eexists. split; [exact O|]. split; [exact N|]. split; [vm_compute; reflexivity|]. split; [vm_compute; reflexivity|]. split; [vm_compute; reflexivity|].
  split; [vm_compute; reflexivity|]. split; [reflexivity|]. split; [reflexivity|]. intros [_ _ _ _ R _]. destruct (R 1 0 1 1 node_meta (mkAttr "u_rated" A_double)) as (_ & E); try reflexivity; try (cbn; lia).
  cbn in E. destruct E as [(_ & E)|(_ & E)]; discriminate.
Qed.
(** The indent of the text that is kept is not remembered: after a text with indent, the text without indent is not the one that was asked for. *)
Theorem C54_flat_after_indent_refuted : exists (ds : dataset jd) txt txt' s s', dataset_ok ds /\ names_ok (ds_meta ds) /\
  request_reply j_inf j_show j_nan F_json ds (Get_binary true) (after_requests j_inf j_show j_nan F_json ds [Get_string true 2] new_serializer) = Done (R_text txt, s) /\
  request_reply j_inf j_show j_nan F_json ds (Get_binary true) new_serializer = Done (R_text txt', s') /\ txt <> txt'.
Proof.
  exists j_small. destruct j_small_ok as (O & N & K). do 4 eexists. split; [exact O|]. split; [exact N|]. split; [vm_compute; reflexivity|]. split; [vm_compute; reflexivity|]. discriminate.
Qed.

Print Assumptions C37_json.
Print Assumptions C54_msgpack.
Print Assumptions C54_json_indent_partial.
Print Assumptions C54_json_flat_partial.
Print Assumptions C37_json_exact_refuted.
Print Assumptions C54_flat_after_indent_refuted.
