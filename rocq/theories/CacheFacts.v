(** Proofs: the solver caches never go stale. *)
From Verif Require Import Common Container Component MainModel UpdateFacts CacheSpec.

Section Facts.
Context {O : DOps} {T P Opt R : Type} (orc : oracles T P Opt R).
Notation comps := (forall t, list (comp t)).
Notation mm := (mm (T := T) (P := P)).
Notation cache := (cache (T := T) (P := P)).

(** ** What an update changes *)

Definition conn_key (t : ctype) : comp t -> list bool :=
  match t with
  | Line | AsymLine | Link | GenericBranch => fun c => [b_from c; b_to c]
  | Transformer => fun c => [b_from (tr_branch c); b_to (tr_branch c)]
  | ThreeWindingTransformer => fun c => [b3_1 (t3_branch c); b3_2 (t3_branch c); b3_3 (t3_branch c)]
  | Source => fun c => [so_status c]
  | _ => fun _ => []
  end.

Lemma set_status1_false cur new : snd (set_status1 cur new) = false -> fst (set_status1 cur new) = cur.
Proof. unfold set_status1. destruct (new =? na_IntS)%Z; auto. destruct (Bool.eqb _ _); simpl; auto; discriminate. Qed.

Lemma branch_set_status_false b u : snd (branch_set_status b u) = false -> fst (branch_set_status b u) = b.
Proof.
  unfold branch_set_status. destruct b as [f t]; simpl.
  destruct (bu_from u =? na_IntS)%Z, (bu_to u =? na_IntS)%Z; simpl; auto;
    repeat match goal with |- context [Bool.eqb ?x ?y] => destruct (Bool.eqb x y) eqn:? end; simpl; try discriminate;
    repeat match goal with H : Bool.eqb _ _ = true |- _ => apply Bool.eqb_prop in H; subst end; auto.
Qed.
Lemma branch3_set_status_false b u : snd (branch3_set_status b u) = false -> fst (branch3_set_status b u) = b.
Proof.
  unfold branch3_set_status. destruct b as [x y z]; simpl.
  destruct (b3u_1 u =? na_IntS)%Z, (b3u_2 u =? na_IntS)%Z, (b3u_3 u =? na_IntS)%Z; simpl; auto;
    repeat match goal with |- context [Bool.eqb ?x ?y] => destruct (Bool.eqb x y) eqn:? end; simpl; try discriminate;
    repeat match goal with H : Bool.eqb _ _ = true |- _ => apply Bool.eqb_prop in H; subst end; auto.
Qed.
Lemma set_tap_false t n : snd (set_tap t n) = false -> fst (set_tap t n) = t.
Proof. unfold set_tap. destruct (_ || _)%bool; simpl; auto; discriminate. Qed.

Definition uc (t : ctype) (c : comp t) (u : comp_upd t) : comp t := fst (fst (update t c u)).
Definition uch (t : ctype) (c : comp t) (u : comp_upd t) : change := snd (fst (update t c u)).

Lemma update_topo_param t c u : topo (uch t c u) = true -> param (uch t c u) = true.
Proof.
  unfold uch. destruct t; cbn [update]; try discriminate; unfold no_exn; cbn [fst snd].
  1-4: unfold branch_update; destruct (branch_set_status c u); auto.
  - unfold transformer_update. destruct (branch_set_status _ _), (set_tap _ _). cbn. intros ->. apply Bool.orb_true_r.
  - unfold transformer3_update. destruct (branch3_set_status _ _), (set_tap _ _). cbn. intros ->. apply Bool.orb_true_r.
  - unfold shunt_update. destruct (set_status1 _ _), (shunt_update_params _ _). cbn. discriminate.
  - unfold source_update. destruct (set_status1 _ _), (assign_if (sou_u_ref u) _), (assign_if (sou_u_ref_angle u) _),
      (assign_if (sou_sk u) _), (assign_if (sou_rx u) _), (assign_if (sou_z01 u) _). cbn. intros ->. apply Bool.orb_true_r.
  - unfold loadgen_update. destruct (set_status1 _ _). discriminate.
  - unfold loadgen_update. destruct (set_status1 _ _). discriminate.
  - unfold loadgen_update. destruct (set_status1 _ _). discriminate.
  - unfold loadgen_update. destruct (set_status1 _ _). discriminate.
  - unfold fault_update. destruct (set_status1 _ _). discriminate.
Qed.

Lemma update_conn t c u : topo (uch t c u) = false -> conn_key t (uc t c u) = conn_key t c.
Proof.
  unfold uch, uc. destruct t; cbn [update conn_key]; auto; unfold no_exn; cbn [fst snd].
  1-4: unfold branch_update; pose proof (branch_set_status_false c u) as HH; destruct (branch_set_status c u); cbn in *;
       intros ->; rewrite HH; auto.
  - unfold transformer_update. pose proof (branch_set_status_false (tr_branch c) (tru_branch u)) as HH.
    destruct (branch_set_status _ _), (set_tap _ _). cbn in *. intros ->. rewrite HH; auto.
  - unfold transformer3_update. pose proof (branch3_set_status_false (t3_branch c) (t3u_branch u)) as HH.
    destruct (branch3_set_status _ _), (set_tap _ _). cbn in *. intros ->. rewrite HH; auto.
  - unfold source_update. pose proof (set_status1_false (so_status c) (sou_status u)) as HH.
    destruct (set_status1 _ _), (assign_if (sou_u_ref u) _), (assign_if (sou_u_ref_angle u) _),
      (assign_if (sou_sk u) _), (assign_if (sou_rx u) _), (assign_if (sou_z01 u) _). cbn in *. intros ->. rewrite HH; auto.
Qed.

Lemma update_key t c u : param (uch t c u) = false -> key_of t (uc t c u) = key_of t c.
Proof.
  unfold uch, uc. destruct t; cbn [update key_of]; auto; unfold no_exn; cbn [fst snd].
  1-4: unfold branch_update; pose proof (branch_set_status_false c u) as HH; destruct (branch_set_status c u); cbn in *;
       intros ->; rewrite HH; auto.
  - unfold transformer_update. pose proof (branch_set_status_false (tr_branch c) (tru_branch u)) as HH.
    pose proof (set_tap_false (tr_tap c) (tru_tap u)) as HT.
    destruct (branch_set_status _ _), (set_tap _ _). cbn in *. intros H. apply Bool.orb_false_iff in H as [-> ->].
    rewrite HH, HT; auto.
  - unfold transformer3_update. pose proof (branch3_set_status_false (t3_branch c) (t3u_branch u)) as HH.
    pose proof (set_tap_false (t3_tap c) (t3u_tap u)) as HT.
    destruct (branch3_set_status _ _), (set_tap _ _). cbn in *. intros H. apply Bool.orb_false_iff in H as [-> ->].
    rewrite HH, HT; auto.
  - unfold shunt_update. pose proof (set_status1_false (sh_status c) (shu_status u)) as HH.
    destruct (set_status1 _ _) as [s ch]. unfold shunt_update_params. cbn in HH.
    destruct (update_param (shu_g1 u) _) as [? c1], (update_param (shu_b1 u) _) as [? c2],
      (update_param (shu_g0 u) _) as [? c3], (update_param (shu_b0 u) _) as [? c4].
    cbn [fst snd param sh_status sh_y sh_g1 sh_b1 sh_g0 sh_b0]. intros H. apply Bool.orb_false_iff in H as [H ->].
    rewrite H, HH; auto.
  - unfold source_update. destruct (set_status1 _ _), (assign_if (sou_u_ref u) _), (assign_if (sou_u_ref_angle u) _).
    unfold assign_if. destruct (isnan (sou_sk u)), (isnan (sou_rx u)), (isnan (sou_z01 u)); cbn; try discriminate; auto.
Qed.

(** A source update without impedances: parameters change only with the status. *)
Lemma source_no_impedance (c : comp Source) (u : comp_upd Source) : no_source_impedance u ->
  param (uch Source c u) = topo (uch Source c u).
Proof.
  intros (H1 & H2 & H3). unfold uch. cbn [update]. unfold no_exn, source_update. cbn [fst snd].
  destruct (set_status1 _ _), (assign_if (sou_u_ref u) _), (assign_if (sou_u_ref_angle u) _).
  unfold assign_if. rewrite H1, H2, H3. reflexivity.
Qed.

Lemma key_kind t c c' : key_of t c = None -> key_of t c' = None.
Proof. destruct t; cbn; congruence. Qed.

(** Vectors *)
Definition keys_kept (t : ctype) (v v' : list (comp t)) (ch : list nat) : Prop :=
  length v' = length v /\
  forall pos x x', nth_error v pos = Some x -> nth_error v' pos = Some x' -> ~ In pos ch -> key_of t x' = key_of t x.

Lemma keys_kept_refl t v ch : keys_kept t v v ch.
Proof. split; auto. intros. congruence. Qed.

Lemma update_vec_keys t us : forall sq v, vr_out (update_vec t v us sq) <> UB ->
  keys_kept t v (vr_vec (update_vec t v us sq)) (vr_changed (update_vec t v us sq)) /\
  (topo (vr_change (update_vec t v us sq)) = false ->
   map (conn_key t) (vr_vec (update_vec t v us sq)) = map (conn_key t) v) /\
  (topo (vr_change (update_vec t v us sq)) = true -> param (vr_change (update_vec t v us sq)) = true) /\
  (param (vr_change (update_vec t v us sq)) = false -> vr_changed (update_vec t v us sq) = []).
Proof.
  induction us as [|u us IH]; intros sq v HU; simpl in *.
  - repeat split; auto. intros. congruence.
  - destruct sq as [|i sq]; simpl in *; [congruence|].
    destruct (nth_error v i) as [c|] eqn:Ei; simpl in *; [|congruence].
    pose proof (update_topo_param t c u) as HTP. pose proof (update_conn t c u) as HCN.
    pose proof (update_key t c u) as HK. unfold uc, uch in *.
    destruct (update t c u) as [[c' ch] ex] eqn:EU. cbn [fst snd] in *.
    destruct ex as [e|]; simpl in *.
    + (* exception: fault *)
      assert (t = Fault) as -> by (destruct t; auto; exfalso; cbn in EU; unfold no_exn in EU; congruence).
      repeat split; auto; try discriminate.
      * apply upd_length.
      * assert (HL : forall l : list (comp Fault), map (conn_key Fault) l = repeat [] (length l)).
        { induction l; cbn; f_equal; auto. }
        rewrite !HL, upd_length. reflexivity.
    + destruct (IH sq (upd i c' v) HU) as ((KL & KK) & KC & KT & KP). clear IH.
      set (r := update_vec t (upd i c' v) us sq) in *. repeat split.
      * rewrite KL. apply upd_length.
      * intros pos x x' Hx Hx' Hn.
        assert (Hn' : ~ In pos (vr_changed r)).
        { intros Hin. apply Hn. destruct (param ch || topo ch)%bool; [right|]; auto. }
        destruct (Nat.eq_dec i pos) as [<-|Hne].
        -- assert (x = c) by congruence. subst x.
           rewrite (KK i c' x'); auto; [|apply nth_error_upd_eq; apply nth_error_Some; congruence].
           apply HK. destruct (param ch); auto. exfalso. apply Hn. simpl. auto.
        -- apply KK with (pos := pos); auto. now rewrite nth_error_upd_neq.
      * intros H. apply Bool.orb_false_iff in H as [H1 H2]. rewrite (KC H2).
        apply nth_error_ext. intros j. rewrite !nth_error_map. destruct (Nat.eq_dec i j) as [<-|Hne].
        -- rewrite nth_error_upd_eq by (apply nth_error_Some; congruence). rewrite Ei. cbn. now rewrite HCN.
        -- now rewrite nth_error_upd_neq.
      * intros H. apply Bool.orb_true_iff in H as [H|H]; apply Bool.orb_true_iff; [left|right]; auto.
      * intros H. apply Bool.orb_false_iff in H as [H1 H2]. rewrite H1. cbn.
        destruct (topo ch) eqn:ET; [specialize (HTP eq_refl); congruence|]. auto.
Qed.

(** ** Parameters *)

Definition entry (y : list (list (option P))) (t : ctype) (pos : nat) : option (option P) :=
  nth_error (nth (ctype_idx t) y []) pos.

Lemma nth_ctypes t : nth_error all_ctypes (ctype_idx t) = Some t.
Proof. destruct t; reflexivity. Qed.
Lemma ctype_idx_bound t : ctype_idx t < length all_ctypes.
Proof. destruct t; cbn; lia. Qed.
Lemma ctype_idx_inj t t' : ctype_idx t = ctype_idx t' -> t = t'.
Proof. intros H. pose proof (nth_ctypes t). pose proof (nth_ctypes t'). rewrite H in *. congruence. Qed.

Lemma ctypes_at i t t' : nth_error all_ctypes i = Some t -> nth_error all_ctypes i = Some t' -> t = t'.
Proof. congruence. Qed.
Lemma par_list_spec sym top t l : forall k ps, par_list orc sym top t k l = Some ps <->
  length ps = length l /\
  forall pos x, nth_error l pos = Some x ->
    exists p, par_at orc sym top t (k + pos) x = Some p /\ nth_error ps pos = Some p.
Proof.
  induction l as [|a l IH]; intros k ps; simpl.
  - split.
    + intros H; injection H as <-. split; auto. intros [|pos] x; discriminate.
    + intros [H _]. destruct ps; auto; discriminate.
  - destruct (par_at orc sym top t k a) as [p|] eqn:E.
    + destruct (par_list orc sym top t (S k) l) as [qs|] eqn:El.
      * split.
        -- intros H; injection H as <-. destruct (proj1 (IH (S k) qs) El) as [L A]. split; [simpl; auto|].
           intros [|pos] x Hx; simpl in *.
           ++ injection Hx as <-. exists p. rewrite Nat.add_0_r. auto.
           ++ destruct (A pos x Hx) as (q & Hq & Hn). exists q. rewrite <- Nat.add_succ_comm. auto.
        -- intros [L A]. destruct ps as [|p' ps]; [discriminate|]. f_equal.
           destruct (A 0 a eq_refl) as (q & Hq & Hn). rewrite Nat.add_0_r, E in Hq. simpl in Hn. f_equal; [congruence|].
           enough (Some qs = Some ps) by congruence. rewrite <- El. apply IH. split; [simpl in L; lia|].
           intros pos x Hx. destruct (A (S pos) x Hx) as (q' & Hq' & Hn'). exists q'. rewrite Nat.add_succ_comm. auto.
      * split; [discriminate|]. intros [L A]. exfalso. destruct ps as [|p' ps]; [discriminate|].
        assert (par_list orc sym top t (S k) l = Some ps); [|congruence].
        apply IH. split; [simpl in L; lia|].
        intros pos x Hx. destruct (A (S pos) x Hx) as (q' & Hq' & Hn'). exists q'. rewrite Nat.add_succ_comm. auto.
    + split; [discriminate|]. intros [L A]. destruct (A 0 a eq_refl) as (q & Hq & _). rewrite Nat.add_0_r in Hq. congruence.
Qed.

Lemma param_types_spec sym top (c : comps) ts : forall y, param_types orc sym top c ts = Some y <->
  length y = length ts /\
  forall i t, nth_error ts i = Some t -> par_list orc sym top t 0 (c t) = Some (nth i y []).
Proof.
  induction ts as [|t ts IH]; intros y; simpl.
  - split; [intros H; injection H as <-; split; auto; intros [|i] t; discriminate|]. intros [H _]. destruct y; auto; discriminate.
  - destruct (par_list orc sym top t 0 (c t)) as [l|] eqn:E.
    + destruct (param_types orc sym top c ts) as [y'|] eqn:Ey.
      * split.
        -- intros H; injection H as <-. destruct (proj1 (IH y') eq_refl) as [L A]. split; [simpl; auto|].
           intros [|i] t' Ht; simpl in *; [injection Ht as <-; auto|]. auto.
        -- intros [L A]. destruct y as [|l0 y0]; [discriminate|]. pose proof (A 0 t eq_refl) as A0. simpl in A0.
           f_equal. f_equal; [congruence|]. enough (Some y' = Some y0) by congruence. apply IH. split; [simpl in L; lia|].
           intros i t' Ht. exact (A (S i) t' Ht).
      * split; [discriminate|]. intros [L A]. exfalso. destruct y as [|l0 y0]; [discriminate|].
        assert (None = Some y0); [|discriminate]. apply IH. split; [simpl in L; lia|].
        intros i t' Ht. exact (A (S i) t' Ht).
    + split; [discriminate|]. intros [L A]. specialize (A 0 t eq_refl). congruence.
Qed.

Lemma get_math_param_spec sym top (c : comps) y : get_math_param orc sym top c = Some y <->
  length y = length all_ctypes /\
  forall t, length (nth (ctype_idx t) y []) = length (c t) /\
    forall pos x, nth_error (c t) pos = Some x ->
      exists p, par_at orc sym top t pos x = Some p /\ entry y t pos = Some p.
Proof.
  unfold get_math_param. rewrite param_types_spec. split; intros [L A]; split; auto.
  - intros t. specialize (A _ _ (nth_ctypes t)). apply par_list_spec in A as [L' A]. split; auto.
  - intros i t Ht. assert (i = ctype_idx t) as ->.
    { pose proof (nth_ctypes t) as H. assert (ND := all_ctypes_NoDup). rewrite NoDup_nth_error in ND.
      apply ND; [|congruence]. apply nth_error_Some. congruence. }
    apply par_list_spec. destruct (A t) as [L' A']. split; auto.
Qed.

Local Arguments get_math_param : simpl never.
Local Arguments get_increment : simpl never.
Local Arguments apply_increment : simpl never.
Local Arguments restrict : simpl never.

(** [y] agrees with the components outside the changed positions. *)
Definition close (sym : bool) (top : T) (c : comps) (changed : ctype -> list nat) (y : list (list (option P))) : Prop :=
  length y = length all_ctypes /\
  forall t, length (nth (ctype_idx t) y []) = length (c t) /\
    (forall pos x, nth_error (c t) pos = Some x -> ~ In pos (changed t) ->
       exists p, par_at orc sym top t pos x = Some p /\ entry y t pos = Some p) /\
    (forall pos x q, nth_error (c t) pos = Some x -> par_at orc sym top t pos x = Some None ->
       entry y t pos = Some q -> q = None).

Lemma par_at_none_kind sym top t pos x x' :
  par_at orc sym top t pos x = Some None -> par_at orc sym top t pos x' = Some None.
Proof.
  unfold par_at. destruct (group_of orc top t pos); auto.
  destruct (key_of t x) eqn:E.
  - destruct (calc_par _ _ _ _ _); discriminate.
  - intros _. now rewrite (key_kind t x x' E).
Qed.
Lemma par_at_key sym top t pos x x' : key_of t x = key_of t x' -> par_at orc sym top t pos x = par_at orc sym top t pos x'.
Proof. unfold par_at. now intros ->. Qed.

Lemma full_close sym top c changed y : get_math_param orc sym top c = Some y -> close sym top c changed y.
Proof.
  intros H. apply get_math_param_spec in H as [L A]. split; auto. intros t. destruct (A t) as [L' A'].
  split; [|split]; auto. intros pos x q Hx HN HE. destruct (A' pos x Hx) as (p & Hp & He). congruence.
Qed.
Lemma close_full sym top c changed y : (forall t, changed t = []) -> close sym top c changed y ->
  get_math_param orc sym top c = Some y.
Proof.
  intros HC [L A]. apply get_math_param_spec. split; auto. intros t. destruct (A t) as (L' & A' & _). split; auto.
  intros pos x Hx. apply A'; auto. rewrite HC. auto.
Qed.

(** Increments *)
Definition inc_good (sym : bool) (top : T) (c : comps) (e : ctype * nat * option P) : Prop :=
  let '(t, pos, p) := e in exists x, nth_error (c t) pos = Some x /\ par_at orc sym top t pos x = Some p.

Lemma inc_positions_spec sym top (c : comps) t ps :
  match inc_positions orc sym top t (c t) ps with
  | Some inc => Forall (inc_good sym top c) inc /\
      (forall t' pos p, In (t', pos, p) inc -> t' = t /\ In pos ps) /\
      (forall pos x, In pos ps -> nth_error (c t) pos = Some x -> exists p, In (t, pos, p) inc)
  | None => exists pos x, In pos ps /\ nth_error (c t) pos = Some x /\ par_at orc sym top t pos x = None
  end.
Proof.
  induction ps as [|q ps IH]; simpl.
  - repeat split; auto; contradiction.
  - destruct (nth_error (c t) q) as [x|] eqn:Ex.
    + destruct (par_at orc sym top t q x) as [p|] eqn:Ep.
      * destruct (inc_positions orc sym top t (c t) ps) as [inc|].
        -- destruct IH as (A & B & C). repeat split.
           ++ constructor; auto. simpl. eauto.
           ++ destruct H as [H|H]; [congruence|]. now destruct (B _ _ _ H).
           ++ destruct H as [H|H]; [left; congruence|right]. now destruct (B _ _ _ H).
           ++ intros pos x' [<-|Hin] Hx'; [exists p; simpl; auto|]. destruct (C pos x' Hin Hx') as [p' Hp']. exists p'; simpl; auto.
        -- destruct IH as (pos & x' & A & B & C). exists pos, x'. auto.
      * exists q, x. auto.
    + destruct (inc_positions orc sym top t (c t) ps) as [inc|].
      * destruct IH as (A & B & C). repeat split; auto.
        -- now destruct (B _ _ _ H).
        -- right. now destruct (B _ _ _ H).
        -- intros pos x [<-|Hin] Hx; [congruence|]. eauto.
      * destruct IH as (pos & x & A & B & C). exists pos, x. auto.
Qed.

Lemma inc_types_spec sym top (c : comps) changed ts :
  match inc_types orc sym top c changed ts with
  | Some inc => Forall (inc_good sym top c) inc /\
      (forall t pos p, In (t, pos, p) inc -> In pos (changed t)) /\
      (forall t pos x, In t ts -> In pos (changed t) -> nth_error (c t) pos = Some x -> exists p, In (t, pos, p) inc)
  | None => exists t pos x, In pos (changed t) /\ nth_error (c t) pos = Some x /\ par_at orc sym top t pos x = None
  end.
Proof.
  induction ts as [|t ts IH]; simpl.
  - repeat split; auto; contradiction.
  - pose proof (inc_positions_spec sym top c t (changed t)) as HP.
    destruct (inc_positions orc sym top t (c t) (changed t)) as [a|].
    + destruct HP as (A & B & C). destruct (inc_types orc sym top c changed ts) as [b|].
      * destruct IH as (A' & B' & C'). repeat split.
        -- apply Forall_app; auto.
        -- intros t' pos p Hin. apply in_app_or in Hin as [Hin|Hin]; eauto. destruct (B _ _ _ Hin) as [-> ?]. auto.
        -- intros t' pos x [<-|Ht] Hin Hx.
           ++ destruct (C pos x Hin Hx) as [p Hp]. exists p. apply in_or_app; auto.
           ++ destruct (C' t' pos x Ht Hin Hx) as [p Hp]. exists p. apply in_or_app; auto.
      * exact IH.
    + destruct HP as (pos & x & ?). eauto.
Qed.

Lemma nth_upd_eq {A} i (x d : A) l : i < length l -> nth i (upd i x l) d = x.
Proof. intros H. apply nth_error_nth. now apply nth_error_upd_eq. Qed.
Lemma nth_upd_neq {A} i j (x d : A) l : i <> j -> nth j (upd i x l) d = nth j l d.
Proof.
  intros H. rewrite <- !nth_default_eq. unfold nth_default. now rewrite nth_error_upd_neq.
Qed.
Lemma apply_one_length (y : list (list (option P))) e : length (apply_one y e) = length y.
Proof. destruct e as [[t pos] [p|]]; simpl; auto using upd_length. Qed.
Lemma apply_length inc : forall y : list (list (option P)), length (apply_increment y inc) = length y.
Proof. induction inc as [|e inc IH]; intros y; simpl; auto. unfold apply_increment in *. simpl. rewrite IH. apply apply_one_length. Qed.
Lemma apply_one_row (y : list (list (option P))) e t : length y = length all_ctypes ->
  length (nth (ctype_idx t) (apply_one y e) []) = length (nth (ctype_idx t) y []).
Proof.
  intros HL. destruct e as [[t' pos] [p|]]; simpl; auto.
  pose proof (ctype_idx_bound t). destruct (Nat.eq_dec (ctype_idx t') (ctype_idx t)) as [E|E].
  - rewrite E, nth_upd_eq by lia. apply upd_length.
  - now rewrite nth_upd_neq.
Qed.
Lemma apply_one_entry y t' pos' p t pos : length y = length all_ctypes ->
  entry (apply_one y (t', pos', p)) t pos =
  match p with
  | Some _ => if ctype_eq_dec t' t then if (pos' =? pos) then (match entry y t pos with Some _ => Some p | None => None end)
                                        else entry y t pos else entry y t pos
  | None => entry y t pos
  end.
Proof.
  intros HL. destruct p as [p|]; [|reflexivity]. unfold entry, apply_one.
  destruct (ctype_eq_dec t' t) as [->|Hne].
  - rewrite nth_upd_eq by (rewrite HL; apply ctype_idx_bound).
    destruct (Nat.eqb_spec pos' pos) as [->|Hp].
    + destruct (nth_error (nth (ctype_idx t) y []) pos) eqn:E.
      * apply nth_error_upd_eq. apply nth_error_Some. congruence.
      * apply nth_error_None. rewrite upd_length. now apply nth_error_None.
    + now rewrite nth_error_upd_neq.
  - rewrite nth_upd_neq; auto. intros E. apply Hne, ctype_idx_inj; auto.
Qed.

(** Entries after an increment: entries that are good are applied. *)
Lemma apply_entries sym top (c : comps) inc : Forall (inc_good sym top c) inc -> forall y t pos x,
  length y = length all_ctypes -> nth_error (c t) pos = Some x ->
  entry (apply_increment y inc) t pos = entry y t pos \/
  (exists p, par_at orc sym top t pos x = Some (Some p) /\ entry (apply_increment y inc) t pos = Some (Some p)) .
Proof.
  induction inc as [|[[t' pos'] p] inc IH]; intros HF y t pos x HL Hx; [left; reflexivity|].
  inversion HF as [|? ? HG HF']; subst. unfold apply_increment in *. cbn [fold_left].
  destruct (IH HF' (apply_one y (t', pos', p)) t pos x) as [E|E]; auto.
  { rewrite apply_one_length; auto. }
  rewrite E. rewrite apply_one_entry by auto. destruct p as [p|]; auto.
  destruct (ctype_eq_dec t' t) as [->|]; auto. destruct (Nat.eqb_spec pos' pos) as [->|]; auto.
  destruct HG as (x' & Hx' & Hp). assert (x' = x) by congruence. subst.
  destruct (entry y t pos); auto. right. exists p. auto.
Qed.
Lemma apply_written sym top (c : comps) inc : Forall (inc_good sym top c) inc -> forall y t pos x p,
  length y = length all_ctypes -> nth_error (c t) pos = Some x -> entry y t pos <> None ->
  par_at orc sym top t pos x = Some (Some p) -> In (t, pos, Some p) inc ->
  entry (apply_increment y inc) t pos = Some (Some p).
Proof.
  induction inc as [|[[t' pos'] p'] inc IH]; intros HF y t pos x p HL Hx HE Hp Hin; [destruct Hin|].
  inversion HF as [|? ? HG HF']; subst. unfold apply_increment in *. cbn [fold_left].
  assert (HL' : length (apply_one y (t', pos', p')) = length all_ctypes) by (rewrite apply_one_length; auto).
  destruct Hin as [H|Hin].
  - injection H as -> -> ->.
    assert (E1 : entry (apply_one y (t, pos, Some p)) t pos = Some (Some p)).
    { rewrite apply_one_entry by auto. destruct (ctype_eq_dec t t); [|congruence]. rewrite Nat.eqb_refl.
      destruct (entry y t pos); congruence. }
    destruct (apply_entries sym top c inc HF' _ t pos x HL' Hx) as [E|(q & Hq & E)]; unfold apply_increment in *; congruence.
  - apply IH with (x := x); auto. rewrite apply_one_entry by auto.
    destruct p'; auto. destruct (ctype_eq_dec t' t); auto. destruct (pos' =? pos); auto. destruct (entry y t pos); congruence.
Qed.
Lemma apply_rows (y : list (list (option P))) inc t : length y = length all_ctypes ->
  length (nth (ctype_idx t) (apply_increment y inc) []) = length (nth (ctype_idx t) y []).
Proof.
  revert y; induction inc as [|e inc IH]; intros y HL; auto. unfold apply_increment in *. cbn [fold_left].
  rewrite IH, apply_one_row; auto. rewrite apply_one_length; auto.
Qed.

Lemma increment_is_full sym top c changed y : close sym top c changed y ->
  match get_increment orc sym top c changed with
  | Some inc => get_math_param orc sym top c = Some (apply_increment y inc)
  | None => get_math_param orc sym top c = None
  end.
Proof.
  intros [L A]. unfold get_increment. pose proof (inc_types_spec sym top c changed all_ctypes) as HI.
  destruct (inc_types orc sym top c changed all_ctypes) as [inc|].
  - destruct HI as (G & _ & HC). apply get_math_param_spec. split; [now rewrite apply_length|].
    intros t. destruct (A t) as (L' & A1 & A2). split; [now rewrite apply_rows|].
    intros pos x Hx.
    assert (HE : entry y t pos <> None).
    { unfold entry. apply nth_error_Some. rewrite L'. apply nth_error_Some. congruence. }
    destruct (in_dec Nat.eq_dec pos (changed t)) as [Hin|Hn].
    + destruct (HC t pos x (all_ctypes_In t) Hin Hx) as [p Hp].
      rewrite Forall_forall in G. pose proof (G _ Hp) as (x' & Hx' & Hpar). assert (x' = x) by congruence; subst.
      exists p. split; auto. rewrite <- Forall_forall in G. destruct p as [p|].
      * eapply apply_written; eauto.
      * destruct (apply_entries sym top c inc G y t pos x L Hx) as [E|(q & Hq & E)]; [|congruence].
        rewrite E. destruct (entry y t pos) as [q|] eqn:Eq; [|congruence]. f_equal. eapply A2; eauto.
    + destruct (A1 pos x Hx Hn) as (p & Hp & He). exists p. split; auto.
      destruct (apply_entries sym top c inc G y t pos x L Hx) as [E|(q & Hq & E)]; congruence.
  - destruct HI as (t & pos & x & _ & Hx & HN).
    destruct (get_math_param orc sym top c) as [y'|] eqn:E; auto. exfalso.
    apply get_math_param_spec in E as [_ E]. destruct (E t) as [_ E']. destruct (E' pos x Hx) as (p & Hp & _). congruence.
Qed.

(** ** The invariant *)

Definition topo_of (c : comps) : T := build_topo orc (connections_of c).

Definition Inv (c : comps) (k : cache) : Prop :=
  topo_valid k = true ->
  topo_cache k = Some (topo_of c) /\
  (forall m, par_valid k m = true -> exists y, ybus k m = Some y /\ get_math_param orc m (topo_of c) c = Some y) /\
  (forall m y, prev_mode k = Some m -> ybus k m = Some y -> close m (topo_of c) c (changed_idx k) y) /\
  (forall m, n_solvers k m = match ybus k m with None => 0 | Some _ => n_math orc (topo_of c) end).

Lemma Inv_invalid c k : topo_valid k = false -> Inv c k.
Proof. intros H H'. congruence. Qed.

Lemma fresh_Inv c : Inv c fresh_cache.
Proof. apply Inv_invalid. reflexivity. Qed.

Lemma map_app_eq {A B} (f : A -> B) l l' : map f l = map f l' -> length l = length l'.
Proof. intros H. rewrite <- (map_length f l), H. apply map_length. Qed.

Lemma connections_ext c c' : (forall t, map (conn_key t) (c' t) = map (conn_key t) (c t)) ->
  connections_of c' = connections_of c.
Proof.
  intros H. unfold connections_of.
  assert (HB : forall (f : list bool -> bool * bool) t (g : comp t -> bool * bool),
    (forall x, g x = f (conn_key t x)) -> map g (c' t) = map g (c t)).
  { intros f t g Hg. rewrite (map_ext _ _ Hg), <- (map_map (conn_key t) f), H, map_map. symmetry. now apply map_ext. }
  assert (H3 : forall (f : list bool -> bool * bool * bool) t (g : comp t -> bool * bool * bool),
    (forall x, g x = f (conn_key t x)) -> map g (c' t) = map g (c t)).
  { intros f t g Hg. rewrite (map_ext _ _ Hg), <- (map_map (conn_key t) f), H, map_map. symmetry. now apply map_ext. }
  assert (H1 : forall (f : list bool -> bool) t (g : comp t -> bool),
    (forall x, g x = f (conn_key t x)) -> map g (c' t) = map g (c t)).
  { intros f t g Hg. rewrite (map_ext _ _ Hg), <- (map_map (conn_key t) f), H, map_map. symmetry. now apply map_ext. }
  set (f2 := fun l : list bool => match l with a :: b :: _ => (a, b) | _ => (false, false) end).
  set (f3 := fun l : list bool => match l with a :: b :: d :: _ => (a, b, d) | _ => (false, false, false) end).
  set (f1 := fun l : list bool => match l with a :: _ => a | _ => false end).
  f_equal.
  - apply f_equal2; [exact (HB f2 Line _ (fun _ => eq_refl))|].
    apply f_equal2; [exact (HB f2 AsymLine _ (fun _ => eq_refl))|].
    apply f_equal2; [exact (HB f2 Link _ (fun _ => eq_refl))|].
    apply f_equal2; [exact (HB f2 GenericBranch _ (fun _ => eq_refl))|].
    exact (HB f2 Transformer _ (fun _ => eq_refl)).
  - exact (H3 f3 ThreeWindingTransformer _ (fun _ => eq_refl)).
  - exact (H1 f1 Source _ (fun _ => eq_refl)).
Qed.

(** Components change outside of no or some recorded positions. *)
Lemma close_kept sym top c c' ch ch' y :
  (forall t, keys_kept t (c t) (c' t) (ch' t)) -> (forall t, incl (ch t) (ch' t)) ->
  close sym top c ch y -> close sym top c' ch' y.
Proof.
  intros HK HI [L A]. split; auto. intros t. destruct (A t) as (L' & A1 & A2). destruct (HK t) as [HL HKt].
  assert (HX : forall pos x', nth_error (c' t) pos = Some x' -> exists x, nth_error (c t) pos = Some x).
  { intros pos x' Hx'. destruct (nth_error (c t) pos) eqn:E; eauto. apply nth_error_None in E.
    rewrite <- HL in E. apply nth_error_None in E. congruence. }
  split; [congruence|]. split.
  - intros pos x' Hx' Hn. destruct (HX _ _ Hx') as [x Hx].
    destruct (A1 pos x Hx) as (p & Hp & He). { intros Hin. apply Hn. apply HI; auto. }
    exists p. split; auto. rewrite <- Hp. apply par_at_key. now apply HKt with (pos := pos).
  - intros pos x' q Hx' HN HE. destruct (HX _ _ Hx') as [x Hx]. apply (A2 pos x q Hx); auto.
    eapply par_at_none_kind; eauto.
Qed.
Lemma full_kept sym top c c' : (forall t, keys_kept t (c t) (c' t) []) ->
  get_math_param orc sym top c' = get_math_param orc sym top c.
Proof.
  intros HK. destruct (get_math_param orc sym top c) as [y|] eqn:E.
  - apply (close_full sym top c' (fun _ => [])); auto.
    apply (close_kept sym top c c' (fun _ => []) (fun _ => [])); auto. { intros t; apply incl_refl. }
    now apply full_close.
  - destruct (get_math_param orc sym top c') as [y|] eqn:E'; auto. rewrite <- E. symmetry.
    apply (close_full sym top c (fun _ => [])); auto.
    apply (close_kept sym top c' c (fun _ => []) (fun _ => [])); auto.
    + intros t. destruct (HK t) as [HL HKt]. split; auto. intros pos x x' Hx Hx' _. symmetry. eapply HKt; eauto.
    + intros t; apply incl_refl.
    + now apply full_close.
Qed.

Lemma Inv_change c c' k ch (l : ctype -> list nat) :
  (forall t, keys_kept t (c t) (c' t) (l t)) ->
  (topo ch = false -> forall t, map (conn_key t) (c' t) = map (conn_key t) (c t)) ->
  (topo ch = true -> param ch = true) ->
  (param ch = false -> forall t, l t = []) ->
  forall ci, (forall t, incl (changed_idx k t) (ci t) /\ incl (l t) (ci t)) ->
  Inv c k -> Inv c' (cache_update (set_changed k ci) ch).
Proof.
  intros HK HC HTP HP ci Hci HI. unfold cache_update. cbn [topo_valid set_changed].
  destruct (topo ch || negb (topo_valid k))%bool eqn:E; [now apply Inv_invalid|].
  apply Bool.orb_false_iff in E as [ET EV]. apply Bool.negb_false_iff in EV. specialize (HI EV).
  specialize (HC ET). destruct HI as (I1 & I2 & I3 & I4).
  assert (EC : connections_of c' = connections_of c) by now apply connections_ext.
  assert (ET' : topo_of c' = topo_of c) by (unfold topo_of; now rewrite EC).
  assert (HK' : forall t, keys_kept t (c t) (c' t) (ci t)).
  { intros t. destruct (HK t) as [HL HKt]. split; auto. intros pos x x' Hx Hx' Hn. eapply HKt; eauto.
    intros Hin. apply Hn. now apply Hci. }
  assert (HCL : forall m y, prev_mode k = Some m -> ybus k m = Some y -> close m (topo_of c) c' ci y).
  { intros m y Hm Hy. apply (close_kept m (topo_of c) c c' (changed_idx k) ci); auto. intros t; apply Hci. }
  destruct (param ch) eqn:EP; intros _; cbn; rewrite ET'.
  - refine (conj I1 (conj _ (conj HCL I4))). discriminate.
  - refine (conj I1 (conj _ (conj HCL I4))). intros m Hm. destruct (I2 m Hm) as (y & Hy & Hg).
    exists y. split; auto. rewrite <- Hg. apply full_kept. intros t. specialize (HK t). now rewrite (HP eq_refl t) in HK.
Qed.

(** One component type. *)
Lemma tset_kept t (c : comps) v' (l : list nat) : keys_kept t (c t) v' l ->
  forall t', keys_kept t' (c t') (tset c t v' t') (tset (F := fun _ => list nat) (fun _ => []) t l t').
Proof.
  intros H t'. destruct (ctype_eq_dec t t') as [<-|Hne].
  - now rewrite !tset_eq.
  - rewrite !tset_neq by auto. apply keys_kept_refl.
Qed.

Lemma fault_no_change (us : list (comp_upd Fault)) : forall sq v, vr_change (update_vec Fault v us sq) = no_change.
Proof.
  induction us as [|u us IH]; intros sq v; cbn [update_vec]; auto. destruct sq as [|i sq]; auto. destruct (nth_error v i) as [c|]; auto.
  assert (EC : snd (fst (update Fault c u)) = no_change) by (cbn [update]; unfold fault_update; now destruct (set_status1 _ _)).
  destruct (update Fault c u) as [[c' ch] ex]. cbn [fst snd] in EC. subst ch. destruct ex; cbn [vr_change]; auto.
  rewrite IH. reflexivity.
Qed.
Lemma update_component_Inv cached t us sq (st st' : mm) o : update_component cached t us sq st = (st', o) -> o <> UB ->
  Inv (m_comps st) (m_cache st) -> Inv (m_comps st') (m_cache st').
Proof.
  intros H HO HI. unfold update_component in H.
  destruct (if cached then inverse_vec t (m_comps st t) us sq else Some []) as [inv|]; [|injection H as <- <-; congruence].
  set (r := update_vec t (m_comps st t) us sq) in *.
  assert (HU : vr_out r <> UB) by (destruct (vr_out r); injection H as <- <-; congruence).
  destruct (update_vec_keys t us sq (m_comps st t) HU) as (K1 & K2 & K3 & K4). fold r in K1, K2, K3, K4.
  set (l := tset (F := fun _ => list nat) (fun _ => []) t (vr_changed r)).
  assert (HH : forall ch, (topo ch = topo (vr_change r)) -> (param ch = param (vr_change r)) ->
     Inv (tset (m_comps st) t (vr_vec r)) (cache_update (add_changed (m_cache st) t (vr_changed r)) ch)).
  { intros ch Et Ep. unfold add_changed. apply Inv_change with (c := m_comps st) (l := l); auto.
    - now apply tset_kept.
    - intros E t'. rewrite Et in E. destruct (ctype_eq_dec t t') as [<-|Hne]; [rewrite tset_eq; auto|now rewrite tset_neq].
    - rewrite Et, Ep. auto.
    - intros E t'. rewrite Ep in E. unfold l. destruct (ctype_eq_dec t t') as [<-|Hne]; [rewrite tset_eq; auto|now rewrite tset_neq].
    - intros t'. unfold l. destruct (ctype_eq_dec t t') as [<-|Hne].
      + rewrite !tset_eq. split; [apply incl_appl|apply incl_appr]; apply incl_refl.
      + rewrite !tset_neq by auto. split; [apply incl_refl|intros x []]. }
  destruct (vr_out r) eqn:EO; injection H as <- <-; cbn [m_comps m_cache].
  - apply HH; auto.
  - (* Throw: a fault, nothing recorded *)
    assert (t = Fault) as ->.
    { destruct (ctype_eq_dec t Fault); auto. destruct (update_vec_out t us sq (m_comps st t) n) as [E|E]; fold r in E; congruence. }
    assert (EP : forall us' sq' v, vr_change (update_vec Fault v us' sq') = no_change).
    { intros. apply fault_no_change. }
    pose proof (EP us sq (m_comps st Fault)) as EP'. fold r in EP'.
    specialize (HH no_change). rewrite EP' in HH. specialize (HH eq_refl eq_refl).
    unfold cache_update in HH. cbn [topo no_change param orb] in HH. intros HV. cbn [topo_valid add_changed set_changed] in HV.
    rewrite (eq_refl : topo_valid (add_changed (m_cache st) Fault (vr_changed r)) = topo_valid (m_cache st)), HV in HH.
    cbn [negb] in HH. exact (HH eq_refl).
  - congruence.
Qed.

Lemma update_components_Inv cached us sq (st st' : mm) o : update_components cached us sq st = (st', o) -> o <> UB ->
  Inv (m_comps st) (m_cache st) -> Inv (m_comps st') (m_cache st').
Proof.
  unfold update_components. generalize all_ctypes as l. intros l. revert st.
  induction l as [|t l IH]; simpl; intros st H HO HI; [now injection H as <- <-|].
  destruct (update_component cached t (us t) (sq t) st) as [s1 o1] eqn:E1.
  destruct o1; [|injection H as <- <-|injection H as <- <-; congruence].
  - apply (IH s1); auto. eapply update_component_Inv; eauto. discriminate.
  - eapply update_component_Inv; eauto.
Qed.

Lemma restore_components_Inv sq (st st' : mm) o : restore_components sq st = (st', o) -> o <> UB ->
  Inv (m_comps st) (m_cache st) -> Inv (m_comps st') (m_cache st').
Proof.
  intros H HO HI. unfold restore_components in H.
  destruct (for_types (restore_component sq) all_ctypes st) as [s o'] eqn:E.
  assert (HS : o' <> UB -> Inv (m_comps s) (m_cache s)).
  { clear H. revert st HI E. generalize all_ctypes as l. induction l as [|t l IH]; simpl; intros st HI E HO'.
    - now injection E as <- <-.
    - destruct (restore_component sq t st) as [s1 o1] eqn:E1.
      assert (HI1 : o1 <> UB -> Inv (m_comps s1) (m_cache s1)).
      { intros Ho1. unfold restore_component in E1. destruct (m_inv st t) as [|u us]; [now injection E1 as <- <-|].
        destruct (update_component false t (u :: us) (sq t) st) as [s2 o2] eqn:E2.
        destruct o2; injection E1 as <- <-; cbn [m_comps m_cache].
        - eapply update_component_Inv; eauto.
        - eapply update_component_Inv; eauto.
        - congruence. }
      destruct o1; [|injection E as <- <-; auto|injection E as <- <-; congruence].
      apply (IH s1); auto. apply HI1. discriminate. }
  destruct o'.
  - injection H as <- <-. cbn [m_comps m_cache]. specialize (HS ltac:(discriminate)).
    assert (X : forall k ch, Inv (m_comps s) k -> Inv (m_comps s) (cache_update k ch)).
    { intros k ch HK. unfold cache_update. destruct (topo ch || negb (topo_valid k))%bool eqn:EB; [now apply Inv_invalid|].
      apply Bool.orb_false_iff in EB as [_ EV]. apply Bool.negb_false_iff in EV. destruct (HK EV) as (I1 & I2 & I3 & I4).
      destruct (param ch); intros _; cbn; refine (conj I1 (conj _ (conj I3 I4))); auto. discriminate. }
    now apply X.
  - injection H as <- <-. apply HS. discriminate.
  - injection H as <- <-. congruence.
Qed.

Lemma bset_eq {A} (f : bool -> A) b v : bset f b v b = v.
Proof. unfold bset. now rewrite Bool.eqb_reflx. Qed.
Lemma bset_neq {A} (f : bool -> A) b v b' : b <> b' -> bset f b v b' = f b'.
Proof. unfold bset. destruct (Bool.eqb b b') eqn:E; auto. apply Bool.eqb_prop in E. congruence. Qed.

Lemma notify_fields sym hit (k : cache) :
  topo_valid (notify sym hit k) = topo_valid k /\ par_valid (notify sym hit k) = par_valid k /\
  prev_mode (notify sym hit k) = prev_mode k /\ changed_idx (notify sym hit k) = changed_idx k /\
  topo_cache (notify sym hit k) = topo_cache k /\ ybus (notify sym hit k) = ybus k /\
  n_solvers (notify sym hit k) = n_solvers k /\ fact (notify sym hit k) = fact k /\ own_cb (notify sym hit k) = own_cb k.
Proof. unfold notify. destruct (own_cb k sym); repeat split; auto. Qed.

(** After the topology step. *)
Lemma rebuild_Inv c k : Inv c k ->
  let k' := if topo_valid k then k else rebuild_topology orc c k in topo_valid k' = true /\ Inv c k'.
Proof.
  intros HI. destruct (topo_valid k) eqn:E; [auto|]. split; [reflexivity|].
  intros _. cbn. refine (conj eq_refl (conj _ (conj _ _))); try discriminate. auto.
Qed.

(** The last step of prepare_solvers. *)
Definition finish (sym : bool) (k : cache) : cache :=
  mkCache (topo_valid k) (bset (par_valid k) sym true) (Some sym) (fun _ => [])
          (topo_cache k) (ybus k) (n_solvers k) (fact k) (dirty k) (own_cb k).
Definition params_ready (sym : bool) (c : comps) (k : cache) : Prop :=
  topo_valid k = true /\ topo_cache k = Some (topo_of c) /\
  (exists y, ybus k sym = Some y /\ get_math_param orc sym (topo_of c) c = Some y) /\
  (forall m, m <> sym -> par_valid k m = true -> exists y, ybus k m = Some y /\ get_math_param orc m (topo_of c) c = Some y) /\
  (forall m, n_solvers k m = match ybus k m with None => 0 | Some _ => n_math orc (topo_of c) end).
Lemma finish_Inv sym c k : params_ready sym c k -> Inv c (finish sym k).
Proof.
  intros (V & T' & (y & Hy & Hf) & P' & N) _. cbn. refine (conj T' (conj _ (conj _ N))).
  - intros m Hm. destruct (Bool.bool_dec sym m) as [<-|Hne]; [eauto|]. rewrite bset_neq in Hm by auto. apply P'; auto.
  - intros m y' Hm Hy'. injection Hm as <-. apply full_close. congruence.
Qed.

(** After prepare_y_bus. *)
Definition y_bus_ready (sym : bool) (c : comps) (k0 k1 : cache) : Prop :=
  (k1 = k0 /\ ybus k0 sym <> None) \/
  (exists y, k1 = set_ybus k0 sym y /\ get_math_param orc sym (topo_of c) c = Some y /\
             (ybus k0 sym = None \/ n_math orc (topo_of c) = 0)).
Lemma prepare_y_bus_spec sym c k0 :
  match prepare_y_bus orc sym c (topo_of c) k0 with
  | None => get_math_param orc sym (topo_of c) c = None
  | Some k1 => y_bus_ready sym c k0 k1
  end.
Proof.
  unfold prepare_y_bus, y_bus_ready. destruct (Nat.eqb_spec (n_math orc (topo_of c)) 0) as [E|E].
  - destruct (get_math_param _ _ _ _) as [y|]; auto. right. exists y. auto.
  - destruct (ybus k0 sym) eqn:Ey; [left; split; congruence|].
    destruct (get_math_param _ _ _ _) as [y|]; auto. right. exists y. auto.
Qed.

(** The solvers are complete or created, the parameters are up to date. *)
Lemma step_ready sym c k0 k1 : topo_valid k0 = true -> Inv c k0 -> y_bus_ready sym c k0 k1 ->
  match (if negb (n_math orc (topo_of c) =? n_solvers k1 sym) then Some (create_solvers sym (n_math orc (topo_of c)) k1)
         else if negb (par_valid k1 sym) then refresh_y_bus orc sym c (topo_of c) k1
         else Some k1) with
  | None => get_math_param orc sym (topo_of c) c = None /\ k1 = k0
  | Some k2 => params_ready sym c k2
  end.
Proof.
  intros V0 I0 HR. destruct (I0 V0) as (I1 & I2 & I3 & I4). set (top := topo_of c) in *. set (n := n_math orc top) in *.
  (* facts about k1 *)
  assert (F : topo_valid k1 = true /\ topo_cache k1 = Some top /\ par_valid k1 = par_valid k0 /\ prev_mode k1 = prev_mode k0 /\
    changed_idx k1 = changed_idx k0 /\ n_solvers k1 = n_solvers k0 /\ (forall m, m <> sym -> ybus k1 m = ybus k0 m) /\
    exists y, ybus k1 sym = Some y /\
      ((k1 = k0 /\ n_solvers k0 sym = n) \/ (get_math_param orc sym top c = Some y /\ (n_solvers k0 sym = 0)))).
  { destruct HR as [[-> HY]|(y & -> & Hg & HN)].
    - repeat split; auto. destruct (ybus k0 sym) as [y|] eqn:Ey; [|congruence]. exists y. split; auto. left. split; auto.
      rewrite I4, Ey. reflexivity.
    - cbn. repeat split; auto. { intros m Hm. apply bset_neq. auto. }
      exists y. rewrite bset_eq. split; auto. right. split; auto. rewrite I4. destruct HN as [->|HN]; auto.
      destruct (ybus k0 sym); auto. }
  destruct F as (V1 & T1 & P1 & M1 & C1 & N1 & O1 & y1 & Y1 & HY1). rewrite N1, P1.
  assert (HO : forall m, m <> sym -> par_valid k0 m = true ->
    exists y, ybus k1 m = Some y /\ get_math_param orc m top c = Some y).
  { intros m Hm Hp. rewrite O1; auto. }
  assert (HN : n = n_solvers k0 sym -> forall m, n_solvers k1 m = match ybus k1 m with None => 0 | Some _ => n end).
  { intros E m. rewrite N1. destruct (Bool.bool_dec m sym) as [->|Hm]; [now rewrite Y1|rewrite O1; auto]. }
  destruct (Nat.eqb_spec n (n_solvers k0 sym)) as [En|En]; cbn [negb].
  2:{ (* create *) destruct HY1 as [[_ E]|[Hf E]]; [congruence|].
      unfold params_ready. cbn. refine (conj V1 (conj T1 (conj _ (conj _ _)))); eauto.
      - intros m Hm. rewrite P1. auto.
      - intros m. destruct (Bool.bool_dec sym m) as [<-|Hm]; [now rewrite bset_eq, Y1|].
        rewrite bset_neq by auto. rewrite N1, O1; auto. }
  specialize (HN En).
  destruct (par_valid k0 sym) eqn:EP; cbn [negb].
  { (* valid *) refine (conj V1 (conj T1 (conj _ (conj _ HN)))).
    - exists y1. split; auto. destruct HY1 as [[-> _]|[Hf _]]; auto. destruct (I2 sym EP) as (y & Hy & Hg). fold top; congruence.
    - intros m Hm. rewrite P1. auto. }
  (* refresh *)
  assert (RD : forall y hit, get_math_param orc sym top c = Some y -> params_ready sym c (notify sym hit (set_ybus k1 sym y))).
  { intros y hit Hf. destruct (notify_fields sym hit (set_ybus k1 sym y)) as (E1 & E2 & _ & _ & E5 & E6 & E7 & _).
    unfold params_ready. rewrite E1, E5, E2, E6, E7. cbn. refine (conj V1 (conj T1 (conj _ (conj _ _)))).
    - exists y. rewrite bset_eq. auto.
    - intros m Hm. rewrite P1, bset_neq by auto. auto.
    - intros m. destruct (Bool.bool_dec sym m) as [<-|Hm]; [rewrite bset_eq, N1; auto|]. now rewrite bset_neq. }
  unfold refresh_y_bus. rewrite M1, C1, Y1. destruct (prev_mode k0) as [m|] eqn:EM; cbn.
  - destruct (Bool.eqb m sym) eqn:Em; cbn.
    + apply Bool.eqb_prop in Em. subst m.
      assert (CL : close sym top c (changed_idx k0) y1).
      { destruct HY1 as [[E _]|[Hf _]]; [|now apply full_close]. apply I3; auto. rewrite <- Y1. now rewrite E. }
      pose proof (increment_is_full _ _ _ _ _ CL) as HI.
      destruct (get_increment orc sym top c (changed_idx k0)) as [inc|]; [now apply RD|].
      split; auto. destruct HY1 as [[E _]|[Hf _]]; [auto|congruence].
    + destruct (get_math_param orc sym top c) as [y|] eqn:E; [now apply RD|]. split; auto.
      destruct HY1 as [[E' _]|[Hf _]]; [auto|congruence].
  - destruct (get_math_param orc sym top c) as [y|] eqn:E; [now apply RD|]. split; auto.
    destruct HY1 as [[E' _]|[Hf _]]; [auto|congruence].
Qed.

Lemma prepare_spec sym c k : Inv c k ->
  let k0 := if topo_valid k then k else rebuild_topology orc c k in
  let k' := fst (prepare_solvers orc sym c k) in
  let o := snd (prepare_solvers orc sym c k) in
  Inv c k' /\
  match get_math_param orc sym (topo_of c) c with
  | None => o = Throw NotImplementedError /\ k' = k0
  | Some y =>
      o = match check_valid orc c with Some e => Throw e | None => Fine end /\
      topo_cache k' = Some (topo_of c) /\ ybus k' sym = Some y /\
      exists k1 k2, y_bus_ready sym c k0 k1 /\ k' = finish sym k2 /\
        Some k2 = (if negb (n_math orc (topo_of c) =? n_solvers k1 sym) then Some (create_solvers sym (n_math orc (topo_of c)) k1)
         else if negb (par_valid k1 sym) then refresh_y_bus orc sym c (topo_of c) k1
         else Some k1)
  end.
Proof.
  intros HI k0. unfold prepare_solvers. fold k0. destruct (rebuild_Inv c k HI) as [V0 I0]. fold k0 in V0, I0.
  rewrite (proj1 (I0 V0)).
  pose proof (prepare_y_bus_spec sym c k0) as HY. destruct (prepare_y_bus orc sym c (topo_of c) k0) as [k1|].
  2:{ cbn. rewrite HY. auto. }
  pose proof (step_ready sym c k0 k1 V0 I0 HY) as HS.
  set (x := if negb (n_math orc (topo_of c) =? n_solvers k1 sym) then Some (create_solvers sym (n_math orc (topo_of c)) k1)
         else if negb (par_valid k1 sym) then refresh_y_bus orc sym c (topo_of c) k1
         else Some k1) in *.
  destruct x as [k2|] eqn:Ex; subst x.
  - pose proof (finish_Inv sym c k2 HS) as HF. destruct HS as (_ & T2 & (y & Hy & Hf) & _). rewrite Hf.
    fold (finish sym k2). destruct (check_valid orc c); cbn [fst snd]; (split; [exact HF|]); refine (conj eq_refl (conj T2 (conj Hy _)));
      exists k1, k2; auto.
  - destruct HS as [HN E]. cbn. rewrite HN. subst k1. auto.
Qed.

(** ** The factorised matrices *)

Definition InvF (k : cache) : Prop :=
  (forall m, own_cb k m = true) /\
  (topo_valid k = true -> forall top, topo_cache k = Some top ->
   (forall m y g f, g < n_math orc top -> ybus k m = Some y -> fact k m g = Some f -> dirty k m g = false ->
      f = restrict orc top g y /\ prefactor orc m top g f = None) /\
   ((exists m y, ybus k m = Some y) -> changed_idx k Source = [])).

Lemma fresh_InvF : InvF fresh_cache.
Proof. split; [reflexivity|discriminate]. Qed.

Lemma restrict_list_upd top g t p l : forall k pos, group_of orc top t (k + pos) <> Some g ->
  restrict_list orc top g t k (upd pos p l) = restrict_list orc top g t k l.
Proof.
  induction l as [|a l IH]; intros k [|pos] H; simpl; auto.
  - rewrite Nat.add_0_r in H. destruct (group_of orc top t k) as [g'|]; auto. destruct (Nat.eqb_spec g' g); congruence.
  - f_equal. apply IH. now rewrite Nat.add_succ_comm.
Qed.
Lemma restrict_types_upd top g l' : forall ts i y,
  (forall t, nth_error ts i = Some t -> restrict_list orc top g t 0 l' = restrict_list orc top g t 0 (nth i y [])) ->
  restrict_types orc top g ts (upd i l' y) = restrict_types orc top g ts y.
Proof.
  induction ts as [|t ts IH]; intros i y H; destruct y as [|l y], i as [|i]; simpl; auto.
  - f_equal. apply (H t eq_refl).
  - f_equal. apply IH. intros t' Ht'. apply (H t' Ht').
Qed.
Lemma restrict_apply top g inc : (forall t pos p, In (t, pos, p) inc -> t <> Source) -> affected orc top inc g = false ->
  forall y, restrict orc top g (apply_increment y inc) = restrict orc top g y.
Proof.
  unfold affected, restrict, apply_increment. induction inc as [|[[t pos] p] inc IH]; intros HS HA y; auto.
  cbn [fold_left existsb] in *. apply Bool.orb_false_iff in HA as [HA1 HA2]. rewrite IH; [|intros; eapply HS; right; eauto|auto].
  destruct p as [p|]; auto. unfold apply_one. apply restrict_types_upd. intros t' Ht'.
  assert (t' = t) as -> by (pose proof (nth_ctypes t); congruence).
  apply restrict_list_upd. cbn [Nat.add].
  assert (HG : match group_of orc top t pos with Some g' => (g' =? g) | None => false end = false).
  { pose proof (HS t pos (Some p) (or_introl eq_refl)). revert HA1. unfold entry_affected. destruct t; try congruence; auto. }
  destruct (group_of orc top t pos) as [g'|]; [|congruence]. intros E; injection E as ->. now rewrite Nat.eqb_refl in HG.
Qed.

Lemma rebuild_InvF c k : InvF k -> InvF (if topo_valid k then k else rebuild_topology orc c k).
Proof.
  intros [H1 H2]. destruct (topo_valid k) eqn:E; [split; auto; congruence|]. split; auto. intros _ top Ht. cbn. split.
  - discriminate.
  - intros (m & y & H). discriminate.
Qed.

Lemma prepare_InvF sym c k : Inv c k -> InvF k -> InvF (fst (prepare_solvers orc sym c k)).
Proof.
  intros HI HF. pose proof (rebuild_InvF c k HF) as HF0. destruct (rebuild_Inv c k HI) as [V0 I0].
  destruct (prepare_spec sym c k HI) as [_ HP]. cbn zeta in *.
  set (k0 := if topo_valid k then k else rebuild_topology orc c k) in *.
  destruct (get_math_param orc sym (topo_of c) c) as [y|] eqn:EG.
  2:{ destruct HP as [_ ->]. auto. }
  destruct HP as (_ & _ & Hy & k1 & k2 & HR & -> & HK2).
  destruct (I0 V0) as (T0 & I2 & I3 & I4). destruct HF0 as [OC HF0]. specialize (HF0 V0 _ T0).
  set (top := topo_of c) in *. set (n := n_math orc top) in *.
  assert (OC1 : own_cb k1 = own_cb k0) by (destruct HR as [[-> _]|(? & -> & _)]; auto).
  assert (Hfin : own_cb k2 = own_cb k0 \/ (forall m, own_cb k2 m = true) ->
    (topo_cache k2 = Some top -> forall m y0 g f, g < n -> ybus k2 m = Some y0 -> fact k2 m g = Some f -> dirty k2 m g = false ->
      f = restrict orc top g y0 /\ prefactor orc m top g f = None) -> topo_cache k2 = Some top -> InvF (finish sym k2)).
  { intros HO HH HT. split; cbn.
    - destruct HO as [->|HO]; auto.
    - intros _ top' Ht'. assert (top' = top) as -> by congruence. split; auto. }
  destruct (Nat.eqb_spec n (n_solvers k1 sym)) as [En|En]; cbn [negb] in HK2.
  2:{ injection HK2 as ->. apply Hfin.
      - right. intros m. cbn. destruct (Bool.bool_dec sym m) as [<-|Hm]; [now rewrite bset_eq|rewrite bset_neq, OC1; auto].
      - intros _ m y0 g f Hg Hy0. cbn. destruct (Bool.bool_dec sym m) as [<-|Hm]; [rewrite bset_eq; discriminate|].
        rewrite !bset_neq by auto. destruct HR as [[-> _]|(y' & -> & _)].
        + cbn in Hy0. apply HF0; auto.
        + cbn in Hy0 |- *. rewrite bset_neq in Hy0 by auto. apply HF0; auto.
      - destruct HR as [[-> _]|(y' & -> & _)]; auto. }
  destruct HR as [[-> HY]|(y' & -> & _ & HN)].
  2:{ (* no sub-grids *)
      cbn in En. rewrite I4 in En. fold n in En. assert (n = 0) as N0.
      { destruct HN as [HN|HN]; auto. rewrite HN in En. auto. }
      apply Hfin; try lia.
      - left. destruct (negb (par_valid _ _)); [|injection HK2 as ->; auto]. unfold refresh_y_bus in HK2.
        repeat match goal with H : Some _ = match ?x with _ => _ end |- _ => destruct x; try discriminate end;
        injection HK2 as ->; try reflexivity; destruct (notify_fields sym (affected orc top l) (set_ybus (set_ybus k0 sym y') sym (apply_increment p l))) as (_&_&_&_&_&_&_&_&->) || destruct (notify_fields sym (fun _ => true) (set_ybus (set_ybus k0 sym y') sym p)) as (_&_&_&_&_&_&_&_&->); reflexivity.
      - destruct (negb (par_valid _ _)); [|injection HK2 as ->; auto]. unfold refresh_y_bus in HK2.
        repeat match goal with H : Some _ = match ?x with _ => _ end |- _ => destruct x; try discriminate end;
        injection HK2 as ->; try exact T0; destruct (notify_fields sym (affected orc top l) (set_ybus (set_ybus k0 sym y') sym (apply_increment p l))) as (_&_&_&_&->&_&_&_&_) || destruct (notify_fields sym (fun _ => true) (set_ybus (set_ybus k0 sym y') sym p)) as (_&_&_&_&->&_&_&_&_); exact T0. }
  destruct (par_valid k0 sym) eqn:EP; cbn [negb] in HK2.
  { injection HK2 as ->. apply Hfin; auto. intros _. apply HF0. }
  destruct (ybus k0 sym) as [y1|] eqn:EY; [|congruence].
  assert (HS : changed_idx k0 Source = []) by (apply HF0; eauto).
  assert (HNt : forall hit y2, (forall g, g < n -> hit g = false -> restrict orc top g y2 = restrict orc top g y1) ->
     k2 = notify sym hit (set_ybus k0 sym y2) -> InvF (finish sym k2)).
  { intros hit y2 Hh ->. apply Hfin; unfold notify; cbn [own_cb set_ybus]; rewrite OC; cbn.
    - left; auto.
    - intros _ m y0 g f Hg. destruct (Bool.bool_dec sym m) as [<-|Hm].
      + rewrite !bset_eq. intros E; injection E as <-. intros Hf Hd. apply Bool.orb_false_iff in Hd as [Hd1 Hd2].
        rewrite (Hh g Hg Hd1). eapply (proj1 HF0); eauto.
      + rewrite !bset_neq by auto. apply HF0; auto.
    - auto. }
  unfold refresh_y_bus in HK2.
  destruct (match prev_mode k0 with Some m => Bool.eqb m sym | None => false end).
  - destruct (get_increment orc sym top c (changed_idx k0)) as [inc|] eqn:EI; [|discriminate]. rewrite EY in HK2.
    injection HK2 as E. apply (HNt (affected orc top inc) (apply_increment y1 inc)); auto. intros g _ Ha.
    apply restrict_apply; auto. unfold get_increment in EI.
    pose proof (inc_types_spec sym top c (changed_idx k0) all_ctypes) as HI'. rewrite EI in HI'. destruct HI' as (_ & HI' & _).
    intros t pos p Hin ->. apply HI' in Hin. rewrite HS in Hin. destruct Hin.
  - rewrite EG in HK2. injection HK2 as E. apply (HNt (fun _ => true) y); auto. discriminate.
Qed.

(** ** One calculation *)

Lemma Inv_facts_irrelevant c (k : cache) fa di :
  Inv c k -> Inv c (mkCache (topo_valid k) (par_valid k) (prev_mode k) (changed_idx k) (topo_cache k) (ybus k) (n_solvers k) fa di (own_cb k)).
Proof. intros H. exact H. Qed.

Lemma matrix_for_Inv sym top g y opts k c : Inv c k -> Inv c (fst (matrix_for orc sym top g y opts k)).
Proof.
  intros H. unfold matrix_for. destruct (uses_fact _ _ _ _); auto. destruct (if dirty k sym g then None else fact k sym g); auto.
  destruct (prefactor _ _ _ _ _); auto.
Qed.
Lemma solve_groups_Inv sym top y c' c opts gs : forall k, Inv c k -> Inv c (fst (solve_groups orc sym top y c' opts gs k)).
Proof.
  induction gs as [|g gs IH]; intros k H; simpl; auto.
  pose proof (matrix_for_Inv sym top g y opts k c H) as HM. destruct (matrix_for orc sym top g y opts k) as [k1 [m|e]]; auto.
  destruct (solve _ _ _ _ _ _ _); auto. cbn [fst] in HM. specialize (IH k1 HM).
  destruct (solve_groups _ _ _ _ _ _ _ _) as [k2 [rs|e]]; auto.
Qed.

Lemma solve_groups_plain sym top y c opts gs : (forall g, uses_fact orc top g opts = false) -> forall k,
  snd (solve_groups orc sym top y c opts gs k) = solve_all orc sym top y c opts gs.
Proof.
  intros HU. induction gs as [|g gs IH]; intros k; simpl; auto. unfold matrix_for. rewrite HU.
  destruct (solve _ _ _ _ _ _ _); auto. cbn [bind]. rewrite <- (IH k).
  destruct (solve_groups _ _ _ _ _ _ _ _) as [k2 [rs|e]]; auto.
Qed.

Lemma matrix_for_spec sym top g y opts k : InvF k -> topo_valid k = true -> topo_cache k = Some top -> ybus k sym = Some y ->
  g < n_math orc top ->
  let k' := fst (matrix_for orc sym top g y opts k) in
  InvF k' /\ topo_valid k' = true /\ topo_cache k' = Some top /\ ybus k' sym = Some y /\
  snd (matrix_for orc sym top g y opts k) =
    match (if uses_fact orc top g opts then prefactor orc sym top g (restrict orc top g y) else None) with
    | Some e => Err e | None => Ok (restrict orc top g y) end.
Proof.
  intros HF HV HT HY Hg. unfold matrix_for. destruct (uses_fact orc top g opts); [|refine (conj HF (conj HV (conj HT (conj HY eq_refl))))].
  destruct (if dirty k sym g then None else fact k sym g) as [f|] eqn:EF.
  - destruct (dirty k sym g) eqn:ED; [discriminate|]. destruct (proj1 (proj2 HF HV top HT) sym y g f Hg HY EF ED) as [-> Hp].
    cbn. rewrite Hp. refine (conj HF (conj HV (conj HT (conj HY eq_refl)))).
  - destruct (prefactor orc sym top g (restrict orc top g y)) as [e|] eqn:EPF; cbn [fst snd].
    + refine (conj HF (conj HV (conj HT (conj HY eq_refl)))).
    + refine (conj _ (conj HV (conj HT (conj HY eq_refl)))). destruct HF as [OC HF]. split; auto.
      intros _ top' Ht'. cbn in *. assert (top' = top) as -> by congruence. destruct (HF HV top HT) as [HF1 HF2]. split; auto.
      intros m y0 g' f Hg' Hy0. destruct (Bool.bool_dec sym m) as [<-|Hm].
      * rewrite !bset_eq. destruct (Nat.eqb_spec g' g) as [->|].
        -- intros E _. injection E as <-. assert (y0 = y) by congruence. subst. auto.
        -- apply HF1; auto.
      * rewrite !bset_neq by auto. apply HF1; auto.
Qed.
Lemma solve_groups_spec sym top y c opts gs : (forall g, In g gs -> g < n_math orc top) -> forall k,
  InvF k -> topo_valid k = true -> topo_cache k = Some top -> ybus k sym = Some y ->
  InvF (fst (solve_groups orc sym top y c opts gs k)) /\
  snd (solve_groups orc sym top y c opts gs k) = solve_all orc sym top y c opts gs.
Proof.
  induction gs as [|g gs IH]; intros HG k HF HV HT HY; simpl; auto.
  destruct (matrix_for_spec sym top g y opts k HF HV HT HY (HG g (or_introl eq_refl))) as (HF' & HV' & HT' & HY' & HM).
  destruct (matrix_for orc sym top g y opts k) as [k1 [m|e]]; cbn [fst snd] in *.
  - destruct (if uses_fact orc top g opts then prefactor orc sym top g (restrict orc top g y) else None); [discriminate|].
    injection HM as ->. destruct (solve _ _ _ _ _ _ _); auto. cbn [bind].
    destruct (IH (fun g' H => HG g' (or_intror H)) k1 HF' HV' HT' HY') as [A B]. rewrite <- B.
    destruct (solve_groups orc sym top y c opts gs k1) as [k2 [rs|e]]; auto.
  - destruct (if uses_fact orc top g opts then prefactor orc sym top g (restrict orc top g y) else None); [|discriminate].
    split; auto. congruence.
Qed.

Lemma calculate_Inv opts (st : mm) : Inv (m_comps st) (m_cache st) ->
  Inv (m_comps (fst (calculate orc opts st))) (m_cache (fst (calculate orc opts st))) /\
  m_comps (fst (calculate orc opts st)) = m_comps st /\ m_inv (fst (calculate orc opts st)) = m_inv st.
Proof.
  intros HI. unfold calculate. destruct (check_opts orc opts (m_comps st)); auto.
  set (sym := sym_of orc opts (m_comps st)). destruct (prepare_spec sym (m_comps st) (m_cache st) HI) as [HI' _]. cbn zeta in HI'.
  destruct (prepare_solvers orc sym (m_comps st) (m_cache st)) as [k [|e|]]; cbn [fst] in HI'; auto.
  destruct (topo_cache k) as [top|]; auto. destruct (ybus k sym) as [y|]; auto.
  pose proof (solve_groups_Inv sym top y (m_comps st) (m_comps st) opts (seq 0 (n_math orc top)) k HI') as HS.
  destruct (solve_groups _ _ _ _ _ _ _ _) as [k' r]; auto.
Qed.

Lemma calculate_plain opts (st : mm) : Inv (m_comps st) (m_cache st) ->
  (forall top g, uses_fact orc top g opts = false) ->
  snd (calculate orc opts st) = Some (pure_calculation orc opts (m_comps st)).
Proof.
  intros HI HU. unfold calculate, pure_calculation. destruct (check_opts orc opts (m_comps st)); auto.
  set (sym := sym_of orc opts (m_comps st)). destruct (prepare_spec sym (m_comps st) (m_cache st) HI) as [_ HP]. cbn zeta in HP.
  fold (topo_of (m_comps st)).
  destruct (prepare_solvers orc sym (m_comps st) (m_cache st)) as [k o]; cbn [fst snd] in HP.
  destruct (get_math_param orc sym (topo_of (m_comps st)) (m_comps st)) as [y|].
  - destruct HP as (-> & HT & HY & _). destruct (check_valid orc (m_comps st)); auto. rewrite HT, HY.
    rewrite <- (solve_groups_plain sym (topo_of (m_comps st)) y (m_comps st) opts _ (HU _) k).
    destruct (solve_groups _ _ _ _ _ _ _ _) as [k' r]; auto.
  - destruct HP as [-> _]. auto.
Qed.

Lemma calculate_fact opts (st : mm) : Inv (m_comps st) (m_cache st) -> InvF (m_cache st) ->
  snd (calculate orc opts st) = Some (pure_calculation orc opts (m_comps st)) /\ InvF (m_cache (fst (calculate orc opts st))).
Proof.
  intros HI HF. unfold calculate, pure_calculation. destruct (check_opts orc opts (m_comps st)); auto.
  set (sym := sym_of orc opts (m_comps st)). destruct (prepare_spec sym (m_comps st) (m_cache st) HI) as [_ HP]. cbn zeta in HP.
  pose proof (prepare_InvF sym (m_comps st) (m_cache st) HI HF) as HF1.
  fold (topo_of (m_comps st)).
  destruct (prepare_solvers orc sym (m_comps st) (m_cache st)) as [k o]; cbn [fst snd] in HP, HF1.
  destruct (rebuild_Inv _ _ HI) as [V0 _].
  destruct (get_math_param orc sym (topo_of (m_comps st)) (m_comps st)) as [y|].
  - destruct HP as (-> & HT & HY & k1 & k2 & HR & Ek & HK2). destruct (check_valid orc (m_comps st)); auto. rewrite HT, HY.
    assert (HV : topo_valid k = true).
    { subst k. cbn.
      assert (V1 : topo_valid k1 = true) by (destruct HR as [[-> _]|(? & -> & _)]; auto).
      destruct (negb (_ =? _)); [injection HK2 as ->; auto|]. destruct (negb _); [|injection HK2 as ->; auto].
      unfold refresh_y_bus in HK2.
      repeat match goal with H : Some _ = match ?x with _ => _ end |- _ => destruct x; try discriminate end;
      injection HK2 as ->; auto;
      match goal with |- topo_valid (notify ?a ?b ?c) = true => destruct (notify_fields a b c) as (-> & _) end; auto. }
    destruct (solve_groups_spec sym (topo_of (m_comps st)) y (m_comps st) opts (seq 0 (n_math orc (topo_of (m_comps st)))) ltac:(intros g Hg; apply in_seq in Hg; lia) k HF1 HV HT HY) as [A B].
    rewrite <- B. destruct (solve_groups _ _ _ _ _ _ _ _) as [k' r]; auto.
  - destruct HP as [-> _]. auto.
Qed.

(** ** Histories *)

Lemma step_Inv (st st' : mm) o : step orc st o = Some st' ->
  Inv (m_comps st) (m_cache st) -> Inv (m_comps st') (m_cache st').
Proof.
  destruct o as [cached us sq|sq|opts]; simpl; intros H HI.
  - destruct (update_components cached us sq st) as [s o] eqn:E.
    assert (o <> UB /\ s = st') as [Ho <-] by (destruct o; try discriminate; injection H as <-; split; congruence).
    eapply update_components_Inv; eauto.
  - destruct (restore_components sq st) as [s o] eqn:E.
    assert (o <> UB /\ s = st') as [Ho <-] by (destruct o; try discriminate; injection H as <-; split; congruence).
    eapply restore_components_Inv; eauto.
  - pose proof (calculate_Inv opts st HI) as [HC _]. destruct (calculate orc opts st) as [s [r|]]; [|discriminate].
    injection H as <-. exact HC.
Qed.
Lemma run_Inv ops : forall (st st' : mm), run orc st ops = Some st' ->
  Inv (m_comps st) (m_cache st) -> Inv (m_comps st') (m_cache st').
Proof.
  induction ops as [|o ops IH]; simpl; intros st st' H HI; [now injection H as <-|].
  destruct (step orc st o) as [s|] eqn:E; [|discriminate]. apply (IH s); auto. eapply step_Inv; eauto.
Qed.

(** Histories without source impedance records. *)
Definition InvS (st : mm) : Prop := InvF (m_cache st) /\ Forall no_source_impedance (m_inv st Source).

Lemma inverse_no_impedance us : Forall no_source_impedance us -> forall v sq l, inverse_vec Source v us sq = Some l ->
  Forall no_source_impedance l.
Proof.
  induction us as [|u us IH]; intros HF v sq l H; cbn [inverse_vec] in H.
  - injection H as <-. constructor.
  - inversion HF as [|? ? (H1 & H2 & H3) HF']; subst. destruct sq as [|i sq]; [discriminate|].
    destruct (nth_error v i) as [c|]; [|discriminate]. destruct (inverse_vec Source v us sq) as [l'|] eqn:E; [|discriminate].
    injection H as <-. constructor; [|eapply IH; eauto].
    unfold no_source_impedance. cbn [inverse source_inverse sou_sk sou_rx sou_z01]. unfold set_if_sym. now rewrite H1, H2, H3.
Qed.
Lemma update_vec_source us : Forall no_source_impedance us -> forall v sq,
  param (vr_change (update_vec Source v us sq)) = topo (vr_change (update_vec Source v us sq)).
Proof.
  induction us as [|u us IH]; intros HF v sq; cbn [update_vec]; auto. destruct sq as [|i sq]; auto.
  destruct (nth_error v i) as [c|]; auto. inversion HF as [|? ? H1 HF']; subst.
  pose proof (source_no_impedance c u H1) as HP. unfold uch in HP.
  destruct (update Source c u) as [[c' ch] ex]. cbn [fst snd] in HP. destruct ex; auto.
  cbn [vr_change]. unfold change_or. cbn [param topo]. rewrite IH, HP; auto.
Qed.

Lemma cache_update_InvF k ch : InvF k -> InvF (cache_update k ch).
Proof.
  intros [H1 H2]. unfold cache_update. destruct (topo ch || negb (topo_valid k))%bool eqn:E; [split; auto; discriminate|].
  apply Bool.orb_false_iff in E as [_ EV]. apply Bool.negb_false_iff in EV.
  destruct (param ch); (split; [exact H1|]); intros _; apply H2; auto.
Qed.

Lemma add_nothing_InvF k t l : InvF k -> (t = Source -> l = []) -> InvF (add_changed k t l).
Proof.
  intros [H1 H2] HL. split; [exact H1|]. cbn. intros HV top HT. destruct (H2 HV top HT) as [A B]. split; [exact A|].
  intros HE. destruct (ctype_eq_dec t Source) as [->|Hne].
  - rewrite tset_eq, (B HE), (HL eq_refl). reflexivity.
  - rewrite tset_neq; auto.
Qed.

Lemma update_other_InvS cached t us sq (st st' : mm) o : t <> Source -> update_component cached t us sq st = (st', o) -> o <> UB ->
  InvS st -> InvS st'.
Proof.
  intros Hne H HO [HF HM]. unfold update_component in H.
  destruct (if cached then inverse_vec t (m_comps st t) us sq else Some []) as [inv|]; [|injection H as <- <-; congruence].
  pose proof (add_nothing_InvF (m_cache st) t (vr_changed (update_vec t (m_comps st t) us sq)) HF ltac:(congruence)) as HF'.
  destruct (vr_out _); injection H as <- <-; (split; cbn; [auto using cache_update_InvF|rewrite tset_neq; auto]).
Qed.
Lemma update_source_InvS cached us sq (st st' : mm) o : Forall no_source_impedance us ->
  update_component cached Source us sq st = (st', o) -> o <> UB -> InvS st -> InvS st'.
Proof.
  intros HS H HO [HF HM]. unfold update_component in H.
  destruct (if cached then inverse_vec Source (m_comps st Source) us sq else Some []) as [inv|] eqn:EI; [|injection H as <- <-; congruence].
  set (r := update_vec Source (m_comps st Source) us sq) in *.
  assert (HU : vr_out r <> UB) by (destruct (vr_out r); injection H as <- <-; congruence).
  destruct (update_vec_keys Source us sq (m_comps st Source) HU) as (_ & _ & _ & K4). fold r in K4.
  pose proof (update_vec_source us HS (m_comps st Source) sq) as HP. fold r in HP.
  destruct (update_vec_out Source us sq (m_comps st Source) ltac:(discriminate)) as [E|E]; fold r in E; [|congruence].
  rewrite E in H. injection H as <- <-. split; cbn [m_inv m_cache].
  - destruct (topo (vr_change r)) eqn:ET.
    + unfold cache_update. rewrite ET. cbn. destruct HF as [H1 _]. split; [exact H1|discriminate].
    + apply cache_update_InvF, add_nothing_InvF; auto.
  - rewrite tset_eq. apply Forall_app. split; auto. destruct cached; [exact (inverse_no_impedance us HS _ _ _ EI)|].
    assert (inv = []) as -> by congruence. constructor.
Qed.

Lemma step_InvS (st st' : mm) o : step orc st o = Some st' -> leaves_source_impedance o ->
  Inv (m_comps st) (m_cache st) -> InvS st -> InvS st'.
Proof.
  destruct o as [cached us sq|sq|opts]; simpl; intros H HL HI HS.
  - destruct (update_components cached us sq st) as [s o] eqn:E.
    assert (o <> UB /\ s = st') as [Ho <-] by (destruct o; try discriminate; injection H as <-; split; congruence).
    clear H HI. revert st HS E. unfold update_components. generalize all_ctypes as l.
    induction l as [|t l IH]; simpl; intros st HS E; [now injection E as <- <-|].
    destruct (update_component cached t (us t) (sq t) st) as [s1 o1] eqn:E1.
    assert (HS1 : o1 <> UB -> InvS s1).
    { intros Ho1. destruct (ctype_eq_dec t Source) as [->|Hne]; [eapply update_source_InvS; eauto|eapply update_other_InvS; eauto]. }
    destruct o1; [apply (IH s1); auto; apply HS1; discriminate|injection E as <- <-; auto|injection E as <- <-; congruence].
  - destruct (restore_components sq st) as [s o] eqn:E.
    assert (o <> UB /\ s = st') as [Ho <-] by (destruct o; try discriminate; injection H as <-; split; congruence).
    unfold restore_components in E. destruct (for_types (restore_component sq) all_ctypes st) as [s1 o1] eqn:E1.
    assert (HS1 : o1 <> UB -> InvS s1).
    { clear H HI E Ho. revert st HS E1. generalize all_ctypes as l.
      induction l as [|t l IH]; simpl; intros st HS E Ho; [now injection E as <- <-|].
      destruct (restore_component sq t st) as [s2 o2] eqn:E2.
      assert (HS2 : o2 <> UB -> InvS s2).
      { intros Ho2. unfold restore_component in E2. destruct (m_inv st t) as [|u us] eqn:EM; [now injection E2 as <- <-|].
        destruct (update_component false t (u :: us) (sq t) st) as [s3 o3] eqn:E3.
        assert (HS3 : o3 <> UB -> InvS s3).
        { intros Ho3. destruct (ctype_eq_dec t Source) as [->|Hne]; [|eapply update_other_InvS; eauto].
          refine (update_source_InvS false _ _ _ _ _ _ E3 Ho3 HS). destruct HS as [_ HB]. now rewrite EM in HB. }
        destruct o3; injection E2 as <- <-; [|auto|congruence]. specialize (HS3 ltac:(discriminate)) as [HA HB]. split; cbn; auto.
        destruct (ctype_eq_dec t Source) as [->|Hne]; [rewrite tset_eq; constructor|rewrite tset_neq; auto]. }
      destruct o2; [apply (IH s2); auto; apply HS2; discriminate|injection E as <- <-; auto|injection E as <- <-; congruence]. }
    destruct o1; injection E as <- <-; [|auto|congruence]. specialize (HS1 ltac:(discriminate)) as [HA HB]. split; cbn; auto.
    now apply cache_update_InvF.
  - pose proof (calculate_Inv opts st HI) as (_ & _ & HM). destruct HS as [HF HB]. pose proof (calculate_fact opts st HI HF) as [_ HF'].
    destruct (calculate orc opts st) as [s [r|]]; [|discriminate]. injection H as <-. split; auto. cbn [fst] in HM. now rewrite HM.
Qed.
Lemma run_InvS ops : forall (st st' : mm), run orc st ops = Some st' -> Forall leaves_source_impedance ops ->
  Inv (m_comps st) (m_cache st) -> InvS st -> InvS st'.
Proof.
  induction ops as [|o ops IH]; simpl; intros st st' H HF HI HS; [now injection H as <-|].
  destruct (step orc st o) as [s|] eqn:E; [|discriminate]. inversion HF; subst.
  apply (IH s); auto; [eapply step_Inv; eauto|eapply step_InvS; eauto].
Qed.

Lemma fresh_ok c : Inv (m_comps (fresh_mm (T := T) (P := P) c)) (m_cache (fresh_mm c)) /\ InvS (fresh_mm c).
Proof. split; [apply fresh_Inv|]. split; [apply fresh_InvF|constructor]. Qed.
End Facts.
