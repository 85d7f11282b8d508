(** The loops of the sparse LU solver, refined to matrices as functions. *)
From Coq Require Import Sorting.Sorted.
From Verif Require Import Common YBusSpec YBusProps YBusFlow SparseLU SparseLUSpec.

(** ** loops *)
Lemma for_range_inv {S} (I : nat -> S -> Prop) lo hi body s : lo <= hi -> I lo s ->
  (forall i s, lo <= i < hi -> I i s -> exists s', body i s = Done s' /\ I (Datatypes.S i) s') ->
  exists s', for_range lo hi body s = Done s' /\ I hi s'.
Proof.
  unfold for_range. intros Hle H0 HS. remember (hi - lo) as m eqn:Em. revert lo s Hle H0 HS Em.
  induction m as [|m IH]; intros lo s Hle H0 HS Em; cbn [seq fold_left].
  - exists s. split; auto. now replace hi with lo by lia.
  - destruct (HS lo s) as (s1 & E1 & H1); [lia|auto|]. cbn [bind]. rewrite E1. apply IH; [lia|auto| |lia]. intros i s' Hi. apply HS. lia.
Qed.
Lemma fold_bind_stop {S} (body : nat -> S -> res S) l r : (forall s, r <> Done s) -> fold_left (fun r i => bind r (body i)) l r = r.
Proof. revert r. induction l as [|i l IH]; intros r Hr; cbn [fold_left]; auto. destruct r; [exfalso; eapply Hr; eauto|apply IH; discriminate|apply IH; discriminate]. Qed.
(** as before, where a step may find a singular pivot *)
Lemma for_range_inv_or {S} (I : nat -> S -> Prop) lo hi body s : lo <= hi -> I lo s ->
  (forall i s, lo <= i < hi -> I i s -> body i s = Singular \/ exists s', body i s = Done s' /\ I (Datatypes.S i) s') ->
  for_range lo hi body s = Singular \/ exists s', for_range lo hi body s = Done s' /\ I hi s'.
Proof.
  unfold for_range. intros Hle H0 HS. remember (hi - lo) as m eqn:Em. revert lo s Hle H0 HS Em.
  induction m as [|m IH]; intros lo s Hle H0 HS Em; cbn [seq fold_left].
  - right. exists s. split; auto. now replace hi with lo by lia.
  - destruct (HS lo s) as [E1|(s1 & E1 & H1)]; [lia|auto| |].
    + left. cbn [bind]. rewrite E1. apply fold_bind_stop. discriminate.
    + cbn [bind]. rewrite E1. apply IH; [lia|auto| |lia]. intros i s' Hi. apply HS. lia.
Qed.
(** a loop that stops stops at some step *)
Lemma for_range_stop {S} (I : nat -> S -> Prop) lo hi body s : lo <= hi -> I lo s ->
  (forall i s, lo <= i < hi -> I i s -> body i s = Singular \/ exists s', body i s = Done s' /\ I (Datatypes.S i) s') ->
  for_range lo hi body s = Singular -> exists i s', lo <= i < hi /\ I i s' /\ body i s' = Singular.
Proof.
  unfold for_range. intros Hle H0 HS. remember (hi - lo) as m eqn:Em. revert lo s Hle H0 HS Em.
  induction m as [|m IH]; intros lo s Hle H0 HS Em; cbn [seq fold_left]; [discriminate|].
  destruct (HS lo s) as [E1|(s1 & E1 & H1)]; [lia|auto| |].
  - intros _. exists lo, s. split; [lia|auto].
  - cbn [bind]. rewrite E1. intros E. destruct (IH (Datatypes.S lo) s1) as (i & s' & Hi & H); auto; [lia|intros i s' Hi; apply HS; lia|lia|].
    exists i, s'. split; [lia|auto].
Qed.
Lemma get_Some {A} (l : list A) i x : nth_error l i = Some x -> get l i = Done x.
Proof. unfold get. now intros ->. Qed.
Lemma put_lt {A} i (x : A) l : i < length l -> put i x l = Done (upd i x l).
Proof. unfold put. intros H. destruct (Nat.ltb_spec i (length l)); [auto|lia]. Qed.

(** ** compressed rows *)
Section Csr.
Variables (n : nat) (ip cs : list nat).
Hypothesis ok : csr n ip cs.
Notation at_ := (csr_at ip cs).

Lemma ip_sorted a b x y : a <= b -> nth_error ip a = Some x -> nth_error ip b = Some y -> x <= y.
Proof.
  intros Hab Hx Hy. destruct (Nat.eq_dec a b) as [->|Hn]; [replace y with x by congruence; lia|].
  pose proof (csr_sorted _ _ _ ok) as HS. clear ok. revert a b x y Hab Hx Hy Hn. induction HS as [|z l HS IH HF]; intros a b x y Hab Hx Hy Hn; [now destruct a|].
  destruct a as [|a], b as [|b]; try lia.
  - injection Hx as <-. rewrite Forall_forall in HF. apply HF. exact (nth_error_In l b Hy).
  - simpl in Hx, Hy. apply (IH a b); auto; lia.
Qed.
Lemma ip_get i : i <= n -> exists x, nth_error ip i = Some x.
Proof. intros H. destruct (nth_error ip i) eqn:E; eauto. apply nth_error_None in E. rewrite (csr_length _ _ _ ok) in E. lia. Qed.
Lemma ip_le i x : nth_error ip i = Some x -> x <= length cs.
Proof.
  intros H. assert (i < length ip) by (apply nth_error_Some; congruence). rewrite (csr_length _ _ _ ok) in H0.
  apply (ip_sorted i n x (length cs)); [lia|auto|exact (csr_last _ _ _ ok)].
Qed.
Lemma at_row e i j : at_ e i j -> i < n.
Proof. intros (_ & lo & hi & _ & Hh & _). assert (S i < length ip) by (apply nth_error_Some; congruence). rewrite (csr_length _ _ _ ok) in H. lia. Qed.
Lemma at_col e i j : at_ e i j -> j < n.
Proof. intros (H & _). apply (csr_range _ _ _ ok). exact (nth_error_In _ _ H). Qed.
Lemma at_len e i j : at_ e i j -> e < length cs.
Proof. intros (H & _). apply nth_error_Some. congruence. Qed.
Lemma at_fun e i j i' j' : at_ e i j -> at_ e i' j' -> i = i' /\ j = j'.
Proof.
  intros (H & lo & hi & Hl & Hh & He) (H' & lo' & hi' & Hl' & Hh' & He'). split; [|congruence].
  destruct (Nat.lt_trichotomy i i') as [Hi|[Hi|Hi]]; auto.
  - pose proof (ip_sorted (S i) i' hi lo' Hi Hh Hl'). lia.
  - pose proof (ip_sorted (S i') i hi' lo Hi Hh' Hl). lia.
Qed.
Lemma at_inj e e' i j : at_ e i j -> at_ e' i j -> e = e'.
Proof.
  intros H H'. destruct (Nat.lt_trichotomy e e') as [Hl|[Hl|Hl]]; auto.
  - pose proof (csr_increasing _ _ _ ok _ _ _ _ _ H H' Hl). lia.
  - pose proof (csr_increasing _ _ _ ok _ _ _ _ _ H' H Hl). lia.
Qed.
(** an index inside a row is an entry of that row *)
Lemma at_of e i lo hi : nth_error ip i = Some lo -> nth_error ip (S i) = Some hi -> lo <= e < hi -> exists j, at_ e i j /\ nth_error cs e = Some j.
Proof.
  intros Hl Hh He. pose proof (ip_le _ _ Hh). destruct (nth_error cs e) as [j|] eqn:Ej; [|apply nth_error_None in Ej; lia].
  exists j. split; auto. split; auto. exists lo, hi. auto.
Qed.
Lemma at_lt e e' i j j' : at_ e i j -> at_ e' i j' -> (e < e' <-> j < j').
Proof.
  intros H H'. split; [exact (csr_increasing _ _ _ ok _ _ _ _ _ H H')|].
  intros Hj. destruct (Nat.lt_trichotomy e e') as [Hl|[->|Hl]]; auto.
  - destruct (at_fun _ _ _ _ _ H H'). lia.
  - pose proof (csr_increasing _ _ _ ok _ _ _ _ _ H' H Hl). lia.
Qed.
End Csr.

Section Refine.
Context {T V Q : Type} (o : block_ops T V Q) (a : block_algebra T V Q) (law : block_laws o a).
Variables (n : nat) (pt : pattern).
Hypothesis ok : pattern_ok n pt.
Notation at_ := (csr_at (indptr pt) (cols pt)).
Notation has i j := (exists e, at_ e i j).
Local Notation C := (pk_csr _ _ ok).

Lemma size_n : size pt = n.
Proof. unfold size. rewrite (csr_length _ _ _ C). lia. Qed.
Lemma diag_at i : i < n -> exists e, nth_error (diag pt) i = Some e /\ at_ e i i.
Proof.
  intros H. destruct (pk_diag _ _ ok) as [H1 H2]. destruct (nth_error (diag pt) i) as [e|] eqn:E; [eauto|]. apply nth_error_None in E. lia.
Qed.

(** the data holds F at every entry *)
Definition holds (data : list T) (F : nat -> nat -> T) : Prop :=
  length data = length (cols pt) /\ forall e i j, at_ e i j -> nth_error data e = Some (F i j).
Lemma holds_get data F e i j : holds data F -> at_ e i j -> get data e = Done (F i j).
Proof. intros [_ H] He. apply get_Some. auto. Qed.
Definition set2 (i j : nat) (x : T) (F : nat -> nat -> T) : nat -> nat -> T := fun i' j' => if (i' =? i) && (j' =? j) then x else F i' j'.
Lemma holds_put data F e i j x : holds data F -> at_ e i j -> exists data', put e x data = Done data' /\ holds data' (set2 i j x F).
Proof.
  intros [HL H] He. pose proof (at_len _ _ _ _ _ He). rewrite put_lt by lia. eexists. split; [reflexivity|]. split; [now rewrite upd_length|].
  intros e' i' j' He'. unfold set2. destruct (Nat.eq_dec e' e) as [->|Hn].
  - destruct (at_fun _ _ _ C _ _ _ _ _ He' He) as [-> ->]. rewrite !Nat.eqb_refl. simpl. apply nth_error_upd_eq. lia.
  - rewrite nth_error_upd_neq by auto. rewrite (H _ _ _ He').
    destruct (Nat.eqb_spec i' i) as [->|]; [|reflexivity]. destruct (Nat.eqb_spec j' j) as [->|]; [|reflexivity].
    exfalso. apply Hn. exact (at_inj _ _ _ C _ _ _ _ He' He).
Qed.
Lemma holds_ext data F G : (forall i j, has i j -> F i j = G i j) -> holds data F -> holds data G.
Proof. intros H [HL HF]. split; auto. intros e i j He. rewrite (HF _ _ _ He), H; eauto. Qed.

(** position [lu_pos i] is the first entry of row i whose column is at least [c i] *)
Definition pos_is (c : nat -> nat) (pos : list nat) : Prop := length pos = n /\
  forall i, i < n -> exists x lo hi, nth_error pos i = Some x /\ nth_error (indptr pt) i = Some lo /\ nth_error (indptr pt) (S i) = Some hi /\ lo <= x <= hi /\
    forall e j, at_ e i j -> (e < x <-> j < c i).
Lemma pos_ext c c' pos : (forall i j, has i j -> (j < c i <-> j < c' i)) -> pos_is c pos -> pos_is c' pos.
Proof.
  intros H [HL HP]. split; auto. intros i Hi. destruct (HP i Hi) as (x & lo & hi & E1 & E2 & E3 & E4 & E5). exists x, lo, hi.
  refine (conj E1 (conj E2 (conj E3 (conj E4 _)))). intros e j He. rewrite (E5 e j He). apply H. eauto.
Qed.
Lemma pos_get c pos i e : pos_is c pos -> at_ e i (c i) -> get pos i = Done e.
Proof.
  intros [_ HP] He. pose proof (at_row _ _ _ C _ _ _ He) as Hi. destruct (HP i Hi) as (x & lo & hi & E1 & E2 & E3 & E4 & E5).
  apply get_Some. rewrite E1. f_equal. assert (~ e < x) by (rewrite (E5 _ _ He); lia).
  destruct (Nat.eq_dec x e) as [|Hn]; auto. exfalso. destruct He as (Hc & lo' & hi' & Hl & Hh & Hr).
  assert (lo' = lo) by congruence. assert (hi' = hi) by congruence. subst.
  destruct (at_of _ _ _ C x i lo hi E2 E3) as (j & Hx & _); [lia|].
  assert (He : at_ e i (c i)) by (split; [exact Hc|exists lo, hi; auto]).
  assert (j < c i) by (apply (at_lt _ _ _ C _ _ _ _ _ Hx He); lia). apply (E5 _ _ Hx) in H0. lia.
Qed.
Lemma pos_put c pos i e : pos_is c pos -> at_ e i (c i) -> exists pos', put i (S e) pos = Done pos' /\ pos_is (fun k => if k =? i then S (c i) else c k) pos'.
Proof.
  intros HP He. pose proof (at_row _ _ _ C _ _ _ He) as Hi. destruct HP as [HL HP]. rewrite put_lt by lia. eexists. split; [reflexivity|].
  split; [now rewrite upd_length|]. intros k Hk. destruct (HP k Hk) as (x & lo & hi & E1 & E2 & E3 & E4 & E5).
  destruct (Nat.eqb_spec k i) as [->|Hn].
  - exists (S e), lo, hi. rewrite nth_error_upd_eq by lia. refine (conj eq_refl (conj E2 (conj E3 _))).
    pose proof He as (_ & lo' & hi' & Hl & Hh & Hr). assert (lo' = lo) by congruence. assert (hi' = hi) by congruence. subst. split; [lia|].
    intros e' j He'. pose proof (at_lt _ _ _ C _ _ _ _ _ He He') as H. destruct (Nat.eq_dec e e') as [<-|Hn].
    + destruct (at_fun _ _ _ C _ _ _ _ _ He He') as [_ <-]. lia.
    + pose proof (at_lt _ _ _ C _ _ _ _ _ He' He). assert (j <> c i). { intros ->. apply Hn. exact (at_inj _ _ _ C _ _ _ _ He He'). } lia.
  - exists x, lo, hi. rewrite nth_error_upd_neq by auto. auto.
Qed.

(** columns of the entries between two indices *)
Definition among (lo b j : nat) : bool := existsb (fun e => nth e (cols pt) 0 =? j) (seq lo (b - lo)).
Lemma among_first lo j : among lo lo j = false.
Proof. unfold among. now rewrite Nat.sub_diag. Qed.
Lemma among_next lo b j c : lo <= b -> nth_error (cols pt) b = Some c -> among lo (S b) j = among lo b j || (c =? j).
Proof.
  intros H Hc. unfold among. replace (S b - lo) with (S (b - lo)) by lia. rewrite seq_S, existsb_app. cbn [existsb]. rewrite orb_false_r.
  replace (lo + (b - lo)) with b by lia. now rewrite (nth_error_nth _ _ _ Hc).
Qed.
Lemma among_iff lo b j : among lo b j = true -> exists e, lo <= e < b /\ nth e (cols pt) 0 = j.
Proof. unfold among. intros H. apply existsb_exists in H as (e & He & E). apply in_seq in He. apply Nat.eqb_eq in E. exists e. split; [lia|auto]. Qed.
Lemma among_at lo b i j e : at_ e i j -> lo <= e < b -> among lo b j = true.
Proof.
  intros (H & _) He. unfold among. apply existsb_exists. exists e. split; [apply in_seq; lia|]. rewrite (nth_error_nth _ _ _ H). apply Nat.eqb_refl.
Qed.
Lemma among_new i lo b j e : at_ e i j -> (exists x, nth_error (indptr pt) i = Some x /\ x <= lo) -> b <= e -> among lo b j = false.
Proof.
  intros He (x & Hx & Hlo) Hb. destruct (among lo b j) eqn:E; auto. exfalso. apply among_iff in E as (e' & He' & Hj).
  pose proof He as (Hc & lo' & hi' & Hl & Hh & Hr). assert (lo' = x) by congruence. subst lo'.
  destruct (at_of _ _ _ C e' i x hi' Hl Hh) as (j' & Hat & Hj'); [lia|]. rewrite (nth_error_nth _ _ 0 Hj') in Hj. subst j'.
  pose proof (at_inj _ _ _ C _ _ _ _ He Hat). lia.
Qed.

Lemma search_at l : forall k c, nth_error l k = Some c -> (forall k' x, k' < k -> nth_error l k' = Some x -> x < c) -> lower_bound l c = k /\ find_first c l = k.
Proof.
  induction l as [|y l IH]; intros k c Hk Hb; [now destruct k|]. destruct k as [|k]; simpl in Hk |- *.
  - injection Hk as ->. rewrite Nat.ltb_irrefl, Nat.eqb_refl. auto.
  - assert (y < c) by (apply (Hb 0); [lia|reflexivity]). destruct (IH k c Hk) as [-> ->].
    { intros k' x Hk' Hx. apply (Hb (S k')); [lia|exact Hx]. }
    destruct (Nat.ltb_spec y c), (Nat.eqb_spec y c); try lia; auto.
Qed.
Lemma find_entry_at e i j lo first last hi : at_ e i j -> nth_error (indptr pt) i = Some lo -> nth_error (indptr pt) (S i) = Some hi ->
  lo <= first <= e -> e < last <= hi -> find_entry pt i j first last = Done e.
Proof.
  intros He Hlo Hhi H1 H2. unfold find_entry. rewrite (get_Some _ _ _ Hlo), (get_Some _ _ _ Hhi). cbn [bind].
  replace ((lo <=? first) && (first <? last) && (last <=? hi)) with true by (symmetry; rewrite !andb_true_iff, !Nat.leb_le, Nat.ltb_lt; lia). cbn [check bind].
  pose proof He as (Hc & _). set (range := firstn _ _).
  assert (Hr : nth_error range (e - first) = Some j).
  { unfold range. rewrite nth_firstn_lt by lia. rewrite nth_skipn. now replace (first + (e - first)) with e by lia. }
  assert (Hb : forall k x, k < e - first -> nth_error range k = Some x -> x < j).
  { intros k x Hk Hx. unfold range in Hx. rewrite nth_firstn_lt in Hx by lia. rewrite nth_skipn in Hx.
    destruct (at_of _ _ _ C (first + k) i lo hi Hlo Hhi) as (j' & Hat & Hj'); [lia|]. assert (j' = x) as -> by congruence.
    apply (at_lt _ _ _ C _ _ _ _ _ Hat He). lia. }
  destruct (search_at range _ _ Hr Hb) as [-> ->].
  replace (first + (if last - first <? linear_search_threshold then e - first else e - first)) with e by (destruct (last - first <? _); lia).
  destruct (Nat.ltb_spec e last); [|lia]. cbn [check bind]. rewrite (get_Some _ _ _ Hc). cbn [bind]. now rewrite Nat.eqb_refl.
Qed.

(** ** one pivot *)
Ltac bdest := repeat match goal with
  | |- context [?x =? ?y] => destruct (Nat.eqb_spec x y)
  | |- context [?x <? ?y] => destruct (Nat.ltb_spec x y)
  end; cbn [andb orb]; subst; try lia.

Section Pivot.
Variable p : nat.
Hypothesis Hp : p < n.
Variables (lo d hi : nat).
Hypothesis Hlo : nth_error (indptr pt) p = Some lo.
Hypothesis Hhi : nth_error (indptr pt) (S p) = Some hi.
Hypothesis Hd : at_ d p p.

Lemma d_range : lo <= d < hi.
Proof. destruct Hd as (_ & lo' & hi' & Hl & Hh & Hr). assert (lo' = lo) by congruence. assert (hi' = hi) by congruence. now subst. Qed.
Lemma row_p e : lo <= e < hi -> exists j, at_ e p j /\ nth_error (cols pt) e = Some j.
Proof. intros H. exact (at_of _ _ _ C e p lo hi Hlo Hhi H). Qed.
Lemma row_p_range e j : at_ e p j -> lo <= e < hi.
Proof. intros (_ & lo' & hi' & Hl & Hh & Hr). assert (lo' = lo) by congruence. assert (hi' = hi) by congruence. now subst. Qed.
Lemma left_at e j : at_ e p j -> (e < d <-> j < p).
Proof. intros H. exact (at_lt _ _ _ C _ _ _ _ _ H Hd). Qed.
Lemma right_at e j : at_ e p j -> (d < e <-> p < j).
Proof. intros H. exact (at_lt _ _ _ C _ _ _ _ _ Hd H). Qed.

Section Left.
Variables (P Q' : Q) (F : nat -> nat -> T).
Definition left_F (b i j : nat) : T :=
  if (i =? p) && (j <? p) && among lo b j then b_perm_left o P (F i j)
  else if (j =? p) && (i <? p) && among lo b i then b_perm_right o (F i j) Q' else F i j.
Definition left_c (b i : nat) : nat := if (i <? p) && among lo b i then S p else p.
Lemma left_loop data pos : holds data F -> pos_is (fun _ => p) pos ->
  exists data' pos', for_range lo d (permute_left o pt p P Q') (data, pos) = Done (data', pos') /\ holds data' (left_F d) /\ pos_is (left_c d) pos'.
Proof.
  intros HF HP.
  destruct (for_range_inv (fun b (s : list T * list nat) => holds (fst s) (left_F b) /\ pos_is (left_c b) (snd s)) lo d (permute_left o pt p P Q') (data, pos))
    as ([data' pos'] & E & H1 & H2).
  - pose proof d_range. lia.
  - cbn [fst snd]. split.
    + revert HF. apply holds_ext. intros i j _. unfold left_F. rewrite !among_first, !andb_false_r. reflexivity.
    + revert HP. apply pos_ext. intros i j _. unfold left_c. rewrite among_first, andb_false_r. tauto.
  - intros b [dt ps] Hb [H1 H2]. cbn [fst snd] in *. destruct (row_p b) as (j & Hat & Hj); [pose proof d_range; lia|].
    assert (Hjp : j < p) by (apply (left_at b j Hat); lia).
    destruct (pk_sym _ _ ok _ _ _ Hat) as [e' He'].
    assert (Hnew : among lo b j = false) by (apply (among_new p lo b j b Hat); [eauto|lia]).
    assert (Hc : left_c b j = p) by (unfold left_c; now rewrite Hnew, andb_false_r).
    unfold permute_left. rewrite (holds_get _ _ _ _ _ H1 Hat). cbn [bind].
    destruct (holds_put dt _ b p j (b_perm_left o P (left_F b p j)) H1 Hat) as (d1 & -> & Hd1). cbn [bind].
    rewrite (get_Some _ _ _ Hj). cbn [bind]. rewrite <- Hc in He'. rewrite (pos_get _ _ _ _ H2 He'). rewrite Hc in He'. cbn [bind].
    pose proof He' as (Hc' & _). rewrite (get_Some _ _ _ Hc'). cbn [bind]. rewrite Nat.eqb_refl. cbn [check bind].
    rewrite (holds_get _ _ _ _ _ Hd1 He'). cbn [bind].
    match goal with |- context [put e' ?x d1] => destruct (holds_put d1 _ e' j p x Hd1 He') as (d2 & -> & Hd2) end. cbn [bind].
    rewrite <- Hc in He'. destruct (pos_put _ _ _ _ H2 He') as (ps' & -> & Hps). cbn [bind]. eexists. split; [reflexivity|]. cbn [fst snd]. split.
    + revert Hd2. apply holds_ext. intros i k _. unfold set2, left_F. rewrite !(among_next lo b _ j) by (auto; lia). rewrite Hnew. rewrite ?andb_false_r.
      destruct (Nat.eqb_spec i p) as [->|Hi], (Nat.eqb_spec k p) as [->|Hk].
      * rewrite !Nat.ltb_irrefl. cbn [andb]. bdest. reflexivity.
      * rewrite !Nat.ltb_irrefl. cbn [andb]. destruct (Nat.eqb_spec k j) as [->|Hkj].
        { bdest. now rewrite orb_true_r. }
        { bdest; rewrite ?orb_false_r; reflexivity. }
      * cbn [andb]. destruct (Nat.eqb_spec i j) as [->|Hij].
        { bdest. now rewrite orb_true_r. }
        { bdest; rewrite ?orb_false_r; reflexivity. }
      * cbn [andb]. bdest; reflexivity.
    + revert Hps. apply pos_ext. intros i k _. rewrite Hc. unfold left_c. rewrite (among_next lo b i j) by (auto; lia).
      bdest; rewrite ?orb_false_r, ?orb_true_r; tauto.
  - exists data', pos'. auto.
Qed.
End Left.

Section Right.
Variables (lu : T) (P : Q) (F : nat -> nat -> T).
Definition right_F (b i j : nat) : T := if (i =? p) && (p <? j) && among (S d) b j then b_solve_lower o lu (b_perm_left o P (F i j)) else F i j.
Lemma right_loop data : holds data F ->
  exists data', for_range (S d) hi (solve_right o lu P) data = Done data' /\ holds data' (right_F hi).
Proof.
  intros HF. apply (for_range_inv (fun b s => holds s (right_F b))).
  - pose proof d_range. lia.
  - revert HF. apply holds_ext. intros i j _. unfold right_F. now rewrite among_first, andb_false_r.
  - intros b dt Hb H1. pose proof d_range. destruct (row_p b) as (j & Hat & Hj); [lia|].
    assert (Hjp : p < j) by (apply (right_at b j Hat); lia).
    assert (Hnew : among (S d) b j = false) by (apply (among_new p (S d) b j b Hat); [exists lo; split; [auto|lia]|lia]).
    unfold solve_right. rewrite (holds_get _ _ _ _ _ H1 Hat). cbn [bind].
    match goal with |- context [put b ?x dt] => destruct (holds_put dt _ b p j x H1 Hat) as (d1 & -> & Hd1) end.
    exists d1. split; [reflexivity|]. revert Hd1. apply holds_ext. intros i k _. unfold set2, right_F. rewrite (among_next (S d) b k j) by (auto; lia).
    rewrite Hnew, andb_false_r. bdest; rewrite ?orb_true_r, ?orb_false_r; reflexivity.
Qed.
End Right.

Section Eliminate.
Variables (lu : T) (Q' : Q) (F : nat -> nat -> T).
Definition new_l (i : nat) : T := b_solve_right_upper o lu (b_perm_right o (F i p) Q').
Definition schur_F (r b : nat) (i j : nat) : T :=
  if i =? r then (if j =? p then new_l r else if (p <? j) && among (S d) b j then b_sub o (F i j) (b_mul o (new_l r) (F p j)) else F i j) else F i j.
Lemma schur_loop G r e data : p < r -> at_ e r p -> (forall i j, i = r \/ i = p -> G i j = F i j) -> holds data (set2 r p (new_l r) G) ->
  forall rlo rhi, nth_error (indptr pt) r = Some rlo -> nth_error (indptr pt) (S r) = Some rhi ->
  exists data' x, for_range (S d) hi (schur o pt r rhi (new_l r)) (data, e) = Done (data', x) /\
    holds data' (fun i j => if i =? r then schur_F r hi i j else G i j).
Proof.
  intros Hr He HG HF rlo rhi Hrlo Hrhi. pose proof d_range as Hdr.
  destruct (for_range_inv (fun b (s : list T * nat) => holds (fst s) (fun i j => if i =? r then schur_F r b i j else G i j) /\
      exists c, at_ (snd s) r c /\ forall e' j, b <= e' < hi -> at_ e' p j -> c < j) (S d) hi (schur o pt r rhi (new_l r)) (data, e))
    as ([data' x] & E & H1 & H2).
  - lia.
  - cbn [fst snd]. split.
    + revert HF. apply holds_ext. intros i j _. unfold set2, schur_F. rewrite among_first, andb_false_r.
      destruct (Nat.eqb_spec i r) as [->|]; [|reflexivity]. cbn [andb]. destruct (Nat.eqb_spec j p); auto.
    + exists p. split; auto. intros e' j He' Hat. apply (right_at e' j Hat). lia.
  - intros b [dt x] Hb [H1 (c & Hx & Hc)]. cbn [fst snd] in *. destruct (row_p b) as (j & Hat & Hj); [lia|].
    assert (Hjp : p < j) by (apply (right_at b j Hat); lia).
    assert (Hnew : among (S d) b j = false) by (apply (among_new p (S d) b j b Hat); [exists lo; split; [auto|lia]|lia]).
    assert (Hcl : exists e', at_ e' r j).
    { apply (pk_closed _ _ ok p r j); auto; [|eauto]. exact (pk_sym _ _ ok _ _ _ He). }
    destruct Hcl as [a_idx Ha]. assert (Hcj : c < j) by (apply (Hc b j); [lia|auto]).
    assert (x < a_idx) by (apply (at_lt _ _ _ C _ _ _ _ _ Hx Ha); auto).
    unfold schur. rewrite (get_Some _ _ _ Hj). cbn [bind].
    pose proof Hx as (_ & rlo' & rhi' & Hl' & Hh' & Hr'). assert (rlo' = rlo) by congruence. assert (rhi' = rhi) by congruence. subst rlo' rhi'.
    pose proof Ha as (_ & rlo' & rhi' & Hl2 & Hh2 & Hr2). assert (rlo' = rlo) by congruence. assert (rhi' = rhi) by congruence. subst rlo' rhi'.
    rewrite (find_entry_at a_idx r j rlo (S x) rhi rhi Ha Hrlo Hrhi) by lia. cbn [bind].
    rewrite (holds_get _ _ _ _ _ H1 Ha). cbn [bind]. rewrite (holds_get _ _ _ _ _ H1 Hat). cbn [bind].
    match goal with |- context [put a_idx ?x dt] => destruct (holds_put dt _ a_idx r j x H1 Ha) as (d1 & -> & Hd1) end. cbn [bind].
    eexists. split; [reflexivity|]. cbn [fst snd]. split.
    + revert Hd1. apply holds_ext. intros i k _. unfold set2, schur_F. rewrite Nat.eqb_refl, Hnew, !andb_false_r.
      rewrite (among_next (S d) b k j) by (auto; lia).
      destruct (Nat.eqb_spec p r); [lia|]. destruct (Nat.eqb_spec j p); [lia|].
      destruct (Nat.eqb_spec i r) as [->|]; [|reflexivity]. cbn [andb]. destruct (Nat.eqb_spec k j) as [->|Hkj].
      * destruct (Nat.eqb_spec j p); [lia|]. destruct (Nat.ltb_spec p j); [|lia]. rewrite Nat.eqb_refl, orb_true_r. cbn [andb]. rewrite (HG p j) by auto. reflexivity.
      * destruct (Nat.eqb_spec j k); [lia|]. rewrite orb_false_r. reflexivity.
    + exists j. split; auto. intros e' j' He' Hat'. apply (at_lt _ _ _ C _ _ _ _ _ Hat Hat'). lia.
  - exists data', x. auto.
Qed.

Definition elim_F (b i j : nat) : T := if (p <? i) && among (S d) b i then schur_F i hi i j else F i j.
Variable c0 : nat -> nat.
Hypothesis Hc0 : forall i, p <= i -> c0 i = p.
Definition elim_c (b i : nat) : nat := if (p <? i) && among (S d) b i then S p else c0 i.
Lemma elim_loop data pos : holds data F -> pos_is c0 pos ->
  exists data' pos', for_range (S d) hi (eliminate o pt p lu Q' (S d) hi) (data, pos) = Done (data', pos') /\ holds data' (elim_F hi) /\ pos_is (elim_c hi) pos'.
Proof.
  intros HF HP. pose proof d_range as Hdr.
  destruct (for_range_inv (fun b (s : list T * list nat) => holds (fst s) (elim_F b) /\ pos_is (elim_c b) (snd s)) (S d) hi (eliminate o pt p lu Q' (S d) hi) (data, pos))
    as ([data' pos'] & E & H1 & H2).
  - lia.
  - cbn [fst snd]. split.
    + revert HF. apply holds_ext. intros i j _. unfold elim_F. now rewrite among_first, andb_false_r.
    + revert HP. apply pos_ext. intros i j _. unfold elim_c. now rewrite among_first, andb_false_r.
  - intros b [dt ps] Hb [H1 H2]. cbn [fst snd] in *. destruct (row_p b) as (r & Hat & Hj); [lia|].
    assert (Hrp : p < r) by (apply (right_at b r Hat); lia).
    assert (Hnew : among (S d) b r = false) by (apply (among_new p (S d) b r b Hat); [exists lo; split; [auto|lia]|lia]).
    destruct (pk_sym _ _ ok _ _ _ Hat) as [e He].
    assert (Hc : elim_c b r = p) by (unfold elim_c; rewrite Hnew, andb_false_r; apply Hc0; lia).
    unfold eliminate. rewrite (get_Some _ _ _ Hj). cbn [bind]. rewrite <- Hc in He. rewrite (pos_get _ _ _ _ H2 He). cbn [bind].
    pose proof He as (Hce & _). rewrite (get_Some _ _ _ Hce). cbn [bind]. rewrite Hc, Nat.eqb_refl in *. cbn [check bind].
    rewrite (holds_get _ _ _ _ _ H1 He). cbn [bind].
    assert (EF : elim_F b r p = F r p) by (unfold elim_F; now rewrite Hnew, andb_false_r). rewrite EF.
    change (b_solve_right_upper o lu (b_perm_right o (F r p) Q')) with (new_l r).
    destruct (holds_put dt _ e r p (new_l r) H1 He) as (d1 & -> & Hd1). cbn [bind].
    pose proof He as (_ & rlo & rhi & Hrlo & Hrhi & _). rewrite (get_Some _ _ _ Hrhi). cbn [bind].
    destruct (schur_loop (elim_F b) r e d1 Hrp He) with (rlo := rlo) (rhi := rhi) as (d2 & x & -> & Hd2); auto.
    { intros i j [->| ->]; unfold elim_F; [now rewrite Hnew, andb_false_r|]. now rewrite Nat.ltb_irrefl. }
    cbn [bind]. rewrite <- Hc in He. destruct (pos_put _ _ _ _ H2 He) as (ps' & -> & Hps). cbn [bind]. eexists. split; [reflexivity|]. cbn [fst snd]. split.
    + revert Hd2. apply holds_ext. intros i k _. unfold elim_F. rewrite (among_next (S d) b i r) by (auto; lia).
      destruct (Nat.eqb_spec i r) as [->|Hn].
      * rewrite Nat.eqb_refl, orb_true_r. destruct (Nat.ltb_spec p r); [reflexivity|lia].
      * destruct (Nat.eqb_spec r i); [lia|]. now rewrite orb_false_r.
    + revert Hps. apply pos_ext. intros i k _. rewrite Hc. unfold elim_c. rewrite (among_next (S d) b i r) by (auto; lia).
      destruct (Nat.eqb_spec i r) as [->|Hn].
      * rewrite Nat.eqb_refl, orb_true_r. destruct (Nat.ltb_spec p r); [cbn [andb]; tauto|lia].
      * destruct (Nat.eqb_spec r i); [lia|]. rewrite orb_false_r. tauto.
  - exists data', pos'. auto.
Qed.
End Eliminate.
End Pivot.
End Refine.
