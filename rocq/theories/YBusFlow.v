(** C21: Kirchhoff's current law for the reported flows. *)
From Verif Require Import Common NatMap GroupedIdx GroupedIdxFacts Phasor YBus YBusSpec YBusFacts YBusScan YBusGrid YBusProps.

Definition is_bus (b : option nat) (i : nat) : bool := match b with Some j => j =? i | None => false end.
(** of a list that holds something per branch, what belongs to the branches whose from (to) side is at bus [i] *)
Definition from_at {A} (t : math_topo) (l : list A) (i : nat) : list A := map snd (filter (fun bx => is_bus (fst (fst bx)) i) (combine (mt_branch t) l)).
Definition to_at {A} (t : math_topo) (l : list A) (i : nat) : list A := map snd (filter (fun bx => is_bus (snd (fst bx)) i) (combine (mt_branch t) l)).
(** of a list that holds something per shunt, what belongs to the shunts at bus [i] *)
Definition shunts_at {A} (t : math_topo) (l : list A) (i : nat) : list A := map snd (filter (fun bx => fst bx =? i) (combine (d_vec (mt_shunt t)) l)).

Lemma nth_firstn_lt {A} (l : list A) m k : k < m -> nth_error (firstn m l) k = nth_error l k.
Proof. revert m k. induction l as [|a l IH]; intros [|m] [|k] H; simpl; auto; try lia. apply IH. lia. Qed.
Lemma nth_skipn {A} (l : list A) m k : nth_error (skipn m l) k = nth_error l (m + k).
Proof. revert m k. induction l as [|a l IH]; intros [|m] k; simpl; auto. now destruct k. Qed.

Section Flow.
Context {Y S' U : Type} (o : phasor_ops Y U) (L : phasor_laws o).
Notation sum := (usum o). Notation dot := (o_dot o).
Notation ybus := (@y_bus Y S').
Notation current := (injection_current (S' := S') (o_u0 o) (o_uadd o) (o_dot o)).
Notation injection := (calculate_injection (S' := S') (o_u0 o) (o_uadd o) (o_umul o) (o_conj o) (o_dot o)).
Notation branch_flows := (calculate_branch_flow (S' := S') (o_u0 o) (o_uadd o) (o_umul o) (o_conj o) (o_dot o)).
Notation shunt_flows := (calculate_shunt_flow (S' := S') (o_y0 o) (o_u0 o) (o_uneg o) (o_umul o) (o_conj o) (o_dot o)).
Variable t : math_topo.
Hypothesis ok : sub_grid_ok t.

(** the shunt flows *)
Lemma shunt_flows_spec (y : ybus) u : length (p_shunt (yb_param y)) = length (d_vec (mt_shunt t)) ->
  shunt_flows t y u = map (fun bp => let i := o_uneg o (dot (snd bp) (nth (fst bp) u (o_u0 o))) in (i, o_umul o (nth (fst bp) u (o_u0 o)) (o_conj o i)))
    (combine (d_vec (mt_shunt t)) (p_shunt (yb_param y))).
Proof.
  intros HL. set (V := fun k b => let i := o_uneg o (dot (nth k (p_shunt (yb_param y)) (o_y0 o)) (nth b u (o_u0 o))) in (i, o_umul o (nth b u (o_u0 o)) (o_conj o i))).
  assert (X1 : forall l out bus, length (fold_left (fun out sh => upd sh (V sh bus) out) l out) = length out /\
    forall k, k < length out -> nth_error (fold_left (fun out sh => upd sh (V sh bus) out) l out) k = if existsb (Nat.eqb k) l then Some (V k bus) else nth_error out k).
  { induction l as [|a l IH]; intros out bus; cbn [fold_left existsb]; auto. destruct (IH (upd a (V a bus) out) bus) as [H1 H2]. rewrite upd_length in *. split; auto. intros k Hk. rewrite H2 by auto.
    destruct (existsb (Nat.eqb k) l); [now rewrite orb_true_r|]. rewrite orb_false_r. destruct (Nat.eqb_spec k a) as [->|Hn]; [now apply nth_error_upd_eq|apply nth_error_upd_neq; auto]. }
  assert (X2 : forall bs out, length (fold_left (fun out bus => let (lo, hi) := dense_range (mt_shunt t) bus in fold_left (fun out sh => upd sh (V sh bus) out) (seq lo (hi - lo)) out) bs out) = length out /\
    forall k b, k < length out -> nth_error (d_vec (mt_shunt t)) k = Some b ->
      nth_error (fold_left (fun out bus => let (lo, hi) := dense_range (mt_shunt t) bus in fold_left (fun out sh => upd sh (V sh bus) out) (seq lo (hi - lo)) out) bs out) k =
      if existsb (Nat.eqb b) bs then Some (V k b) else nth_error out k).
  { induction bs as [|a bs IH]; intros out; cbn [fold_left existsb]; auto. assert (HR := fun k => dense_range_spec (mt_shunt t) a k (go_shunt_sorted t ok)).
    destruct (dense_range (mt_shunt t) a) as [lo hi]. cbn [fst snd] in HR.
    destruct (X1 (seq lo (hi - lo)) out a) as [H1 H2]. set (out1 := fold_left (fun out sh => upd sh (V sh a) out) (seq lo (hi - lo)) out) in *.
    destruct (IH out1) as [H3 H4]. split; [congruence|]. intros k b Hk Hb. rewrite (H4 k b) by (auto; congruence). destruct (existsb (Nat.eqb b) bs); [now rewrite orb_true_r|]. rewrite orb_false_r.
    rewrite H2 by auto. destruct (Nat.eqb_spec b a) as [->|Hn].
    - replace (existsb (Nat.eqb k) (seq lo (hi - lo))) with true; auto. symmetry. apply existsb_exists. exists k. split; [|apply Nat.eqb_refl]. apply HR in Hb. apply in_seq. lia.
    - replace (existsb (Nat.eqb k) (seq lo (hi - lo))) with false; auto. symmetry. apply not_true_iff_false. intros E. apply existsb_exists in E as (x & Hx & E). apply Nat.eqb_eq in E. subst x.
      apply in_seq in Hx. apply Hn. assert (Hx' : lo <= k < hi) by lia. apply HR in Hx'. congruence. }
  apply nth_error_ext. intros k. unfold calculate_shunt_flow. destruct (X2 (seq 0 (dense_size (mt_shunt t))) (repeat (o_u0 o, o_u0 o) (dense_element_size (mt_shunt t)))) as [H1 H2].
  unfold dense_element_size in *. rewrite repeat_length in *. rewrite nth_error_map.
  destruct (nth_error (d_vec (mt_shunt t)) k) as [b|] eqn:Eb.
  - assert (Hk : k < length (d_vec (mt_shunt t))) by (apply nth_error_Some; congruence). etransitivity; [apply (H2 k b Hk Eb)|].
    replace (existsb (Nat.eqb b) (seq 0 (dense_size (mt_shunt t)))) with true.
    + destruct (nth_error (p_shunt (yb_param y)) k) as [sp|] eqn:Ep; [|apply nth_error_None in Ep; lia].
      assert (Ec : nth_error (combine (d_vec (mt_shunt t)) (p_shunt (yb_param y))) k = Some (b, sp)).
      { clear - Eb Ep. revert k Eb Ep. generalize (p_shunt (yb_param y)). induction (d_vec (mt_shunt t)) as [|x l IH]; intros [|z l'] [|k] H1 H2; try discriminate; simpl in *; [congruence|auto]. }
      rewrite Ec. simpl. unfold V. rewrite (nth_error_nth _ _ (o_y0 o) Ep). reflexivity.
    + symmetry. apply existsb_exists. exists b. split; [|apply Nat.eqb_refl]. apply in_seq. unfold dense_size. rewrite (go_shunt_num t ok). apply nth_error_In in Eb. apply (go_shunt t ok) in Eb. lia.
  - apply nth_error_None in Eb. rewrite (proj2 (nth_error_None _ _)); [|etransitivity; [apply Nat.eq_le_incl, H1|auto]].
    rewrite (proj2 (nth_error_None _ _)); [reflexivity|]. rewrite combine_length. lia.
Qed.

Section Kcl.
Variable s : y_structure.
Hypothesis built : build_structure t = Some s.
Variable y : ybus.
Hypothesis Hfit : params_fit t (yb_param y).
Hypothesis Hlen : length (yb_admittance y) = length (col_indices s).
Hypothesis Hval : forall e i j, csr_at (row_indptr s) (col_indices s) e i j ->
  nth_error (yb_admittance y) e = Some (fold_left (o_yadd o) (entry_terms t (yb_param y) i j) (o_y0 o)).
Variable u : list U.
Notation V := (fun j => nth j u (o_u0 o)).
Notation n := (mt_n_bus t).

Lemma entry_terms_member i j : entry_terms t (yb_param y) i j <> [] -> exists c, member t c i j.
Proof.
  intros H. rewrite <- (terms_incident (o_yadd o) (o_y0 o)) in H by auto.
  destruct (incident t i j) as [|c l] eqn:E; [simpl in H; congruence|].
  assert (Hc : In c (incident t i j)) by (rewrite E; simpl; auto). clear - Hc. unfold incident in Hc. apply in_app_iff in Hc as [Hc|Hc]; apply in_flat_map in Hc as ([k x] & Hx & Hc); apply enumerate_In in Hx.
  - destruct x as [f b]. rewrite !in_app_iff in Hc.
    destruct Hc as [Hc|[Hc|[Hc|Hc]]].
    + destruct f as [f|]; [|destruct Hc]. destruct ((f =? i) && (f =? j)) eqn:E; [|destruct Hc]. destruct Hc as [<-|[]]. apply andb_true_iff in E as [E1 E2]. apply Nat.eqb_eq in E1, E2. subst. eexists. subst. eapply m_ff. exact Hx.
    + destruct f as [f|]; [|destruct Hc]. destruct b as [b|]; [|destruct Hc]. destruct ((f =? i) && (b =? j)) eqn:E; [|destruct Hc]. apply andb_true_iff in E as [E1 E2]. apply Nat.eqb_eq in E1, E2. subst. eexists. eapply m_ft. exact Hx.
    + destruct b as [b|]; [|destruct Hc]. destruct f as [f|]; [|destruct Hc]. destruct ((b =? i) && (f =? j)) eqn:E; [|destruct Hc]. apply andb_true_iff in E as [E1 E2]. apply Nat.eqb_eq in E1, E2. subst. eexists. eapply m_tf. exact Hx.
    + destruct b as [b|]; [|destruct Hc]. destruct ((b =? i) && (b =? j)) eqn:E; [|destruct Hc]. apply andb_true_iff in E as [E1 E2]. apply Nat.eqb_eq in E1, E2. subst b. subst. eexists. eapply m_tt. exact Hx.
  - simpl in Hc. destruct ((i =? j) && (x =? i)) eqn:E; [|destruct Hc]. apply andb_true_iff in E as [E1 E2]. apply Nat.eqb_eq in E1, E2. subst. eexists. eapply m_shunt. exact Hx.
Qed.

(** the current through the entries of one row, term by term *)
Lemma current_terms i : i < n -> current s y u i = sum (map (fun j => sum (map (fun a => dot a (V j)) (entry_terms t (yb_param y) i j))) (seq 0 n)).
Proof.
  intros Hi. assert (SO := the_structure t s ok built). destruct (so_csr t s SO) as [C1 C2 C3 C4 C5 C6].
  assert (Hlo : exists lo, nth_error (row_indptr s) i = Some lo) by (destruct (nth_error (row_indptr s) i) eqn:E; eauto; apply nth_error_None in E; lia).
  assert (Hhi : exists hi, nth_error (row_indptr s) (S i) = Some hi) by (destruct (nth_error (row_indptr s) (S i)) eqn:E; eauto; apply nth_error_None in E; lia).
  destruct Hlo as [lo Elo], Hhi as [hi Ehi].
  assert (Hle : lo <= hi /\ hi <= length (col_indices s)).
  { assert (Hmono : forall a b x z, nth_error (row_indptr s) a = Some x -> nth_error (row_indptr s) b = Some z -> a < b -> x <= z).
    { clear - C4. induction C4 as [|x l HS IH HF]; intros [|a] [|b] p q H1 H2 Hlt; try discriminate; try lia; simpl in *.
      - injection H1 as <-. rewrite Forall_forall in HF. apply HF. eapply nth_error_In; eauto.
      - eapply IH; eauto. lia. }
    split; [eapply Hmono; eauto|]. destruct (Nat.eq_dec (S i) n) as [E|E]; [rewrite E in Ehi; assert (Some hi = Some (length (col_indices s))) by (rewrite <- Ehi; exact C3); injection H as ->; auto|].
    eapply Hmono; eauto. lia. }
  unfold injection_current. rewrite (nth_error_nth _ _ 0 Elo), (nth_error_nth _ _ 0 Ehi), (fold_left_sum o L), (pl_zero o L).
  set (seg := firstn (hi - lo) (skipn lo (col_indices s))).
  assert (Hseg : forall k j, nth_error seg k = Some j <-> k < hi - lo /\ csr_at (row_indptr s) (col_indices s) (lo + k) i j).
  { intros k j. subst seg. split.
    - intros Hk. assert (Hlt : k < hi - lo) by (assert (k < length (firstn (hi - lo) (skipn lo (col_indices s)))) by (apply nth_error_Some; congruence); rewrite firstn_length in *; lia).
      split; auto. split; [|exists lo, hi; repeat split; auto; lia]. rewrite nth_firstn_lt in Hk by auto. now rewrite nth_skipn in Hk.
    - intros [Hlt [Hk _]]. rewrite nth_firstn_lt by auto. now rewrite nth_skipn. }
  assert (E1 : map (fun jy => dot (snd jy) (V (fst jy))) (combine seg (firstn (hi - lo) (skipn lo (yb_admittance y)))) =
    map (fun j => sum (map (fun a => dot a (V j)) (entry_terms t (yb_param y) i j))) seg).
  { apply nth_error_ext. intros k. rewrite !nth_error_map. destruct (nth_error seg k) as [j|] eqn:Ek.
    - apply Hseg in Ek as Hk. destruct Hk as [Hlt Hat]. assert (Ey := Hval _ _ _ Hat).
      assert (Ec : nth_error (combine seg (firstn (hi - lo) (skipn lo (yb_admittance y)))) k = Some (j, fold_left (o_yadd o) (entry_terms t (yb_param y) i j) (o_y0 o))).
      { assert (E2 : nth_error (firstn (hi - lo) (skipn lo (yb_admittance y))) k = Some (fold_left (o_yadd o) (entry_terms t (yb_param y) i j) (o_y0 o))) by (rewrite nth_firstn_lt by auto; now rewrite nth_skipn).
        clear - Ek E2. revert k Ek E2. generalize (firstn (hi - lo) (skipn lo (yb_admittance y))). induction seg as [|a l IH]; intros [|z l'] [|k] H1 H2; try discriminate; simpl in *; [congruence|auto]. }
      rewrite Ec. simpl. f_equal. apply (dot_sum o L).
    - apply nth_error_None in Ek. rewrite (proj2 (nth_error_None _ _)); auto. rewrite combine_length. lia. }
  rewrite E1. apply (sum_support o L).
  - apply NoDup_nth_error. intros a b Ha E. destruct (nth_error seg a) as [j|] eqn:Ea; [|apply nth_error_None in Ea; lia]. symmetry in E. apply Hseg in Ea as [_ Ea]. apply Hseg in E as [_ Eb].
    destruct (lt_eq_lt_dec a b) as [[Hl|]|Hl]; auto; exfalso; [specialize (C5 _ _ _ _ _ Ea Eb)|specialize (C5 _ _ _ _ _ Eb Ea)]; lia.
  - intros j Hj. apply C6. subst seg. eapply in_skipn, in_firstn, Hj.
  - intros j Hj Hnot. destruct (entry_terms t (yb_param y) i j) as [|x l] eqn:Et; [reflexivity|]. exfalso. apply Hnot.
    assert (Hm : exists c, member t c i j) by (apply entry_terms_member; rewrite Et; discriminate).
    destruct (proj2 (so_pattern t s SO i j) (or_intror Hm)) as [e He]. assert (He' := He). destruct He' as [_ (lo' & hi' & F1 & F2 & F3)].
    rewrite Elo in F1. injection F1 as <-. rewrite Ehi in F2. injection F2 as <-. apply (nth_error_In seg (e - lo)). apply Hseg. split; [lia|]. replace (lo + (e - lo)) with e by lia. exact He.
Qed.

Lemma one_branch i (f b : option nat) (p : branch_param) : (forall k, f = Some k -> k < n) -> (forall k, b = Some k -> k < n) ->
  sum (map (fun j => sum (map (fun a => dot a (V j))
    (let here (a b : option nat) := match a, b with Some a, Some b => (a =? i) && (b =? j) | _, _ => false end in
     (if here f f then [yff p] else []) ++ (if here f b then [yft p] else []) ++ (if here b f then [ytf p] else []) ++ (if here b b then [ytt p] else [])))) (seq 0 n)) =
  o_uadd o (if is_bus f i then o_uadd o (dot (yff p) (voltage (o_u0 o) u f)) (dot (yft p) (voltage (o_u0 o) u b)) else o_u0 o)
           (if is_bus b i then o_uadd o (dot (ytf p) (voltage (o_u0 o) u f)) (dot (ytt p) (voltage (o_u0 o) u b)) else o_u0 o).
Proof.
  intros Hf Hb. cbv zeta.
  assert (X : forall (c : bool) (q : option nat) (v : Y), (forall k, q = Some k -> k < n) ->
    sum (map (fun j => sum (map (fun a => dot a (V j)) (if match q with Some k => c && (k =? j) | None => false end then [v] else []))) (seq 0 n)) =
    if c then dot v (voltage (o_u0 o) u q) else o_u0 o).
  { intros c q v Hq. destruct c; destruct q as [k|]; simpl; try (apply sum_zero; auto; fail).
    - rewrite (sum_ext o _ (fun j => if k =? j then dot v (V j) else o_u0 o)); [apply (sum_delta o L (fun j => dot v (V j))); auto|].
      intros j _. destruct (k =? j); simpl; auto. apply (ua0 o L).
    - rewrite sum_zero by auto. symmetry. apply (dot0 o L). }
  rewrite (sum_ext o _ (fun j => o_uadd o
     (o_uadd o (sum (map (fun a => dot a (V j)) (if match f with Some k => is_bus f i && (k =? j) | None => false end then [yff p] else [])))
               (sum (map (fun a => dot a (V j)) (if match b with Some k => is_bus f i && (k =? j) | None => false end then [yft p] else []))))
     (o_uadd o (sum (map (fun a => dot a (V j)) (if match f with Some k => is_bus b i && (k =? j) | None => false end then [ytf p] else [])))
               (sum (map (fun a => dot a (V j)) (if match b with Some k => is_bus b i && (k =? j) | None => false end then [ytt p] else [])))))).
  - rewrite !(sum_add o L), !X by auto. destruct (is_bus f i), (is_bus b i); rewrite ?(ua0 o L); auto.
  - intros j _. rewrite !map_app, !(sum_app o L). rewrite <- (pl_assoc o L). destruct f as [f|], b as [b|]; simpl; rewrite ?andb_false_r; auto.
Qed.
Lemma one_shunt i b (v : Y) : b < n ->
  sum (map (fun j => sum (map (fun a => dot a (V j)) (if (i =? j) && (b =? i) then [v] else []))) (seq 0 n)) = if b =? i then dot v (V i) else o_u0 o.
Proof.
  intros Hb. destruct (Nat.eqb_spec b i) as [->|Hn].
  - rewrite (sum_ext o _ (fun j => if i =? j then dot v (V j) else o_u0 o)); [apply (sum_delta o L (fun j => dot v (V j))); auto|].
    intros j _. destruct (i =? j); simpl; auto. apply (ua0 o L).
  - apply sum_zero; auto. intros j _. rewrite andb_false_r. reflexivity.
Qed.
Lemma combine_left {A B} (l : list A) (l' : list B) x : In x (combine l l') -> In (fst x) l.
Proof. intros H. destruct x. now apply in_combine_l in H. Qed.

(** Kirchhoff, currents *)
Lemma kirchhoff_current i : i < n ->
  current s y u i = o_uadd o (o_uadd o (sum (map i_f (from_at t (branch_flows t y u) i))) (sum (map i_t (to_at t (branch_flows t y u) i))))
                             (o_uneg o (sum (map fst (shunts_at t (shunt_flows t y u) i)))).
Proof.
  intros Hi. rewrite current_terms by auto.
  set (BP := combine (mt_branch t) (p_branch (yb_param y))). set (SP := combine (d_vec (mt_shunt t)) (p_shunt (yb_param y))).
  assert (Efrom : forall (g : branch_flow -> U), sum (map g (from_at t (branch_flows t y u) i)) = sum (map (fun bp => if is_bus (fst (fst bp)) i then
      g (hd (mkFlow (o_u0 o) (o_u0 o) (o_u0 o) (o_u0 o)) (map (fun bp : (option nat * option nat) * branch_param =>
         let uf := voltage (o_u0 o) u (fst (fst bp)) in let ut := voltage (o_u0 o) u (snd (fst bp)) in
         let i_f := o_uadd o (dot (yff (snd bp)) uf) (dot (yft (snd bp)) ut) in let i_t := o_uadd o (dot (ytf (snd bp)) uf) (dot (ytt (snd bp)) ut) in
         mkFlow i_f i_t (o_umul o uf (o_conj o i_f)) (o_umul o ut (o_conj o i_t))) [bp])) else o_u0 o) BP)).
  { intros g. unfold from_at, calculate_branch_flow. fold BP. rewrite map_map, (sum_filter o L). f_equal. subst BP. clear.
    generalize (p_branch (yb_param y)). induction (mt_branch t) as [|b l IH]; intros [|p ps]; simpl; auto. f_equal. apply IH. }
  assert (Eto : forall (g : branch_flow -> U), sum (map g (to_at t (branch_flows t y u) i)) = sum (map (fun bp => if is_bus (snd (fst bp)) i then
      g (hd (mkFlow (o_u0 o) (o_u0 o) (o_u0 o) (o_u0 o)) (map (fun bp : (option nat * option nat) * branch_param =>
         let uf := voltage (o_u0 o) u (fst (fst bp)) in let ut := voltage (o_u0 o) u (snd (fst bp)) in
         let i_f := o_uadd o (dot (yff (snd bp)) uf) (dot (yft (snd bp)) ut) in let i_t := o_uadd o (dot (ytf (snd bp)) uf) (dot (ytt (snd bp)) ut) in
         mkFlow i_f i_t (o_umul o uf (o_conj o i_f)) (o_umul o ut (o_conj o i_t))) [bp])) else o_u0 o) BP)).
  { intros g. unfold to_at, calculate_branch_flow. fold BP. rewrite map_map, (sum_filter o L). f_equal. subst BP. clear.
    generalize (p_branch (yb_param y)). induction (mt_branch t) as [|b l IH]; intros [|p ps]; simpl; auto. f_equal. apply IH. }
  rewrite (Efrom i_f), (Eto i_t). rewrite <- (sum_add o L).
  assert (Esh : o_uneg o (sum (map fst (shunts_at t (shunt_flows t y u) i))) = sum (map (fun bp => if fst bp =? i then dot (snd bp) (V i) else o_u0 o) SP)).
  { unfold shunts_at. rewrite shunt_flows_spec by apply Hfit. fold SP. rewrite map_map, (sum_filter o L). rewrite <- (sum_neg o L). f_equal. subst SP. clear - L.
    generalize (p_shunt (yb_param y)). induction (d_vec (mt_shunt t)) as [|b l IH]; intros [|p ps]; simpl; auto. f_equal; [|apply IH].
    destruct (Nat.eqb_spec b i) as [->|]; [apply (uneg_neg o L)|apply (uneg0 o L)]. }
  rewrite Esh. unfold entry_terms. fold BP SP.
  rewrite (sum_ext o _ (fun j => o_uadd o
    (sum (map (fun bp : (option nat * option nat) * branch_param => sum (map (fun a => dot a (V j))
      (let here (a b : option nat) := match a, b with Some a, Some b => (a =? i) && (b =? j) | _, _ => false end in
       (if here (fst (fst bp)) (fst (fst bp)) then [yff (snd bp)] else []) ++ (if here (fst (fst bp)) (snd (fst bp)) then [yft (snd bp)] else []) ++
       (if here (snd (fst bp)) (fst (fst bp)) then [ytf (snd bp)] else []) ++ (if here (snd (fst bp)) (snd (fst bp)) then [ytt (snd bp)] else [])))) BP))
    (sum (map (fun sp => sum (map (fun a => dot a (V j)) (if (i =? j) && (fst sp =? i) then [snd sp] else []))) SP)))).
  2:{ intros j _. rewrite map_app, (sum_app o L). f_equal.
      - clear - L. induction BP as [|[[f b] p] l IH]; simpl; auto. rewrite map_app, (sum_app o L), IH. reflexivity.
      - clear - L. induction SP as [|[b p] l IH]; simpl; auto. rewrite map_app, (sum_app o L), IH. reflexivity. }
  rewrite (sum_add o L). f_equal; rewrite (sum_swap o L).
  - apply sum_ext. intros [[f b] p] Hin. apply combine_left in Hin. simpl in Hin. apply In_nth_error in Hin as [k Hk]. destruct (go_branch t ok k _ Hk) as [H1 H2]. simpl in *.
    apply (one_branch i f b p); auto.
  - apply sum_ext. intros [b p] Hin. apply combine_left in Hin. simpl in *. apply one_shunt. now apply (go_shunt t ok).
Qed.
(** Kirchhoff, powers: the same with every current replaced by voltage times its conjugate *)
Lemma kirchhoff_power i : i < n -> length (bus_entry s) = n ->
  nth_error (injection s y u) i = Some (o_uadd o (o_uadd o (sum (map s_f (from_at t (branch_flows t y u) i))) (sum (map s_t (to_at t (branch_flows t y u) i))))
                             (o_uneg o (sum (map snd (shunts_at t (shunt_flows t y u) i))))).
Proof.
  intros Hi Hn. unfold calculate_injection. rewrite nth_error_map, Hn, nth_error_nth' with (d := 0) by (rewrite seq_length; auto). rewrite seq_nth by auto. cbn [option_map Nat.add]. f_equal.
  rewrite (pl_mul_comm o L), kirchhoff_current by auto. rewrite !(pl_conj_add o L), !(pl_mul_add o L), (conj_neg o L), (umul_neg o L). rewrite <- !(sum_conj o L), <- !(sum_mul o L).
  f_equal; [f_equal|f_equal].
  - unfold from_at, calculate_branch_flow. clear. f_equal. generalize (p_branch (yb_param y)). induction (mt_branch t) as [|[f b] l IH]; intros [|p ps]; simpl; auto.
    destruct f as [f|]; simpl; auto. destruct (Nat.eqb_spec f i) as [->|]; simpl; auto. f_equal. apply IH.
  - unfold to_at, calculate_branch_flow. clear. f_equal. generalize (p_branch (yb_param y)). induction (mt_branch t) as [|[f b] l IH]; intros [|p ps]; simpl; auto.
    destruct b as [b|]; simpl; auto. destruct (Nat.eqb_spec b i) as [->|]; simpl; auto. f_equal. apply IH.
  - unfold shunts_at. rewrite shunt_flows_spec by apply Hfit. clear. f_equal. generalize (p_shunt (yb_param y)). induction (d_vec (mt_shunt t)) as [|b l IH]; intros [|p ps]; simpl; auto.
    destruct (Nat.eqb_spec b i) as [->|]; simpl; auto. f_equal. apply IH.
Qed.
End Kcl.

(** C21. Whatever the updates before and whatever the voltages: at every bus the current injected is the sum of the
    branch currents that leave it, minus the currents that its shunts inject; and the same for the reported powers. *)
Theorem C21_kirchhoff s p0 l u i : build_structure t = Some s -> params_fit t p0 -> Forall (update_fits t (length (p_source p0))) l -> i < mt_n_bus t ->
  let y := y_run (o_yadd o) (o_y0 o) s l (new_y_bus (o_yadd o) (o_y0 o) s p0) in
  current s y u i = o_uadd o (o_uadd o (sum (map i_f (from_at t (branch_flows t y u) i))) (sum (map i_t (to_at t (branch_flows t y u) i))))
                             (o_uneg o (sum (map fst (shunts_at t (shunt_flows t y u) i)))) /\
  nth_error (injection s y u) i = Some (o_uadd o (o_uadd o (sum (map s_f (from_at t (branch_flows t y u) i))) (sum (map s_t (to_at t (branch_flows t y u) i))))
                             (o_uneg o (sum (map snd (shunts_at t (shunt_flows t y u) i))))).
Proof.
  intros E Hf HF Hi y. destruct (full_inv (o_yadd o) (o_y0 o) t s ok E _ p0 (mkYBus p0 [] [] []) Hf eq_refl) as [I _].
  destruct (run_inv (o_yadd o) (o_y0 o) t s ok E _ l _ I HF) as [J _]. destruct (yi_fit _ _ _ _ _ _ J) as [Fit _].
  destruct (C20_admittance (o_yadd o) (o_y0 o) t s p0 l ok E Hf HF) as (_ & H2 & H3). fold y in H2, H3. change (params_fit t (yb_param y)) in Fit.
  split; [apply kirchhoff_current; auto|]. apply kirchhoff_power; auto. apply (so_bus_entry t s (the_structure t s ok E)).
Qed.
End Flow.

(** ** a sub-grid: 3 buses in a ring with a double line, an open branch end and two shunts *)
Definition demo_grid : math_topo :=
  mkMathTopo 3 [(Some 0, Some 1); (Some 1, Some 2); (Some 2, Some 1); (Some 2, None); (Some 1, Some 0)] (mkDense 3 [0; 2]) [(0, 2)].
Lemma demo_grid_ok : sub_grid_ok demo_grid.
Proof.
  constructor; simpl.
  - intros k b H. do 5 (destruct k as [|k]; [injection H as <-; simpl; split; intros i [= <-]; lia|]). destruct k; discriminate.
  - reflexivity.
  - repeat constructor.
  - intros b [<-|[<-|[]]]; lia.
  - intros i j [[= <- <-]|[]]. lia.
  - intros p q i j Hp Hq. destruct p as [|[|p]]; try discriminate. destruct q as [|[|q]]; auto; simpl in Hq; destruct Hq; discriminate.
  - intros i j c Hf Hm. assert (Hij : i = 0 /\ j = 2 \/ i = 2 /\ j = 0) by (destruct Hf as [[[= <- <-]|[]]|[[= <- <-]|[]]]; auto).
    inversion Hm as [k f o Hk|k f o Hk|k f o Hk|k f o Hk|k b Hk]; subst; simpl in Hk;
      do 5 (destruct k as [|k]; simpl in Hk; [try discriminate; injection Hk; intros; subst; destruct Hij as [[? ?]|[? ?]]; discriminate|]); destruct k; discriminate.
  - left. intros i Hi. destruct i as [|[|[|i]]]; [| | |lia].
    + exists (mkElement E_bff 0). apply m_ff with (o := Some 1). reflexivity.
    + exists (mkElement E_btt 0). apply m_tt with (f := Some 0). reflexivity.
    + exists (mkElement E_shunt 1). apply m_shunt. reflexivity.
  - lia.
Qed.
(** Gaussian integers *)
Definition zops : phasor_ops (cplx (R := Z)) cplx := sym_ops 0%Z Z.add Z.mul Z.sub Z.opp.
Lemma zops_laws : phasor_laws zops. Proof. apply (sym_laws _ _ _ _ _ _ Zth). Qed.
Definition demo_param : @model_param cplx unit :=
  mkParam [mkBranchParam (3, -1) (-2, 1) (-2, 1) (3, -1); mkBranchParam (1, 1) (0, -1) (0, -1) (1, 2); mkBranchParam (5, 0) (-5, 0) (-5, 0) (5, 0);
           mkBranchParam (0, 7) (0, 0) (0, 0) (0, 0); mkBranchParam (2, -2) (-2, 2) (-2, 2) (2, -2)]%Z [(0, 4); (1, 1)]%Z [].
Definition demo_updates : list (y_update cplx unit) := [U_increment (mkIncrement [(2%nat, mkBranchParam (6, 0) (-6, 1) (-6, 1) (6, 0))%Z] [(0, (0, 9)%Z)] [])].
Example demo_updates_fit : params_fit demo_grid demo_param /\ Forall (update_fits demo_grid (length (p_source demo_param))) demo_updates.
Proof.
  split; [split; reflexivity|]. constructor; [|constructor]. split; [|split]; simpl.
  - intros k v [[= <- _]|[]]. lia.
  - intros k v [[= <- _]|[]]. lia.
  - intros k v [].
Qed.
Example demo_structure : match build_structure demo_grid with
  | Some s => row_indptr s = [0; 2; 5; 7] /\ col_indices s = [0; 1; 0; 1; 2; 1; 2] /\ row_indptr_lu s = [0; 3; 6; 9] /\
      map_lu_y_bus s = [Some 0; Some 1; None; Some 2; Some 3; Some 4; None; Some 5; Some 6] /\ lu_transpose_entry s = [0; 3; 6; 1; 4; 7; 2; 5; 8]
  | None => False end.
Proof. vm_compute. repeat split. Qed.
(** the new values of branch 2 and shunt 0 are in the matrix *)
Example demo_admittance : match build_structure demo_grid with
  | Some s => yb_admittance (y_run (o_yadd zops) (o_y0 zops) s demo_updates (new_y_bus (o_yadd zops) (o_y0 zops) s demo_param)) =
              [(5, 6); (-4, 3); (-4, 3); (12, -2); (-6, 0); (-6, 0); (8, 10)]%Z
  | None => False end.
Proof. vm_compute. reflexivity. Qed.
(** the current at bus 2: 2 branches between 1 and 2, the open branch and a shunt *)
Example demo_kirchhoff : match build_structure demo_grid with
  | Some s => let y := y_run (o_yadd zops) (o_y0 zops) s demo_updates (new_y_bus (o_yadd zops) (o_y0 zops) s demo_param) in
              let u := [(1, 0); (2, 1); (3, -1)]%Z in
              injection_current (o_u0 zops) (o_uadd zops) (o_dot zops) s y u 2 = (22, 16)%Z /\
              map fst (shunts_at demo_grid (calculate_shunt_flow (o_y0 zops) (o_u0 zops) (o_uneg zops) (o_umul zops) (o_conj zops) (o_dot zops) demo_grid y u) 2) = [(-4, -2)%Z]
  | None => False end.
Proof. vm_compute. repeat split. Qed.

Print Assumptions C19_structure.
Print Assumptions C19_elements.
Print Assumptions C20_admittance.
Print Assumptions C20_incremental_is_full.
Print Assumptions C21_kirchhoff.
