(** Proofs about the ranking of regulated transformers. *)
From Verif Require Import Common NatMap TapRank TapRankSpec.

(** ** Distances *)
Section Search.
Variable es : list edge.
Variable start : nat -> Prop.
Inductive reach : nat -> nat -> Prop :=
  | re_start v : start v -> reach v 0
  | re_edge e k : reach (e_src e) k -> In e es -> reach (e_tgt e) (k + e_weight e).
Variable n : nat.
Hypothesis inside : forall e, In e es -> e_src e < n /\ e_tgt e < n.
Hypothesis small : forall e, In e es -> e_weight e <= 1.

Definition cost (x : option nat) : nat := match x with Some k => k | None => n + 1 end.
Definition pot (d : list (option nat)) : nat := list_sum (map cost d).
Definition some {A} (x : option A) : bool := match x with Some _ => true | None => false end.
Definition reached (d : list (option nat)) : nat := length (filter some d).
Lemma pot_upd : forall d v x, v < length d -> pot (upd v x d) + cost (dist d v) = pot d + cost x.
Proof.
  unfold pot, dist. induction d as [|y d IH]; intros v x H; cbn [length] in H; [lia|]. destruct v as [|v]; cbn [upd map list_sum nth fold_right]; [change (cost x + list_sum (map cost d) + cost y = cost y + list_sum (map cost d) + cost x); lia|].
  specialize (IH v x ltac:(lia)). change (cost y + list_sum (map cost (upd v x d)) + cost (nth v d None) = cost y + list_sum (map cost d) + cost x). lia.
Qed.
Lemma reached_upd : forall d v k, v < length d -> reached (upd v (Some k) d) = match dist d v with Some _ => reached d | None => S (reached d) end.
Proof.
  unfold reached, dist. induction d as [|y d IH]; intros v k H; cbn [length] in H; [lia|]. destruct v as [|v]; cbn [upd filter nth some]; [destruct y; reflexivity|].
  destruct y; cbn [some length]; rewrite IH by lia; destruct (nth v d None); reflexivity.
Qed.
Lemma reached_le d : reached d <= length d.
Proof. unfold reached. induction d as [|y d IH]; cbn; [lia|]. destruct (some y); cbn; lia. Qed.
Lemma dist_upd_eq d v x : v < length d -> dist (upd v x d) v = x.
Proof. intros. now apply nth_upd_eq. Qed.
Lemma dist_upd_neq d v u x : u <> v -> dist (upd v x d) u = dist d u.
Proof. intros. apply nth_upd_neq. congruence. Qed.

Record fine (d : list (option nat)) : Prop := {
  f_len : length d = n;
  f_sound : forall v k, dist d v = Some k -> reach v k;
  f_label : forall v k, dist d v = Some k -> k + 1 <= reached d
}.
Definition below (d' d : list (option nat)) : Prop := forall v k, dist d v = Some k -> exists k', dist d' v = Some k' /\ k' <= k.
Definition relaxed (d : list (option nat)) (e : edge) : Prop := forall k, dist d (e_src e) = Some k -> exists k', dist d (e_tgt e) = Some k' /\ k' <= k + e_weight e.
Lemma below_refl d : below d d.
Proof. intros v k H. exists k. auto. Qed.
Lemma below_trans a b c : below a b -> below b c -> below a c.
Proof. intros H1 H2 v k H. destruct (H2 v k H) as [k1 [E1 L1]]. destruct (H1 v k1 E1) as [k2 [E2 L2]]. exists k2. split; [assumption|lia]. Qed.

Lemma relax_step d q e u k : fine d -> In e es -> e_src e = u -> dist d u = Some k ->
  let '(d', q') := relax (d, q) e in
  fine d' /\ dist d' u = Some k /\ below d' d /\ incl q q' /\ (forall v, dist d' v = dist d v \/ exists k', dist d' v = Some k' /\ In (k', v) q') /\
  (exists k', dist d' (e_tgt e) = Some k' /\ k' <= k + e_weight e) /\ 2 * pot d' + length q' <= 2 * pot d + length q.
Proof.
  intros F He Eu Ek. unfold relax. rewrite Eu, Ek. destruct (inside e He) as [_ It]. pose proof (f_len _ F) as L. pose proof (small e He) as Sm.
  destruct (less (Some (k + e_weight e)) (dist d (e_tgt e))) eqn:Ls.
  - assert (Nt : u <> e_tgt e). { intros ->. rewrite Ek in Ls. cbn [less] in Ls. lia. }
    set (w := k + e_weight e) in *. assert (Lt : e_tgt e < length d) by lia.
    assert (Wt : w + 1 <= reached (upd (e_tgt e) (Some w) d)).
    { rewrite reached_upd by assumption. destruct (dist d (e_tgt e)) as [t|] eqn:Et.
      - cbn [less] in Ls. pose proof (f_label _ F _ _ Et). lia.
      - pose proof (f_label _ F _ _ Ek). lia. }
    assert (Rm : reached d <= reached (upd (e_tgt e) (Some w) d)) by (rewrite reached_upd by assumption; destruct (dist d (e_tgt e)); lia).
    refine (conj _ (conj _ (conj _ (conj _ (conj _ (conj _ _)))))).
    + constructor.
      * now rewrite upd_length.
      * intros v k' E. destruct (Nat.eq_dec v (e_tgt e)) as [->|N]; [|rewrite dist_upd_neq in E by assumption; now apply F].
        rewrite dist_upd_eq in E by assumption. inversion E; subst k'. apply re_edge; [|assumption]. apply F. now rewrite Eu.
      * intros v k' E. destruct (Nat.eq_dec v (e_tgt e)) as [->|N]; [rewrite dist_upd_eq in E by assumption; inversion E; subst; assumption|].
        rewrite dist_upd_neq in E by assumption. pose proof (f_label _ F _ _ E). lia.
    + rewrite dist_upd_neq; assumption.
    + intros v k' E. destruct (Nat.eq_dec v (e_tgt e)) as [->|N]; [|exists k'; rewrite dist_upd_neq by assumption; auto].
      exists w. rewrite dist_upd_eq by assumption. rewrite E in Ls. cbn [less] in Ls. split; [reflexivity|lia].
    + intros x Hx. apply in_or_app. now left.
    + intros v. destruct (Nat.eq_dec v (e_tgt e)) as [->|N]; [|left; now apply dist_upd_neq]. right. exists w. rewrite dist_upd_eq by assumption. split; [reflexivity|]. apply in_or_app. right. now left.
    + exists w. rewrite dist_upd_eq by assumption. split; [reflexivity|lia].
    + pose proof (pot_upd d (e_tgt e) (Some w) Lt) as P. rewrite app_length. cbn [length]. cbn [cost] in P.
      enough (w < cost (dist d (e_tgt e))) by lia. destruct (dist d (e_tgt e)) as [t|]; cbn [less cost] in Ls |- *; [lia|]. pose proof (f_label _ F _ _ Ek). pose proof (reached_le d). lia.
  - refine (conj F (conj Ek (conj (below_refl d) (conj (incl_refl q) (conj _ (conj _ _)))))); [now left| |lia].
    destruct (dist d (e_tgt e)) as [t|]; cbn [less] in Ls; [|discriminate]. exists t. split; [reflexivity|lia].
Qed.
Lemma relax_all u k : forall l d q, fine d -> (forall e, In e l -> In e es /\ e_src e = u) -> dist d u = Some k ->
  let '(d', q') := fold_left relax l (d, q) in
  fine d' /\ dist d' u = Some k /\ below d' d /\ incl q q' /\ (forall v, dist d' v = dist d v \/ exists k', dist d' v = Some k' /\ In (k', v) q') /\
  (forall e, In e l -> exists k', dist d' (e_tgt e) = Some k' /\ k' <= k + e_weight e) /\ 2 * pot d' + length q' <= 2 * pot d + length q.
Proof.
  induction l as [|e l IH]; intros d q F Hl Ek; cbn [fold_left].
  - refine (conj F (conj Ek (conj (below_refl d) (conj (incl_refl q) (conj _ (conj _ _)))))); [now left|intros ? []|lia].
  - destruct (Hl e (or_introl eq_refl)) as [He Eu]. pose proof (relax_step d q e u k F He Eu Ek) as R. destruct (relax (d, q) e) as [d1 q1]. destruct R as [F1 [K1 [B1 [I1 [C1 [T1 P1]]]]]].
    specialize (IH d1 q1 F1 (fun e' He' => Hl e' (or_intror He')) K1). destruct (fold_left relax l (d1, q1)) as [d2 q2]. destruct IH as [F2 [K2 [B2 [I2 [C2 [T2 P2]]]]]].
    refine (conj F2 (conj K2 (conj (below_trans _ _ _ B2 B1) (conj (incl_tran I1 I2) (conj _ (conj _ _)))))).
    + intros v. destruct (C2 v) as [E2|E2]; [|now right]. destruct (C1 v) as [E1|[k' [E1 H1]]]; [left; congruence|]. right. exists k'. split; [congruence|now apply I2].
    + intros e' [<-|H']; [|now apply T2]. destruct T1 as [t1 [E1 L1]]. destruct (B2 _ _ E1) as [t2 [E2 L2]]. exists t2. split; [assumption|lia].
    + lia.
Qed.
Lemma pop_spec : forall q x q', pop q = Some (x, q') -> Permutation q (x :: q').
Proof.
  induction q as [|y q IH]; intros x q' H; cbn [pop] in H; [discriminate|]. destruct (pop q) as [[z r]|] eqn:E.
  - specialize (IH z r eq_refl). destruct ((fst y <? fst z) || ((fst y =? fst z) && (snd y <=? snd z))); inversion H; subst; [reflexivity|].
    eapply perm_trans; [apply perm_skip; exact IH|apply perm_swap].
  - destruct q as [|w q]; [|cbn in E; destruct (pop q) as [[? ?]|]; [destruct (_ || _)|]; discriminate]. inversion H; subst. reflexivity.
Qed.
Lemma pop_none q : pop q = None -> q = [].
Proof. destruct q as [|y q]; [reflexivity|]. cbn. destruct (pop q) as [[? ?]|]; [destruct (_ || _)|]; discriminate. Qed.
Definition covered (d : list (option nat)) (q : list (nat * nat)) : Prop := forall u k, dist d u = Some k -> In (k, u) q \/ forall e, In e es -> e_src e = u -> relaxed d e.
Lemma out_in e u : In e (out_edges es u) <-> In e es /\ e_src e = u.
Proof. unfold out_edges. rewrite filter_In, Nat.eqb_eq. reflexivity. Qed.
Lemma search_ok : forall fuel d q, fine d -> covered d q -> 2 * pot d + length q < fuel ->
  exists d', search es fuel d q = Some d' /\ fine d' /\ below d' d /\ forall e, In e es -> relaxed d' e.
Proof.
  induction fuel as [|fuel IH]; intros d q F C Hf; [lia|]. cbn [search]. destruct (pop q) as [[[k u] q']|] eqn:P.
  - apply pop_spec in P. pose proof (Permutation_length P) as Lq. cbn [length] in Lq. destruct (match dist d u with Some k' => k =? k' | None => false end) eqn:M.
    + assert (Ek : dist d u = Some k) by (destruct (dist d u); [f_equal; lia|discriminate]).
      pose proof (relax_all u k (out_edges es u) d q' F (fun e He => proj1 (out_in e u) He) Ek) as R. destruct (fold_left relax (out_edges es u) (d, q')) as [d1 q1]. destruct R as [F1 [K1 [B1 [I1 [C1 [T1 P1]]]]]].
      destruct (IH d1 q1 F1) as [d' [E' [F' [B' R']]]]; [|lia|exists d'; refine (conj E' (conj F' (conj (below_trans _ _ _ B' B1) R')))].
      intros v kv Ev. destruct (Nat.eq_dec v u) as [->|Nv].
      * right. intros e He Es kk Ekk. rewrite Es, K1 in Ekk. inversion Ekk; subst kk. apply T1. apply out_in. auto.
      * destruct (C1 v) as [E1|[k' [E1 H1]]]; [|left; rewrite E1 in Ev; inversion Ev; subst; assumption].
        rewrite E1 in Ev. destruct (C v kv Ev) as [Hq|Hr].
        -- left. apply I1. apply (Permutation_in _ P) in Hq. destruct Hq as [Hq|Hq]; [inversion Hq; congruence|assumption].
        -- right. intros e He Es kk Ekk. rewrite Es, E1, Ev in Ekk. inversion Ekk; subst kk. specialize (Hr e He Es kv ltac:(rewrite Es; assumption)). destruct Hr as [t [Et Lt]]. destruct (B1 _ _ Et) as [t' [Et' Lt']]. exists t'. split; [assumption|lia].
    + apply IH; [assumption| |lia]. intros v kv Ev. destruct (C v kv Ev) as [Hq|Hr]; [|now right]. apply (Permutation_in _ P) in Hq. destruct Hq as [Hq|Hq]; [|now left]. inversion Hq; subst. rewrite Ev, Nat.eqb_refl in M. discriminate.
  - apply pop_none in P. subst q. exists d. refine (conj eq_refl (conj F (conj (below_refl d) _))). intros e He k Ek. destruct (C _ _ Ek) as [[]|Hr]. now apply (Hr e He eq_refl).
Qed.
Lemma pot_bound d : fine d -> pot d <= n * (n + 1).
Proof.
  intros F. pose proof (f_len _ F) as L. assert (forall x, In x d -> cost x <= n + 1).
  { intros x Hx. apply (In_nth _ _ None) in Hx. destruct Hx as [v [Hv E]]. destruct x as [k|]; cbn; [|lia]. pose proof (f_label _ F v k E). pose proof (reached_le d). lia. }
  rewrite <- L at 1. unfold pot. clear L F. induction d as [|x d IH]; [cbn; lia|]. specialize (IH (fun y Hy => H y (or_intror Hy))). pose proof (H x (or_introl eq_refl)).
  change (cost x + list_sum (map cost d) <= S (length d) * (n + 1)). lia.
Qed.
(** one more source *)
Lemma from_source_ok m v d : fine d -> (forall e, In e es -> relaxed d e) -> v < n -> (nth v m false = true -> start v) ->
  exists d', from_source es m (Some d) v = Some d' /\ fine d' /\ below d' d /\ (forall e, In e es -> relaxed d' e) /\ (nth v m false = true -> dist d' v = Some 0).
Proof.
  intros F R Hv St. unfold from_source. destruct (nth v m false) eqn:M.
  - pose proof (f_len _ F) as L. set (d0 := upd v (Some 0) d). assert (Lv : v < length d) by lia.
    assert (F0 : fine d0).
    { unfold d0. constructor; [now rewrite upd_length|..]; intros x k E; (destruct (Nat.eq_dec x v) as [->|N]; [rewrite dist_upd_eq in E by assumption; inversion E; subst|rewrite dist_upd_neq in E by assumption]).
      - constructor. auto.
      - now apply F.
      - rewrite reached_upd by assumption. destruct (dist d v) eqn:Ev; [|lia]. pose proof (f_label _ F _ _ Ev). lia.
      - pose proof (f_label _ F _ _ E). rewrite reached_upd by assumption. destruct (dist d v); lia. }
    assert (B0 : below d0 d). { intros x k E. unfold d0. destruct (Nat.eq_dec x v) as [->|N]; [exists 0; rewrite dist_upd_eq by assumption; split; [reflexivity|lia]|exists k; rewrite dist_upd_neq by assumption; auto]. }
    destruct (search_ok (enough (length d)) d0 [(0, v)] F0) as [d' [E' [F' [B' R']]]].
    + intros x k E. destruct (Nat.eq_dec x v) as [->|N]; [unfold d0 in E; rewrite dist_upd_eq in E by assumption; inversion E; subst; left; now left|].
      right. intros e He Es kk Ekk. rewrite Es in Ekk. unfold d0 in Ekk. rewrite dist_upd_neq in Ekk by assumption. rewrite <- Es in Ekk. destruct (R e He kk Ekk) as [t [Et Lt]]. destruct (B0 _ _ Et) as [t' [Et' Lt']]. exists t'. split; [assumption|lia].
    + pose proof (pot_bound d0 F0). unfold enough. cbn [length]. rewrite L. lia.
    + exists d'. refine (conj E' (conj F' (conj (below_trans _ _ _ B' B0) (conj R' _)))). intros _. destruct (B' v 0) as [t [Et Lt]]; [unfold d0; now apply dist_upd_eq|]. rewrite Et. f_equal. lia.
  - exists d. refine (conj eq_refl (conj F (conj (below_refl d) (conj R _)))). discriminate.
Qed.
Lemma sources_ok m : forall vs d, fine d -> (forall e, In e es -> relaxed d e) -> (forall v, In v vs -> v < n /\ (nth v m false = true -> start v)) ->
  exists d', fold_left (from_source es m) vs (Some d) = Some d' /\ fine d' /\ below d' d /\ (forall e, In e es -> relaxed d' e) /\ forall v, In v vs -> nth v m false = true -> dist d' v = Some 0.
Proof.
  induction vs as [|v vs IH]; intros d F R H; [exists d; refine (conj eq_refl (conj F (conj (below_refl d) (conj R _)))); intros ? []|].
  destruct (H v (or_introl eq_refl)) as [Hv St]. destruct (from_source_ok m v d F R Hv St) as [d1 [E1 [F1 [B1 [R1 Z1]]]]]. cbn [fold_left]. rewrite E1.
  destruct (IH d1 F1 R1 (fun x Hx => H x (or_intror Hx))) as [d2 [E2 [F2 [B2 [R2 Z2]]]]]. exists d2. refine (conj E2 (conj F2 (conj (below_trans _ _ _ B2 B1) (conj R2 _)))).
  intros x [<-|Hx] Hm; [|now apply Z2]. destruct (B2 v 0 (Z1 Hm)) as [t [Et Lt]]. rewrite Et. f_equal. lia.
Qed.
Lemma distances_ok m : (forall v, v < n -> (nth v m false = true <-> start v)) -> (forall v, start v -> v < n) ->
  exists d, distances n es m = Some d /\ forall v, match dist d v with Some k => reach v k /\ forall k', reach v k' -> k <= k' | None => forall k, ~ reach v k end.
Proof.
  intros Hm Hs. assert (Dn : forall v, dist (repeat None n) v = None).
  { intros v. unfold dist. destruct (Nat.lt_ge_cases v n); [apply nth_repeat|apply nth_overflow; now rewrite repeat_length]. }
  destruct (sources_ok m (seq 0 n) (repeat None n)) as [d [E [F [_ [R Z]]]]].
  - constructor; [apply repeat_length|..]; intros v k Q; rewrite Dn in Q; discriminate.
  - intros e He k Q. rewrite Dn in Q. discriminate.
  - intros v Hv. apply in_seq in Hv. split; [lia|]. apply Hm. lia.
  - exists d. split; [assumption|].
    assert (Up : forall v k, reach v k -> exists k', dist d v = Some k' /\ k' <= k).
    { intros v k Rk. induction Rk as [v Sv|e k Rk IH He]; [exists 0; split; [|lia]; apply Z; [apply in_seq; specialize (Hs v Sv); lia|apply Hm; auto]|].
      destruct IH as [k1 [E1 L1]]. destruct (R e He k1 E1) as [k2 [E2 L2]]. exists k2. split; [assumption|lia]. }
    intros v. destruct (dist d v) as [k|] eqn:Ev.
    + split; [now apply F|]. intros k' Rk. destruct (Up v k' Rk) as [k2 [E2 L2]]. rewrite Ev in E2. inversion E2; subst; assumption.
    + intros k Rk. destruct (Up v k Rk) as [k2 [E2 _]]. congruence.
Qed.
End Search.

(** ** The graph *)
Lemma insert_in x y l : In x (insert y l) <-> x = y \/ In x l.
Proof.
  induction l as [|z l IH]; cbn [insert]; [cbn; intuition congruence|]. destruct ((fst y <? fst z) || _); [cbn; intuition congruence|].
  destruct ((fst y =? fst z) && (snd y =? snd z)) eqn:E; [|cbn; rewrite IH; intuition congruence].
  assert (y = z) by (destruct y, z; cbn in E; f_equal; lia). subst z. cbn. intuition congruence.
Qed.
Section Graph.
Variable g : grid.
Hypothesis W : well_formed g.
Lemma regulated_in br id s : In (id, s) (regulated g br) <-> controlled g br id s.
Proof.
  unfold regulated, controlled. assert (G : forall l acc, In (id, s) (fold_left (fun a r => if r_on r && Bool.eqb (r_branch r) br then insert (r_object r, r_side r) a else a) l acc) <->
    In (id, s) acc \/ exists r, In r l /\ r_on r = true /\ r_branch r = br /\ r_object r = id /\ r_side r = s).
  { induction l as [|r l IH]; intros acc; cbn [fold_left]; [split; [auto|intros [?|[? [[] _]]]; assumption]|]. rewrite IH. destruct (r_on r && Bool.eqb (r_branch r) br) eqn:E.
    - apply andb_true_iff in E. destruct E as [E1 E2]. apply eqb_prop in E2. rewrite insert_in. split.
      + intros [[H|H]|[r' [H1 H2]]]; [right; exists r; inversion H; subst; cbn; auto|auto|right; exists r'; cbn; auto].
      + intros [H|[r' [[<-|H1] [H2 [H3 [H4 H5]]]]]]; [auto|left; left; congruence|right; exists r'; auto].
    - split; [intros [H|[r' [H1 H2]]]; [auto|right; exists r'; cbn; auto]|]. intros [H|[r' [[<-|H1] [H2 [H3 H4]]]]]; [auto| |right; exists r'; auto].
      rewrite H2, H3 in E. cbn in E. destruct br; discriminate. }
  rewrite G. split; [intros [[]|H]; assumption|auto].
Qed.
Lemma controlled_unique br id s br' s' : controlled g br id s -> controlled g br' id s' -> s = s'.
Proof.
  intros [r [H1 [_ [_ [H2 H3]]]]] [r' [H1' [_ [_ [H2' H3']]]]]. enough (r = r') by (subst; congruence).
  pose proof (wf_regulators _ W) as N. revert N H1 H1'. rewrite <- H2 in H2'. clear - H2'. induction (regulators g) as [|x l IH]; intros N H1 H1'; [destruct H1|].
  inversion N as [|? ? N1 N2]; subst. destruct H1 as [<-|H1], H1' as [<-|H1']; auto; exfalso; apply N1; [rewrite <- H2'|rewrite H2']; now apply in_map.
Qed.
Lemma contains_some br id s : contains (regulated g br) id = Some s <-> controlled g br id s.
Proof.
  unfold contains. destruct (find (fun x => fst x =? id) (regulated g br)) as [[i s']|] eqn:E; cbn [option_map snd].
  - apply find_some in E. destruct E as [E1 E2]. cbn in E2. apply Nat.eqb_eq in E2. subst i. apply regulated_in in E1. split; [intros [= <-]; assumption|]. intros C. f_equal. eapply controlled_unique; eassumption.
  - split; [discriminate|]. intros C. apply regulated_in in C. apply (find_none _ _ E) in C. cbn in C. rewrite Nat.eqb_refl in C. discriminate.
Qed.
Lemma contains_none br id : contains (regulated g br) id = None <-> forall s, ~ controlled g br id s.
Proof.
  destruct (contains (regulated g br) id) as [s|] eqn:E; [split; [discriminate|intros H; apply contains_some in E; destruct (H s E)]|]. split; [|reflexivity]. intros _ s C. apply contains_some in C. congruence.
Qed.
Lemma numbered_in {A} (l : list A) i x : In (i, x) (numbered l) <-> nth_error l i = Some x.
Proof.
  unfold numbered. assert (G : forall (l : list A) k i, In (i, x) (combine (seq k (length l)) l) <-> k <= i /\ nth_error l (i - k) = Some x).
  { clear. induction l as [|y l IH]; intros k i; cbn [length seq combine]; [split; [intros []|intros [_ H]; destruct (i - k); discriminate]|]. cbn [In]. rewrite IH. split.
    - intros [H|[H1 H2]]; [inversion H; subst; rewrite Nat.sub_diag; auto|]. split; [lia|]. replace (i - k) with (S (i - S k)) by lia. assumption.
    - intros [H1 H2]. destruct (Nat.eq_dec i k) as [->|N]; [rewrite Nat.sub_diag in H2; inversion H2; auto|]. right. split; [lia|]. replace (i - k) with (S (i - S k)) in H2 by lia. assumption. }
  rewrite G, Nat.sub_0_r. intuition lia.
Qed.
(** an edge stands for a passage *)
Definition stands (e : edge) (a b : nat) (r : option (bool * nat)) : Prop :=
  e_src e = a /\ e_tgt e = b /\ e_reg e = r /\ e_weight e = count r /\ match r with Some i => id_of g i = Some (e_id e) | None => True end.
Definition edge_of (l : list edge) (a b : nat) (r : option (bool * nat)) : Prop := exists e, In e l /\ stands e a b r.
Lemma both_ways_stands x y e : In e (both_ways x y) -> stands e (e_src e) (e_tgt e) None /\ ((e_src e = x /\ e_tgt e = y) \/ (e_src e = y /\ e_tgt e = x)).
Proof. intros [<-|[<-|[]]]; cbn; unfold stands; cbn; auto 10. Qed.
Lemma both_ways_edge x y : edge_of (both_ways x y) x y None /\ edge_of (both_ways x y) y x None.
Proof. split; eexists; [split; [left; reflexivity|]|split; [right; left; reflexivity|]]; unfold stands; cbn; auto 10. Qed.
Lemma edge_of_app l l' a b r : edge_of (l ++ l') a b r <-> edge_of l a b r \/ edge_of l' a b r.
Proof. unfold edge_of. split; [intros [e [H S]]; apply in_app_or in H; destruct H; [left|right]; exists e; auto|intros [[e [H S]]|[e [H S]]]; exists e; (split; [apply in_or_app; auto|assumption])]. Qed.
Lemma edge_of_flat {A} (f : A -> list edge) l x a b r : In x l -> edge_of (f x) a b r -> edge_of (flat_map f l) a b r.
Proof. intros Hx [e [H S]]. exists e. split; [apply in_flat_map; eauto|assumption]. Qed.

(** every edge stands for a passage *)
Lemma line_sound l e : In l (lines g ++ links g) -> In e (line_edges l) -> exists r, stands e (e_src e) (e_tgt e) r /\ passes g (e_src e) (e_tgt e) r.
Proof.
  intros Hl He. unfold line_edges in He. destruct (l_from_on l) eqn:A; [|destruct He]. destruct (l_to_on l) eqn:B; [|destruct He]. cbn [negb orb] in He. apply both_ways_stands in He.
  destruct He as [S [[E1 E2]|[E1 E2]]]; exists None; (split; [assumption|]); rewrite E1, E2; [now apply p_line|now apply p_line_back].
Qed.
Lemma trafo_sound i t e : nth_error (trafos g) i = Some t -> In e (trafo_edges g (i, t)) -> exists r, stands e (e_src e) (e_tgt e) r /\ passes g (e_src e) (e_tgt e) r.
Proof.
  intros Ht He. unfold trafo_edges in He. cbn [snd fst] in He. destruct (t_from_on t) eqn:A; [|destruct He]. destruct (t_to_on t) eqn:B; [|destruct He]. cbn [negb orb] in He.
  destruct (contains (regulated g true) (t_id t)) as [s|] eqn:C.
  - apply contains_some in C. destruct He as [<-|[]]. cbn [e_src e_tgt]. exists (Some (true, i)). split; [unfold stands, id_of; cbn; rewrite Ht; auto 10|].
    pose proof (p_regulated g i t s Ht A B C) as P. destruct C as [r [Hr [_ [Hb [_ Hs]]]]]. pose proof (wf_side _ W r Hr Hb) as Ls. rewrite Hs in Ls. unfold side_node in P. destruct s as [|[|]]; cbn in *; [assumption|assumption|lia].
  - rewrite contains_none in C. apply both_ways_stands in He. destruct He as [S [[E1 E2]|[E1 E2]]]; exists None; (split; [assumption|]); rewrite E1, E2; [eapply p_trafo|eapply p_trafo_back]; eassumption.
Qed.
Lemma pair_sound i u x y e : nth_error (trafo3s g) i = Some u -> x < 3 -> y < 3 -> x <> y -> In e (pair_edges u i (contains (regulated g false) (u_id u)) x y) ->
  exists r, stands e (e_src e) (e_tgt e) r /\ passes g (e_src e) (e_tgt e) r.
Proof.
  intros Hu Hx Hy Nxy He. unfold pair_edges in He. destruct (u_on u x) eqn:A; [|destruct He]. destruct (u_on u y) eqn:B; [|destruct He]. cbn [negb orb] in He.
  destruct (contains (regulated g false) (u_id u)) as [s|] eqn:C.
  - apply contains_some in C. destruct ((u_tap u =? x) || (u_tap u =? y)) eqn:T.
    + destruct He as [<-|[]]. exists (Some (false, i)). split; [unfold stands, id_of; cbn; rewrite Hu; auto 10|]. cbn [e_src e_tgt]. destruct (Nat.eqb_spec (u_tap u) x) as [Ex|Nx].
      * subst x. destruct (Nat.eqb_spec s (u_tap u)) as [->|Ns]; [apply p_towards_tap; auto; congruence|eapply p_from_tap; eauto].
      * cbn in T. apply Nat.eqb_eq in T. subst y. destruct (Nat.eqb_spec s (u_tap u)) as [->|Ns]; [apply p_towards_tap; auto; congruence|eapply p_from_tap; eauto].
    + apply both_ways_stands in He. destruct He as [S [[E1 E2]|[E1 E2]]]; exists None; (split; [assumption|]); rewrite E1, E2; (eapply p_free3; eauto; right; lia).
  - rewrite contains_none in C. apply both_ways_stands in He. destruct He as [S [[E1 E2]|[E1 E2]]]; exists None; (split; [assumption|]); rewrite E1, E2; (eapply p_free3; eauto).
Qed.
Lemma edges_sound e : In e (all_edges g) -> exists r, stands e (e_src e) (e_tgt e) r /\ passes g (e_src e) (e_tgt e) r.
Proof.
  unfold all_edges. rewrite !in_app_iff, !in_flat_map. intros [[[i t] [H He]]|[[[i u] [H He]]|[[l [H He]]|[l [H He]]]]].
  - apply numbered_in in H. eapply trafo_sound; eassumption.
  - apply numbered_in in H. unfold trafo3_edges in He. cbn [snd fst] in He. rewrite !in_app_iff in He. destruct He as [He|[He|He]]; eapply pair_sound in He; eauto; lia.
  - eapply line_sound; [apply in_or_app; left; exact H|assumption].
  - eapply line_sound; [apply in_or_app; right; exact H|assumption].
Qed.
(** and every passage has an edge *)
Lemma all_trafo i t a b r : nth_error (trafos g) i = Some t -> edge_of (trafo_edges g (i, t)) a b r -> edge_of (all_edges g) a b r.
Proof. intros H E. unfold all_edges. rewrite !edge_of_app. left. eapply edge_of_flat; [apply numbered_in; eassumption|assumption]. Qed.
Lemma all_trafo3 i u a b r : nth_error (trafo3s g) i = Some u -> edge_of (trafo3_edges g (i, u)) a b r -> edge_of (all_edges g) a b r.
Proof. intros H E. unfold all_edges. rewrite !edge_of_app. right. left. eapply edge_of_flat; [apply numbered_in; eassumption|assumption]. Qed.
Lemma all_line l a b r : In l (lines g ++ links g) -> edge_of (line_edges l) a b r -> edge_of (all_edges g) a b r.
Proof. intros H E. unfold all_edges. rewrite !edge_of_app. apply in_app_or in H. destruct H; right; right; [left|right]; eapply edge_of_flat; eassumption. Qed.
(** the pair with the sides [x] and [y], in either order *)
Lemma pair_in i u x y a b r : x < 3 -> y < 3 -> x <> y ->
  (forall x' y', (x' = x /\ y' = y) \/ (x' = y /\ y' = x) -> edge_of (pair_edges u i (contains (regulated g false) (u_id u)) x' y') a b r) -> edge_of (trafo3_edges g (i, u)) a b r.
Proof.
  intros Hx Hy N H. unfold trafo3_edges. cbn [fst snd]. rewrite !edge_of_app.
  assert (x = 0 \/ x = 1 \/ x = 2) as [->|[->| ->]] by lia; assert (y = 0 \/ y = 1 \/ y = 2) as [->|[->| ->]] by lia; try lia; first [left; apply H; lia|right; left; apply H; lia|right; right; apply H; lia].
Qed.
Lemma edges_complete a b r : passes g a b r -> edge_of (all_edges g) a b r.
Proof.
  intros P. destruct P as [l Hl A B|l Hl A B|i t Ht A B C|i t Ht A B C|i t s Ht A B C|i u x y Hu Hx Hy N A B C|i u x Hu Hx N A B C|i u y s Hu Hy N A B C Ns].
  - eapply all_line; [eassumption|]. unfold line_edges. rewrite A, B. apply both_ways_edge.
  - eapply all_line; [eassumption|]. unfold line_edges. rewrite A, B. apply both_ways_edge.
  - eapply all_trafo; [eassumption|]. unfold trafo_edges. cbn [fst snd]. rewrite A, B. apply contains_none in C. rewrite C. apply both_ways_edge.
  - eapply all_trafo; [eassumption|]. unfold trafo_edges. cbn [fst snd]. rewrite A, B. apply contains_none in C. rewrite C. apply both_ways_edge.
  - eapply all_trafo; [eassumption|]. unfold trafo_edges. cbn [fst snd]. rewrite A, B. pose proof C as [q [Hr [_ [Hb [_ Hs]]]]]. pose proof (wf_side _ W q Hr Hb) as Ls. rewrite Hs in Ls. apply contains_some in C. rewrite C. cbn [negb orb].
    eexists. split; [left; reflexivity|]. unfold stands, id_of. cbn. rewrite Ht. unfold side_node. destruct s as [|[|]]; cbn; [auto 10|auto 10|lia].
  - eapply all_trafo3; [eassumption|]. apply (pair_in i u x y); [assumption..|]. intros x' y' Q. unfold pair_edges. replace (u_on u x') with true by (destruct Q as [[-> ->]|[-> ->]]; auto). replace (u_on u y') with true by (destruct Q as [[-> ->]|[-> ->]]; auto). cbn [negb orb].
    assert (E : edge_of (both_ways (u_node u x') (u_node u y')) (u_node u x) (u_node u y) None) by (destruct Q as [[-> ->]|[-> ->]]; apply both_ways_edge).
    destruct (contains (regulated g false) (u_id u)) as [s|] eqn:K; [|assumption]. destruct C as [C|[C1 C2]]; [apply contains_none in C; congruence|].
    replace ((u_tap u =? x') || (u_tap u =? y')) with false by (destruct Q as [[-> ->]|[-> ->]]; lia). assumption.
  - eapply all_trafo3; [eassumption|]. pose proof (wf_tap _ W u (nth_error_In _ _ Hu)) as Tp. apply (pair_in i u x (u_tap u)); [assumption..|]. intros x' y' Q. unfold pair_edges. replace (u_on u x') with true by (destruct Q as [[-> ->]|[-> ->]]; auto).
    replace (u_on u y') with true by (destruct Q as [[-> ->]|[-> ->]]; auto). cbn [negb orb]. apply contains_some in C. rewrite C. replace ((u_tap u =? x') || (u_tap u =? y')) with true by (destruct Q as [[-> ->]|[-> ->]]; lia). rewrite Nat.eqb_refl.
    eexists. split; [left; reflexivity|]. unfold stands, id_of. cbn. rewrite Hu. destruct Q as [[-> ->]|[-> ->]]; [replace (u_tap u =? x) with false by lia|rewrite Nat.eqb_refl]; auto 10.
  - eapply all_trafo3; [eassumption|]. pose proof (wf_tap _ W u (nth_error_In _ _ Hu)) as Tp. apply (pair_in i u y (u_tap u)); [assumption..|]. intros x' y' Q. unfold pair_edges. replace (u_on u x') with true by (destruct Q as [[-> ->]|[-> ->]]; auto).
    replace (u_on u y') with true by (destruct Q as [[-> ->]|[-> ->]]; auto). cbn [negb orb]. apply contains_some in C. rewrite C. replace ((u_tap u =? x') || (u_tap u =? y')) with true by (destruct Q as [[-> ->]|[-> ->]]; lia). replace (s =? u_tap u) with false by lia.
    eexists. split; [left; reflexivity|]. unfold stands, id_of. cbn. rewrite Hu. destruct Q as [[-> ->]|[-> ->]]; [replace (u_tap u =? y) with false by lia|rewrite Nat.eqb_refl]; auto 10.
Qed.
Lemma passes_inside a b r : passes g a b r -> a < n_nodes g /\ b < n_nodes g.
Proof.
  intros P. destruct P; try (match goal with H : nth_error _ _ = Some _ |- _ => apply nth_error_In in H end).
  - now apply (wf_line _ W). - destruct (wf_line _ W l); auto. - now apply (wf_trafo _ W). - destruct (wf_trafo _ W t); auto.
  - destruct (wf_trafo _ W t); auto. unfold side_node. destruct (1 - s =? 0), (s =? 0); auto.
  - split; now apply (wf_trafo3 _ W). - split; now apply (wf_trafo3 _ W). - split; now apply (wf_trafo3 _ W).
Qed.
Hypothesis SA : sources_agree g.
Lemma marks_ok v : v < n_nodes g -> (nth v (marks g) false = true <-> exists s, In s (sources g) /\ s_node s = v /\ s_on s = true).
Proof.
  intros Hv. unfold marks. assert (G : forall l m, length m = n_nodes g -> (forall s s', In s l -> In s' l -> s_node s = s_node s' -> s_on s = s_on s') ->
    nth v (fold_left (fun m s => upd (s_node s) (s_on s) m) l m) false = match find (fun s => s_node s =? v) l with Some s => s_on s | None => nth v m false end).
  { induction l as [|s l IH]; intros m Lm Ag; cbn [fold_left find]; [reflexivity|]. rewrite IH; [|now rewrite upd_length|intros; apply Ag; cbn; auto].
    destruct (Nat.eqb_spec (s_node s) v) as [E|N].
    - destruct (find (fun s => s_node s =? v) l) as [s'|] eqn:F; [apply find_some in F; destruct F as [F1 F2]; apply Nat.eqb_eq in F2; apply Ag; cbn; auto; congruence|]. rewrite E. apply nth_upd_eq. lia.
    - destruct (find (fun s => s_node s =? v) l); [reflexivity|]. now apply nth_upd_neq. }
  rewrite G; [|apply repeat_length|exact SA]. destruct (find (fun s => s_node s =? v) (sources g)) as [s|] eqn:F.
  - apply find_some in F. destruct F as [F1 F2]. apply Nat.eqb_eq in F2. split; [intros H; exists s; auto|]. intros [s' [H1 [H2 H3]]]. rewrite <- H3. apply SA; auto. congruence.
  - rewrite nth_repeat. split; [discriminate|]. intros [s' [H1 [H2 _]]]. apply (find_none _ _ F) in H1. rewrite H2, Nat.eqb_refl in H1. discriminate.
Qed.
Lemma reach_path v k : reach (all_edges g) (fun v => exists s, In s (sources g) /\ s_node s = v /\ s_on s = true) v k <-> path g v k.
Proof.
  split.
  - induction 1 as [v [s [H1 [<- H3]]]|e k R IH He]; [now apply at_source|]. destruct (edges_sound e He) as [r [[_ [_ [_ [-> _]]]] P]]. eapply further; eassumption.
  - induction 1 as [s H1 H2|a b r k P IH Q]; [apply re_start; exists s; auto|]. destruct (edges_complete a b r Q) as [e [He [<- [<- [_ [<- _]]]]]]. now apply re_edge.
Qed.
(** the distances that the search finds *)
Lemma grid_distances : exists d, distances (n_nodes g) (all_edges g) (marks g) = Some d /\ forall v, match dist d v with Some k => distance g v k | None => ~ fed g v end.
Proof.
  destruct (distances_ok (all_edges g) (fun v => exists s, In s (sources g) /\ s_node s = v /\ s_on s = true) (n_nodes g)) with (m := marks g) as [d [E H]].
  - intros e He. destruct (edges_sound e He) as [r [_ P]]. eapply passes_inside; eassumption.
  - intros e He. destruct (edges_sound e He) as [r [[_ [_ [_ [-> _]]]] _]]. destruct r; cbn; lia.
  - apply marks_ok.
  - intros v [s [H1 [<- _]]]. now apply (wf_source _ W).
  - exists d. split; [assumption|]. intros v. specialize (H v). destruct (dist d v) as [k|].
    + destruct H as [H1 H2]. split; [now apply reach_path|]. intros k' P. apply H2. now apply reach_path.
    + intros [k P]. apply reach_path in P. now apply (H k).
Qed.
Lemma graph_edges_in e : In e (graph_edges (n_nodes g) (all_edges g)) <-> In e (all_edges g).
Proof.
  unfold graph_edges. rewrite in_flat_map. split.
  - intros [v [_ H]]. apply out_in in H. tauto.
  - intros H. exists (e_src e). split; [|apply out_in; auto]. apply in_seq. destruct (edges_sound e H) as [r [_ P]]. apply passes_inside in P. lia.
Qed.
Lemma distance_unique v k k' : distance g v k -> distance g v k' -> k = k'.
Proof. intros [A B] [C D]. specialize (B _ C). specialize (D _ A). lia. Qed.
Lemma passes_le a b r k : passes g a b r -> distance g a k -> exists k', distance g b k' /\ k' <= k + count r.
Proof.
  intros P [D _]. pose proof (further _ _ _ _ _ D P) as Q. destruct grid_distances as [d [_ H]]. specialize (H b). destruct (dist d b) as [k'|]; [|destruct H; eexists; eassumption].
  exists k'. split; [assumption|]. now apply (proj2 H).
Qed.
(** A three-winding transformer gets the same rank from each of its edges. *)
Lemma free_same a b k k' : passes g a b None -> passes g b a None -> distance g a k -> distance g b k' -> k = k'.
Proof.
  intros P Q D D'. destruct (passes_le _ _ _ _ P D) as [x [Dx Lx]]. destruct (passes_le _ _ _ _ Q D') as [y [Dy Ly]]. cbn in *.
  pose proof (distance_unique _ _ _ Dx D'). pose proof (distance_unique _ _ _ Dy D). lia.
Qed.
(** two passages through one transformer: the ends that differ are connected freely *)
Lemma same_transformer i a b a' b' : passes g a b (Some i) -> passes g a' b' (Some i) ->
  (a = a' \/ (passes g a a' None /\ passes g a' a None)) /\ (b = b' \/ (passes g b b' None /\ passes g b' b None)).
Proof.
  intros P. remember (Some i) as r eqn:Er. destruct P as [l Hl A B|l Hl A B|i0 t Ht A B C|i0 t Ht A B C|i0 t s Ht A B C|i0 u x y Hu Hx Hy N A B C|i0 u x Hu Hx N A B C|i0 u y s Hu Hy N A B C Ns]; try discriminate; inversion Er; subst i; clear Er; intros Q.
  - inversion Q as [| | | |i1 t1 s1 Ht1 A1 B1 C1| | |]; subst. rewrite Ht in Ht1. inversion Ht1; subst t1. rewrite (controlled_unique _ _ _ _ _ C C1). auto.
  - inversion Q as [| | | | | |i1 u1 x1 Hu1 Hx1 N1 A1 B1 C1|i1 u1 y1 s1 Hu1 Hy1 N1 A1 B1 C1 Ns1]; subst; rewrite Hu in Hu1; inversion Hu1; subst u1.
    + split; [|now left]. destruct (Nat.eq_dec x x1) as [->|Nx]; [now left|]. right. split; eapply p_free3; eauto.
    + exfalso. apply Ns1. symmetry. eapply controlled_unique; eassumption.
  - inversion Q as [| | | | | |i1 u1 x1 Hu1 Hx1 N1 A1 B1 C1|i1 u1 y1 s1 Hu1 Hy1 N1 A1 B1 C1 Ns1]; subst; rewrite Hu in Hu1; inversion Hu1; subst u1.
    + exfalso. apply Ns. eapply controlled_unique; eassumption.
    + split; [now left|]. destruct (Nat.eq_dec y y1) as [->|Nx]; [now left|]. right. split; eapply p_free3; eauto.
Qed.
Lemma distance_same a b k k' : a = b \/ (passes g a b None /\ passes g b a None) -> distance g a k -> distance g b k' -> k = k'.
Proof. intros [->|[P Q]] D D'; [eapply distance_unique; eassumption|exact (free_same _ _ _ _ P Q D D')]. Qed.
Lemma ranked_unique i r r' : ranked g i r -> ranked g i r' -> r = r'.
Proof.
  intros R R'. destruct R as [a b k P D E|a b k k' P D E N], R' as [a1 b1 k1 P1 D1 E1|a1 b1 k1 k1' P1 D1 E1 N1]; destruct (same_transformer _ _ _ _ _ P P1) as [Sa Sb];
    pose proof (distance_same _ _ _ _ Sa D D1); pose proof (distance_same _ _ _ _ Sb E E1); subst; try reflexivity; lia.
Qed.

Section Weights.
Variable d : list (option nat).
Hypothesis Hd : forall v, match dist d v with Some k => distance g v k | None => ~ fed g v end.
Lemma dist_some v k : dist d v = Some k <-> distance g v k.
Proof.
  specialize (Hd v). destruct (dist d v) as [k'|]; [|split; [discriminate|intros [P _]; destruct Hd; eexists; eassumption]]. split; [intros [= <-]; assumption|]. intros D. f_equal. eapply distance_unique; eassumption.
Qed.
Lemma weigh_in r i : In (r, i) (flat_map (weigh d) (graph_edges (n_nodes g) (all_edges g))) <-> ranked g i r.
Proof.
  rewrite in_flat_map. split.
  - intros [e [He H]]. apply graph_edges_in in He. destruct (edges_sound e He) as [q [[_ [_ [Eq _]]] P]]. unfold weigh in H. rewrite Eq in H. destruct q as [i0|]; [|destruct H].
    destruct (dist d (e_src e)) as [a|] eqn:Ea; [|destruct H]. destruct (dist d (e_tgt e)) as [b|] eqn:Eb; [|destruct H]. apply dist_some in Ea, Eb. destruct (Nat.eqb_spec (a + 1) b) as [E|N]; destruct H as [H|[]]; inversion H; subst.
    + eapply r_at; eassumption.
    + eapply r_last; [eassumption..|congruence].
  - intros R. destruct R as [a b k P D E|a b k k' P D E N]; destruct (edges_complete _ _ _ P) as [e [He [<- [<- [Er _]]]]]; exists e; (split; [now apply graph_edges_in|]); unfold weigh; rewrite Er; apply dist_some in D, E; rewrite D, E.
    + rewrite Nat.eqb_refl. now left.
    + replace (k + 1 =? k') with false by lia. now left.
Qed.
Lemma wrong_in id : In id (flat_map (wrong_side d) (graph_edges (n_nodes g) (all_edges g))) <-> exists i a b, passes g a b (Some i) /\ id_of g i = Some id /\ fed g b /\ ~ fed g a.
Proof.
  rewrite in_flat_map. split.
  - intros [e [He H]]. apply graph_edges_in in He. destruct (edges_sound e He) as [q [[_ [_ [Eq [_ Id]]]] P]]. unfold wrong_side in H. rewrite Eq in H. destruct q as [i|]; [|destruct H].
    pose proof (Hd (e_src e)) as Ha. pose proof (Hd (e_tgt e)) as Hb. destruct (dist d (e_src e)) as [a|] eqn:Ea; destruct (dist d (e_tgt e)) as [b|] eqn:Eb; try destruct H as [<-|[]]; try destruct H.
    + exfalso. destruct (passes_le _ _ _ _ P Ha) as [k [[Pk _] _]]. apply Hb. exists k. assumption.
    + exists i, (e_src e), (e_tgt e). refine (conj P (conj Id (conj _ Ha))). destruct Hb as [Pb _]. eexists. eassumption.
  - intros [i [a [b [P [Id [Fb Fa]]]]]]. destruct (edges_complete _ _ _ P) as [e [He [<- [<- [Er [_ Ide]]]]]]. exists e. split; [now apply graph_edges_in|]. unfold wrong_side. rewrite Er.
    pose proof (Hd (e_src e)) as Ha. pose proof (Hd (e_tgt e)) as Hb. destruct (dist d (e_src e)); [exfalso; apply Fa; destruct Ha as [Pa _]; eexists; eassumption|]. destruct (dist d (e_tgt e)); [|contradiction]. left. congruence.
Qed.
End Weights.
End Graph.

(** ** Groups *)
Lemma idx_eqb_eq a b : idx_eqb a b = true <-> a = b.
Proof. unfold idx_eqb. destruct a as [x m], b as [y n]. cbn. rewrite andb_true_iff, eqb_true_iff, Nat.eqb_eq. split; [intros [-> ->]; reflexivity|intros [= -> ->]; auto]. Qed.
Lemma rank_lt_irrefl r : rank_lt r r = false.
Proof. destruct r; cbn; [apply Nat.ltb_irrefl|reflexivity]. Qed.
Lemma rank_lt_trans a b c : rank_lt a b = true -> rank_lt b c = true -> rank_lt a c = true.
Proof. destruct a, b, c; cbn [rank_lt]; try discriminate; auto. intros. lia. Qed.
Lemma rank_total a b : rank_lt a b = false -> rank_lt b a = false -> a = b.
Proof. destruct a, b; cbn [rank_lt]; try discriminate; auto. intros. f_equal. lia. Qed.
(** The groups found so far, latest first: each has a rank of its own, decreasing, and holds exactly the transformers with this rank. *)
Record grouped (l : list (rank * (bool * nat))) (prev : option rank) (gs : list (list (bool * nat))) (ks : list rank) : Prop := {
  gr_len : length ks = length gs;
  gr_prev : prev = hd_error ks;
  gr_dec : StronglySorted (fun x y => rank_lt y x = true) ks;
  gr_in : forall p k gp, nth_error ks p = Some k -> nth_error gs p = Some gp -> gp <> [] /\ NoDup gp /\ forall i, In i gp <-> In (k, i) l;
  gr_all : forall k i, In (k, i) l -> In k ks
}.
Lemma group_snoc l prev gs ks x : grouped l prev gs ks -> (forall y, In y l -> rank_lt (fst x) (fst y) = false) ->
  exists ks', grouped (l ++ [x]) (fst (group_step (prev, gs) x)) (snd (group_step (prev, gs) x)) ks'.
Proof.
  intros G Hx. destruct x as [k i]. cbn [fst] in Hx. unfold group_step. cbn [fst snd].
  destruct (match prev with None => true | Some p => rank_lt p k end) eqn:New.
  - exists (k :: ks). cbn [existsb fst snd app]. assert (Gt : forall k', In k' ks -> rank_lt k' k = true).
    { intros k' H'. rewrite (gr_prev _ _ _ _ G) in New. pose proof (gr_dec _ _ _ _ G) as S. destruct ks as [|k0 ks]; [destruct H'|]. cbn in New. destruct H' as [<-|H']; [assumption|]. inversion S as [|? ? _ F]; subst. rewrite Forall_forall in F. eapply rank_lt_trans; [apply F; assumption|assumption]. }
    assert (Nk : ~ In k ks) by (intros Q; specialize (Gt k Q); rewrite rank_lt_irrefl in Gt; discriminate).
    constructor.
    + cbn. f_equal. apply G.
    + reflexivity.
    + constructor; [apply G|]. apply Forall_forall. exact Gt.
    + intros [|p] k0 gp Ek Eg; cbn in Ek, Eg.
      * inversion Ek; inversion Eg; subst. refine (conj _ (conj _ _)); [discriminate|constructor; [intros []|constructor]|]. intros j. rewrite in_app_iff. cbn. split; [intros [<-|[]]; auto|]. intros [H|[H|[]]]; [exfalso; apply Nk; eapply gr_all; eassumption|inversion H; auto].
      * destruct (gr_in _ _ _ _ G p k0 gp Ek Eg) as [A [B C]]. refine (conj A (conj B _)). intros j. rewrite C, in_app_iff. cbn. split; [auto|]. intros [H|[H|[]]]; [assumption|]. inversion H; subst. exfalso. apply Nk. eapply nth_error_In. eassumption.
    + intros k0 j H. apply in_app_or in H. destruct H as [H|[H|[]]]; [right; eapply gr_all; eassumption|inversion H; now left].
  - destruct prev as [p|]; [|discriminate]. pose proof (gr_prev _ _ _ _ G) as Ep. destruct ks as [|k0 ks]; [discriminate|]. cbn in Ep. inversion Ep; subst p. pose proof (gr_len _ _ _ _ G) as L. destruct gs as [|cur rest]; [discriminate|].
    destruct (gr_in _ _ _ _ G 0 k0 cur eq_refl eq_refl) as [A [B C]].
    assert (Ek : k = k0). { apply rank_total; [|assumption]. destruct cur as [|j cur]; [congruence|]. apply (Hx (k0, j)). apply C. now left. }
    subst k0. exists (k :: ks). destruct (existsb (idx_eqb i) cur) eqn:Ex.
    + apply existsb_exists in Ex. destruct Ex as [j [Hj E]]. apply idx_eqb_eq in E. subst j. cbn [fst snd]. constructor; [apply G|apply G|apply G| |].
      * intros p k0 gp Ek0 Eg. destruct (gr_in _ _ _ _ G p k0 gp Ek0 Eg) as [A' [B' C']]. refine (conj A' (conj B' _)). intros j. rewrite C', in_app_iff. cbn. split; [auto|]. intros [H|[H|[]]]; [assumption|]. inversion H; subst. now apply C.
        (* the same rank and transformer: it is in the list already *)
      * intros k0 j H. apply in_app_or in H. destruct H as [H|[H|[]]]; [eapply gr_all; eassumption|inversion H; now left].
    + cbn [fst snd]. constructor; [apply G|apply G|apply G| |].
      * intros [|p] k0 gp Ek0 Eg; cbn in Ek0, Eg.
        -- inversion Ek0; inversion Eg; subst. refine (conj _ (conj _ _)); [destruct cur; discriminate| |].
           ++ apply NoDup_app_one; [assumption|]. intros H. assert (true = false); [|discriminate]. rewrite <- Ex. symmetry. apply existsb_exists. exists i. split; [assumption|now apply idx_eqb_eq].
           ++ intros j. rewrite !in_app_iff, C. cbn. split; intros [H|[H|[]]]; auto; [subst; auto|inversion H; auto].
        -- destruct (gr_in _ _ _ _ G (S p) k0 gp Ek0 Eg) as [A' [B' C']]. refine (conj A' (conj B' _)). intros j. rewrite C', in_app_iff. cbn. split; [auto|]. intros [H|[H|[]]]; [assumption|]. inversion H; subst.
           exfalso. pose proof (gr_dec _ _ _ _ G) as S. inversion S as [|? ? _ F]; subst. rewrite Forall_forall in F. specialize (F _ (nth_error_In _ _ Ek0)). rewrite rank_lt_irrefl in F. discriminate.
      * intros k0 j H. apply in_app_or in H. destruct H as [H|[H|[]]]; [eapply gr_all; eassumption|inversion H; now left].
Qed.
Lemma group_all : forall l' l prev gs ks, grouped l prev gs ks -> StronglySorted (fun x y => rank_lt (fst y) (fst x) = false) (l ++ l') ->
  exists ks', grouped (l ++ l') (fst (fold_left group_step l' (prev, gs))) (snd (fold_left group_step l' (prev, gs))) ks'.
Proof.
  induction l' as [|x l' IH]; intros l prev gs ks G S; cbn [fold_left]; [rewrite app_nil_r; exists ks; assumption|].
  assert (Hx : forall y, In y l -> rank_lt (fst x) (fst y) = false).
  { clear - S. induction l as [|z l IH]; intros y H; [destruct H|]. cbn in S. inversion S as [|? ? S' F]; subst. destruct H as [<-|H]; [|now apply IH]. rewrite Forall_forall in F. apply F. apply in_or_app. right. now left. }
  destruct (group_snoc l prev gs ks x G Hx) as [ks' G']. destruct (group_step (prev, gs) x) as [prev' gs']. cbn [fst snd] in G'. replace (l ++ x :: l') with ((l ++ [x]) ++ l') in * by (rewrite <- app_assoc; reflexivity). eapply IH; eassumption.
Qed.
Lemma groups_ok sort l : sorts sort -> exists ks, length ks = length (rank_groups sort l) /\ StronglySorted (fun x y => rank_lt x y = true) ks /\
  (forall p k gp, nth_error ks p = Some k -> nth_error (rank_groups sort l) p = Some gp -> gp <> [] /\ NoDup gp /\ forall i, In i gp <-> In (k, i) l) /\ (forall k i, In (k, i) l -> In k ks).
Proof.
  intros So. destruct (So l) as [P Ss]. destruct (group_all (sort l) [] None [] []) as [ks G]; [|exact Ss|].
  - constructor; [reflexivity|reflexivity|constructor| |intros k i []]. intros [|p] k gp Ek; discriminate.
  - cbn [app] in G. exists (rev ks). unfold rank_groups. pose proof (gr_len _ _ _ _ G) as L. refine (conj _ (conj _ (conj _ _))).
    + rewrite !rev_length. exact L.
    + pose proof (gr_dec _ _ _ _ G) as D. clear - D. induction D as [|k ks D IH F]; cbn; [constructor|].
      assert (Ap : forall a b : list rank, StronglySorted (fun x y => rank_lt x y = true) a -> (forall x, In x a -> Forall (fun y => rank_lt x y = true) b) -> StronglySorted (fun x y => rank_lt x y = true) b -> StronglySorted (fun x y => rank_lt x y = true) (a ++ b)).
      { clear. induction a as [|x a IH]; intros b Sa Fab Sb; [assumption|]. inversion Sa; subst. cbn. constructor; [apply IH; auto; intros; apply Fab; now right|]. apply Forall_app. split; [assumption|apply Fab; now left]. }
      apply Ap; [assumption| |repeat constructor]. intros x Hx. apply in_rev in Hx. rewrite Forall_forall in F. constructor; [now apply F|constructor].
    + intros p k gp Ek Eg. assert (Lp : p < length ks) by (rewrite <- (rev_length ks); apply nth_error_Some; congruence).
      assert (R : forall A (xs : list A) q, q < length xs -> nth_error (rev xs) q = nth_error xs (length xs - S q)).
      { clear. intros A xs q H. destruct xs as [|x0 xs']; [cbn in H; lia|]. set (xs := x0 :: xs') in *. rewrite (nth_error_nth' (rev xs) x0) by (rewrite rev_length; lia). rewrite (nth_error_nth' xs x0) by lia. f_equal. apply rev_nth. assumption. }
      rewrite R in Ek by assumption. rewrite R in Eg by lia. rewrite <- L in Eg. destruct (gr_in _ _ _ _ G _ _ _ Ek Eg) as [A [B C]]. refine (conj A (conj B _)). intros i. rewrite C. split; apply Permutation_in; [now symmetry|assumption].
    + intros k i H. rewrite <- in_rev. eapply gr_all; [eassumption|]. eapply Permutation_in; eassumption.
Qed.
Lemma NoDup_app2 {A} (l1 l2 : list A) : NoDup l1 -> NoDup l2 -> (forall x, In x l1 -> ~ In x l2) -> NoDup (l1 ++ l2).
Proof.
  intros H1 H2 HD. induction H1 as [|a l1 Ha H1 IH]; simpl; auto. constructor.
  - rewrite in_app_iff. intros [H|H]; [auto|apply (HD a); simpl; auto].
  - apply IH. intros x Hx. apply HD. simpl. auto.
Qed.
