(** Proofs about datasets. *)
From Verif Require Import Common NatMap Datasets DatasetsSpec.
Open Scope Z_scope.

Section Facts.
Context {V : Type} (default : nat -> V) (known : nat -> bool) (known_attribute : nat -> nat -> bool).
Notation comp := (@component V).
Notation dset := (@dataset V).

(** ** Elements *)
Lemma elements_app b : forall n i m, elements default b i (n + m) =
  match elements default b i n, elements default b (i + Z.of_nat n) m with Some l, Some l' => Some (l ++ l') | _, _ => None end.
Proof.
  induction n as [|n IH]; intros i m; cbn [elements Nat.add].
  - rewrite Z.add_0_r. destruct (elements default b i m); reflexivity.
  - rewrite IH. replace (i + 1 + Z.of_nat n) with (i + Z.of_nat (S n)) by lia.
    destruct (element default b i); [|reflexivity]. destruct (elements default b (i + 1) n); [|reflexivity]. destruct (elements default b (i + Z.of_nat (S n)) m); reflexivity.
Qed.
Lemma elements_some b : forall n i, (forall j, i <= j < i + Z.of_nat n -> element default b j <> None) -> exists l, elements default b i n = Some l /\ length l = n.
Proof.
  induction n as [|n IH]; intros i H; [exists []; auto|]. cbn [elements]. destruct (element default b i) eqn:E; [|exfalso; apply (H i); [lia|assumption]].
  destruct (IH (i + 1)) as [l [-> L]]; [intros; apply H; lia|]. exists (r :: l). cbn. auto.
Qed.
Lemma gather_some : forall (atts : list (nat * option (list V))) i (r : record), (forall a col, In (a, col) atts -> column_at col i <> None) -> gather atts i r <> None.
Proof.
  induction atts as [|[a col] atts IH]; intros i r H; [discriminate|]. cbn [gather]. destruct (column_at col i) eqn:E; [|exfalso; eapply (H a); [left; reflexivity|assumption]].
  apply IH. intros; eapply H; right; eassumption.
Qed.
Lemma nth_error_some {A} (l : list A) n : (n < length l)%nat -> nth_error l n <> None.
Proof. intros H E. apply nth_error_None in E. lia. Qed.
Lemma backed_element (x : comp) i : backed x -> 0 <= i < total x -> element default (buf x) i <> None.
Proof.
  unfold backed, element. intros B Hi. destruct (data (buf x)) as [rows|].
  - replace (i <? 0) with false by lia. apply nth_error_some. lia.
  - apply gather_some. intros a col Hin. specialize (B a col Hin). destruct col as [l|]; cbn; [|lia]. replace (i <? 0) with false by lia. apply nth_error_some. lia.
Qed.
Lemma nth_error_skip {A} (l : list A) n i : nth_error (skipn n l) i = nth_error l (n + i).
Proof. revert l. induction n; intros [|x l]; cbn; auto. destruct i; reflexivity. Qed.
Lemma column_advance col o i : 0 <= o -> 0 <= i -> column_at (advance col o) i = column_at (V := V) col (o + i).
Proof.
  intros Ho Hi. destruct col as [l|]; cbn; [|reflexivity]. replace (i <? 0) with false by lia. replace (o + i <? 0) with false by lia. rewrite nth_error_skip. f_equal. lia.
Qed.
Lemma gather_advance : forall atts o i (r : record), 0 <= o -> 0 <= i -> gather (map (fun q => (fst q, advance (snd q) o)) atts) i r = gather (V := V) atts (o + i) r.
Proof.
  induction atts as [|[a col] atts IH]; intros o i r Ho Hi; [reflexivity|]. cbn [gather map fst snd]. rewrite column_advance by assumption. destruct (column_at col (o + i)); [|reflexivity]. now apply IH.
Qed.
Definition advanced (b : @buffer V) (o : Z) : buffer :=
  mkBuffer (advance (data b) o) (if is_some (data b) then attributes b else map (fun q => (fst q, advance (snd q) o)) (attributes b)) [].
Lemma element_advance b o i : 0 <= o -> 0 <= i -> element default (advanced b o) i = element default b (o + i).
Proof.
  intros Ho Hi. unfold element, advanced. cbn [data attributes]. destruct (data b) as [rows|]; cbn [advance option_map is_some].
  - replace (i <? 0) with false by lia. replace (o + i <? 0) with false by lia. rewrite nth_error_skip. f_equal. lia.
  - now apply gather_advance.
Qed.
Lemma elements_advance b o : 0 <= o -> forall n i, 0 <= i -> elements default (advanced b o) i n = elements default b (o + i) n.
Proof.
  intros Ho. induction n as [|n IH]; intros i Hi; [reflexivity|]. cbn [elements]. rewrite element_advance by assumption. rewrite IH by lia. replace (o + (i + 1)) with (o + i + 1) by lia. reflexivity.
Qed.

(** ** Checks *)
Lemma adjacent_false bad : forall l, adjacent bad l = false <-> forall i, (S i < length l)%nat -> bad (nth i l 0) (nth (S i) l 0) = false.
Proof.
  induction l as [|x l IH]; [split; [intros _ i H; cbn in H; lia|reflexivity]|]. destruct l as [|y l]; [split; [intros _ i H; cbn in H; lia|reflexivity]|].
  cbn [adjacent]. rewrite orb_false_iff, IH. split.
  - intros [H1 H2] [|i] Hi; [exact H1|]. apply (H2 i). cbn [length] in *. lia.
  - intros H. split; [apply (H 0%nat); cbn [length]; lia|]. intros i Hi. apply (H (S i)). cbn [length] in *. lia.
Qed.
Lemma hd_nth (l : list Z) : hd 0 l = nth 0 l 0.
Proof. destruct l; reflexivity. Qed.
Lemma last_nth (l : list Z) : last l 0 = nth (length l - 1) l 0.
Proof.
  induction l as [|x l IH]; [reflexivity|]. destruct l as [|y l]; [reflexivity|]. change (last (x :: y :: l) 0) with (last (y :: l) 0). rewrite IH.
  replace (length (x :: y :: l) - 1)%nat with (S (length (y :: l) - 1)) by (cbn [length]; lia). reflexivity.
Qed.
Lemma nth_firstn (l : list Z) n i : (i < n)%nat -> nth i (firstn n l) 0 = nth i l 0.
Proof. revert l i. induction n; intros [|x l] i H; try lia; [reflexivity|]. destruct i; cbn; [reflexivity|]. apply IHn. lia. Qed.

(** ** Well-formedness of built datasets *)
(** Where scenario [s] begins. *)
Definition bound (x : comp) (s : Z) : Z := if eps x <? 0 then nth (Z.to_nat s) (indptr (buf x)) 0 else eps x * s.
Record good (n : Z) (x : comp) : Prop := {
  g_dense : 0 <= eps x -> indptr (buf x) = [] /\ total x = eps x * n;
  g_sparse : eps x < 0 -> length (indptr (buf x)) = Z.to_nat (n + 1) /\ nth 0 (indptr (buf x)) 0 = 0 /\ nth (Z.to_nat n) (indptr (buf x)) 0 = total x /\
             forall i, (i < Z.to_nat n)%nat -> nth i (indptr (buf x)) 0 <= nth (S i) (indptr (buf x)) 0;
  g_rows : data (buf x) <> None -> attributes (buf x) = [];
  g_atts : NoDup (map fst (attributes (buf x)))
}.
Record well (d : dset) : Prop := {
  w_size : 0 <= batch_size d;
  w_single : is_batch d = false -> batch_size d = 1;
  w_names : NoDup (map name (comps d));
  w_comps : forall x, In x (comps d) -> good (batch_size d) x
}.
Lemma bound_ends n x : 0 <= n -> good n x -> bound x 0 = 0 /\ bound x n = total x.
Proof.
  intros Hn G. unfold bound. destruct (eps x <? 0) eqn:E.
  - destruct (g_sparse _ _ G) as [_ [H0 [H1 _]]]; [lia|]. split; assumption.
  - destruct (g_dense _ _ G) as [_ H]; [lia|]. lia.
Qed.
Lemma bound_step n x s : good n x -> 0 <= s < n -> bound x s <= bound x (s + 1).
Proof.
  intros G Hs. unfold bound. destruct (eps x <? 0) eqn:E; [|nia]. destruct (g_sparse _ _ G) as [_ [_ [_ H]]]; [lia|].
  replace (Z.to_nat (s + 1)) with (S (Z.to_nat s)) by lia. apply H. lia.
Qed.
Lemma bound_mono n x : good n x -> forall k s, 0 <= s -> s + Z.of_nat k <= n -> bound x s <= bound x (s + Z.of_nat k).
Proof.
  intros G. induction k as [|k IH]; intros s Hs Hk; [rewrite Z.add_0_r; lia|].
  replace (s + Z.of_nat (S k)) with (s + Z.of_nat k + 1) by lia. pose proof (bound_step n x (s + Z.of_nat k) G). specialize (IH s). lia.
Qed.
Lemma span_bound n x s : good n x -> 0 <= s < n -> span_of x s = Some (bound x s, bound x (s + 1)).
Proof.
  intros G Hs. unfold span_of, bound. replace (s <? 0) with false by lia. destruct (eps x <? 0) eqn:E; [|reflexivity].
  destruct (g_sparse _ _ G) as [L _]; [lia|]. rewrite (nth_error_nth' _ 0) by lia. rewrite (nth_error_nth' _ 0) by lia. reflexivity.
Qed.
Lemma bound_range n x s : good n x -> 0 <= s < n -> 0 <= bound x s /\ bound x s <= bound x (s + 1) /\ bound x (s + 1) <= total x.
Proof.
  intros G Hs. destruct (bound_ends n x ltac:(lia) G) as [B0 Bn]. pose proof (bound_step n x s G Hs).
  pose proof (bound_mono n x G (Z.to_nat s) 0 ltac:(lia) ltac:(lia)) as M1. pose proof (bound_mono n x G (Z.to_nat (n - (s + 1))) (s + 1) ltac:(lia) ltac:(lia)) as M2.
  replace (0 + Z.of_nat (Z.to_nat s)) with s in M1 by lia. replace (s + 1 + Z.of_nat (Z.to_nat (n - (s + 1)))) with n in M2 by lia. lia.
Qed.
Lemma view_some n x s : good n x -> backed x -> 0 <= s < n ->
  exists l, component_view default x s = Ok l /\ elements default (buf x) (bound x s) (Z.to_nat (bound x (s + 1) - bound x s)) = Some l /\ Z.of_nat (length l) = bound x (s + 1) - bound x s.
Proof.
  intros G B Hs. pose proof (bound_range n x s G Hs) as R. unfold component_view. rewrite (span_bound n) by assumption.
  destruct (elements_some (buf x) (Z.to_nat (bound x (s + 1) - bound x s)) (bound x s)) as [l [-> L]]; [intros j Hj; apply backed_element; [assumption|lia]|].
  exists l. refine (conj eq_refl (conj eq_refl _)). lia.
Qed.
Lemma view_prefix n x : good n x -> backed x -> forall k, Z.of_nat k <= n -> exists vs, length vs = k /\
  (forall s, (s < k)%nat -> component_view default x (Z.of_nat s) = Ok (nth s vs [])) /\ elements default (buf x) 0 (Z.to_nat (bound x (Z.of_nat k))) = Some (concat vs) /\
  Z.of_nat (length (concat vs)) = bound x (Z.of_nat k).
Proof.
  intros G B. induction k as [|k IH]; intros Hk.
  - exists []. destruct (bound_ends n x ltac:(lia) G) as [B0 _]. cbn [Z.of_nat]. rewrite B0. refine (conj eq_refl (conj _ (conj eq_refl eq_refl))). intros; lia.
  - destruct IH as [vs [L [Hv [He Hl]]]]; [lia|]. destruct (view_some n x (Z.of_nat k) G B ltac:(lia)) as [l [Hl1 [Hl2 Hl3]]]. exists (vs ++ [l]).
    pose proof (bound_range n x (Z.of_nat k) G ltac:(lia)) as R. replace (Z.of_nat (S k)) with (Z.of_nat k + 1) by lia. refine (conj _ (conj _ (conj _ _))).
    + rewrite app_length. cbn. lia.
    + intros s Hs. destruct (Nat.eq_dec s k) as [->|N]; [rewrite app_nth2, L, Nat.sub_diag by lia; assumption|]. rewrite app_nth1 by lia. apply Hv. lia.
    + replace (Z.to_nat (bound x (Z.of_nat k + 1))) with (Z.to_nat (bound x (Z.of_nat k)) + Z.to_nat (bound x (Z.of_nat k + 1) - bound x (Z.of_nat k)))%nat by lia.
      rewrite elements_app, He. replace (0 + Z.of_nat (Z.to_nat (bound x (Z.of_nat k)))) with (bound x (Z.of_nat k)) by lia. rewrite Hl2, concat_app. cbn. rewrite app_nil_r. reflexivity.
    + rewrite concat_app, app_length. cbn [concat]. rewrite app_nil_r. lia.
Qed.
Lemma view_whole n x : 0 <= n -> good n x -> backed x -> exists vs, length vs = Z.to_nat n /\
  (forall s, (s < Z.to_nat n)%nat -> component_view default x (Z.of_nat s) = Ok (nth s vs [])) /\ component_view default x (-1) = Ok (concat vs) /\ Z.of_nat (length (concat vs)) = total x.
Proof.
  intros Hn G B. destruct (view_prefix n x G B (Z.to_nat n) ltac:(lia)) as [vs [L [Hv [He Hl]]]]. exists vs. destruct (bound_ends n x Hn G) as [_ Bn].
  replace (Z.of_nat (Z.to_nat n)) with n in He, Hl by lia. rewrite Bn in He, Hl. refine (conj L (conj Hv (conj _ Hl))). unfold component_view, span_of. change (-1 <? 0) with true. cbn iota. rewrite Z.sub_0_r, He. reflexivity.
Qed.

Lemma find_in (d : dset) c x : find_component d c = Some x -> In x (comps d) /\ name x = c.
Proof. intros H. apply find_some in H. destruct H as [H1 H2]. apply Nat.eqb_eq in H2. auto. Qed.
Lemma find_none (d : dset) c : find_component d c = None <-> ~ In c (map name (comps d)).
Proof.
  unfold find_component. induction (comps d) as [|y l IH]; cbn; [tauto|]. destruct (Nat.eqb_spec (name y) c); [split; [discriminate|tauto]|]. rewrite IH. tauto.
Qed.
Lemma find_name (l : list comp) x : NoDup (map name l) -> In x l -> find (fun y => Nat.eqb (name y) (name x)) l = Some x.
Proof.
  induction l as [|y l IH]; intros N HI; [destruct HI|]; destruct HI as [E|H]; cbn [map find] in *; inversion N as [|? ? N1 N2]; subst; [now rewrite Nat.eqb_refl|].
  destruct (Nat.eqb_spec (name y) (name x)) as [E|]; [exfalso; apply N1; rewrite E; now apply in_map|auto].
Qed.
Lemma find_intro (d : dset) x : well d -> In x (comps d) -> find_component d (name x) = Some x.
Proof. intros W H. apply find_name; [apply W|assumption]. Qed.

Lemma check_ok (d : dset) e t p : readable (batch_size d) p -> 0 <= batch_size d ->
  (check_non_uniform d e t p = Ok tt <-> (0 <= e /\ p = None) \/ (e < 0 /\ exists l, p = Some l /\ nth 0 l 0 = 0 /\ nth (Z.to_nat (batch_size d)) l 0 = t /\ forall i, (i < Z.to_nat (batch_size d))%nat -> nth i l 0 <= nth (S i) l 0)).
Proof.
  intros R Hn. unfold check_non_uniform. destruct (e <? 0) eqn:E.
  - destruct p as [l|]; [|split; [discriminate|intros [[? _]|[_ [l [? _]]]]; [lia|discriminate]]]. specialize (R l eq_refl).
    unfold indptr_span. set (n := Z.to_nat (batch_size d + 1)). replace (length l <? n)%nat with false by lia. cbn [bind].
    assert (Ln : length (firstn n l) = n) by (rewrite firstn_length; lia).
    rewrite hd_nth, last_nth, Ln, nth_firstn, nth_firstn by lia. replace (n - 1)%nat with (Z.to_nat (batch_size d)) by lia.
    destruct (nth 0 l 0 =? 0) eqn:A1; cbn [negb orb].
    2: { split; [discriminate|]. intros [[? _]|[_ [l' [H [H1 _]]]]]; [lia|]. inversion H; subst. lia. }
    destruct (nth (Z.to_nat (batch_size d)) l 0 =? t) eqn:A2; cbn [negb].
    2: { split; [discriminate|]. intros [[? _]|[_ [l' [H [_ [H2 _]]]]]]; [lia|]. inversion H; subst. lia. }
    destruct (adjacent (fun x y => y <? x) (firstn n l)) eqn:A3.
    + split; [discriminate|]. intros [[? _]|[_ [l' [H [_ [_ H3]]]]]]; [lia|]. inversion H; subst l'. exfalso. enough (adjacent (fun x y => y <? x) (firstn n l) = false) by congruence.
      apply adjacent_false. intros i Hi. rewrite Ln in Hi. rewrite !nth_firstn by lia. specialize (H3 i). lia.
    + split; [|reflexivity]. intros _. right. split; [lia|]. exists l. refine (conj eq_refl (conj _ (conj _ _))); [lia|lia|]. intros i Hi.
      rewrite adjacent_false in A3. specialize (A3 i). rewrite Ln, !nth_firstn in A3 by lia. lia.
  - destruct p as [l|]; [split; [discriminate|intros [[_ ?]|[? _]]; [discriminate|lia]]|]. split; [left; split; [lia|reflexivity]|reflexivity].
Qed.
Lemma add_buffer_inv (d d' : dset) c e t p rows : add_buffer known d c e t p rows = Ok d' -> exists s,
  check_non_uniform d e t p = Ok tt /\ check_component known d c e t = Ok tt /\ (match p with Some p => indptr_span d p | None => Ok [] end) = Ok s /\
  d' = mkDataset (is_batch d) (batch_size d) (comps d ++ [mkComp c e t (mkBuffer rows [] s)]).
Proof.
  unfold add_buffer, bind. destruct (check_non_uniform d e t p) as [[]| |]; try discriminate. destruct (check_component known d c e t) as [[]| |]; try discriminate.
  destruct (match p with Some p => indptr_span d p | None => Ok [] end) as [s| |]; try discriminate. intros [= <-]. exists s. auto.
Qed.
Lemma well_add (d d' : dset) c e t p rows : well d -> add_buffer known d c e t p rows = Ok d' -> well d'.
Proof.
  intros W H. apply add_buffer_inv in H. destruct H as [s [H1 [H2 [H3 ->]]]]. pose proof (w_size _ W) as Hn.
  unfold check_component in H2. destruct (find_component d c) eqn:F; [discriminate|]. apply find_none in F.
  destruct ((0 <=? e) && negb (e * batch_size d =? t)) eqn:U; [discriminate|]. constructor; cbn [is_batch batch_size comps].
  - assumption.
  - apply W.
  - rewrite map_app. cbn. apply NoDup_app_one; [apply W|assumption].
  - intros x Hx. apply in_app_iff in Hx. destruct Hx as [Hx|[<-|[]]]; [now apply W|].
    assert (R : readable (batch_size d) p \/ 0 <= e).
    { destruct p as [l|]; [|left; intros l [=]]. left. intros l' [= <-]. unfold indptr_span in H3. destruct (length l <? Z.to_nat (batch_size d + 1))%nat eqn:Q; [discriminate|]. lia. }
    constructor; cbn [eps buf indptr total data attributes name].
    + intros He. unfold check_non_uniform in H1. replace (e <? 0) with false in H1 by lia. destruct p; [discriminate|]. inversion H3. split; [reflexivity|lia].
    + intros He. destruct R as [R|R]; [|lia]. apply (check_ok d e t p R Hn) in H1. destruct H1 as [[? _]|[_ [l [-> [Q1 [Q2 Q3]]]]]]; [lia|].
      specialize (R l eq_refl). unfold indptr_span in H3. replace (length l <? Z.to_nat (batch_size d + 1))%nat with false in H3 by lia. inversion H3; subst s.
      rewrite firstn_length. rewrite !nth_firstn by lia. refine (conj _ (conj Q1 (conj Q2 _))); [lia|]. intros i Hi. rewrite !nth_firstn by lia. now apply Q3.
    + reflexivity.
    + constructor.
Qed.
Lemma well_attribute (d d' : dset) c a col : well d -> add_attribute_buffer known_attribute d c a col = Ok d' -> well d'.
Proof.
  intros W H. unfold add_attribute_buffer in H. destruct (find_component d c) as [x|] eqn:F; [|discriminate]. apply find_in in F. destruct F as [Fx Fn].
  destruct (is_some (data (buf x))) eqn:D; [discriminate|]. destruct (existsb (fun q => Nat.eqb (fst q) a) (attributes (buf x))) eqn:X; [discriminate|].
  destruct ((0 <? total x) && negb (is_some col)); [discriminate|]. destruct (negb (known_attribute c a)); [discriminate|]. inversion H; subst d'. clear H.
  set (f := fun y : comp => if Nat.eqb (name y) c then mkComp (name y) (eps y) (total y) (mkBuffer (data (buf y)) (attributes (buf y) ++ [(a, col)]) (indptr (buf y))) else y).
  assert (Nm : map name (map f (comps d)) = map name (comps d)) by (rewrite map_map; apply map_ext; intros y; unfold f; destruct (Nat.eqb (name y) c); reflexivity).
  constructor; cbn [is_batch batch_size comps]; [apply W|apply W|fold f; rewrite Nm; apply W|]. intros y Hy. apply in_map_iff in Hy. destruct Hy as [z [<- Hz]].
  pose proof (w_comps _ W z Hz) as G. unfold f. destruct (Nat.eqb_spec (name z) c) as [E|]; [|exact G].
  assert (z = x). { pose proof (find_intro d z W Hz) as A1. pose proof (find_intro d x W Fx) as A2. rewrite E in A1. rewrite Fn in A2. congruence. } subst z.
  constructor; cbn [eps buf indptr total data attributes name].
  - apply G.
  - apply G.
  - intros N. destruct (data (buf x)); [discriminate|congruence].
  - rewrite map_app. cbn. apply NoDup_app_one; [apply G|]. intros Hin. apply in_map_iff in Hin. destruct Hin as [[a' q] [Ea Hq]]. cbn in Ea. subst a'.
    assert (true = false); [|discriminate]. rewrite <- X. symmetry. apply existsb_exists. exists (a, q). split; [assumption|apply Nat.eqb_refl].
Qed.
Lemma built_well (d : dset) : built known known_attribute d -> well d.
Proof.
  induction 1 as [b n d H|d c e t p rows d' _ IH H|d c a col d' _ IH H].
  - unfold create in H. destruct (n <? 0) eqn:E; [discriminate|]. destruct (negb b && negb (n =? 1)) eqn:B; [discriminate|]. inversion H; subst.
    constructor; cbn; [lia|intros ->; cbn in B; lia|constructor|intros ? []].
  - eapply well_add; eassumption.
  - eapply well_attribute; eassumption.
Qed.

(** ** Parts *)
Definition single_comp (s : Z) (x : comp) : comp := mkComp (name x) (bound x (s + 1) - bound x s) (bound x (s + 1) - bound x s) (advanced (buf x) (bound x s)).
Lemma individual_comp_ok n x s : good n x -> 0 <= s < n -> individual_component s x = Ok (single_comp s x).
Proof.
  intros G Hs. unfold individual_component, single_comp, bound. destruct (eps x <? 0) eqn:E.
  - replace (0 <=? eps x) with false by lia. destruct (g_sparse _ _ G) as [L _]; [lia|]. rewrite (nth_error_nth' _ 0) by lia. rewrite (nth_error_nth' _ 0) by lia. reflexivity.
  - replace (0 <=? eps x) with true by lia. cbn [bind]. replace (eps x * (s + 1) - eps x * s) with (eps x) by ring. reflexivity.
Qed.
Lemma map_out_ok {A B} (f : A -> outcome B) g : forall l, (forall x, In x l -> f x = Ok (g x)) -> map_out f l = Ok (map g l).
Proof. induction l as [|x l IH]; intros H; [reflexivity|]. cbn [map_out map]. rewrite (H x) by (left; reflexivity). cbn [bind]. rewrite IH by (intros; apply H; now right). reflexivity. Qed.
Lemma individual_ok (d : dset) s : well d -> 0 <= s < batch_size d -> individual d s = Ok (mkDataset false 1 (map (single_comp s) (comps d))).
Proof.
  intros W Hs. unfold individual. replace ((s <? 0) || (batch_size d <=? s)) with false by lia.
  rewrite (map_out_ok _ (single_comp s)); [reflexivity|]. intros x Hx. apply (individual_comp_ok (batch_size d)); [now apply W|assumption].
Qed.
Lemma find_map (g : comp -> comp) (Hg : forall x, name (g x) = name x) (l : list comp) c :
  find (fun y => Nat.eqb (name y) c) (map g l) = option_map g (find (fun y => Nat.eqb (name y) c) l).
Proof. induction l as [|x l IH]; cbn; [reflexivity|]. rewrite Hg. destruct (Nat.eqb (name x) c); [reflexivity|assumption]. Qed.
Lemma single_view n x s : good n x -> 0 <= s < n -> component_view default (single_comp s x) (-1) = component_view default x s /\ component_view default (single_comp s x) 0 = component_view default x s.
Proof.
  intros G Hs. pose proof (bound_range n x s G Hs) as R. unfold component_view. rewrite (span_bound n x s) by assumption. unfold single_comp, span_of. cbn [eps total buf].
  change (-1 <? 0) with true. change (0 <? 0) with false. cbn iota. replace (bound x (s + 1) - bound x s <? 0) with false by lia. rewrite Z.mul_0_r, Z.sub_0_r. replace ((bound x (s + 1) - bound x s) * (0 + 1) - 0) with (bound x (s + 1) - bound x s) by ring.
  rewrite elements_advance by lia. rewrite Z.add_0_r. split; reflexivity.
Qed.
Lemma slice_view n x b m j : good n x -> 0 <= eps x -> 0 <= b -> 0 <= j < m -> b + m <= n ->
  component_view default (mkComp (name x) (eps (single_comp b x)) (eps (single_comp b x) * m) (buf (single_comp b x))) j = component_view default x (b + j).
Proof.
  intros G He Hb Hj Hm. unfold component_view. rewrite (span_bound n x (b + j)) by (assumption || lia). unfold span_of, single_comp. cbn [eps total buf]. unfold bound.
  replace (eps x <? 0) with false by lia. replace (j <? 0) with false by lia. replace (eps x * (b + 1) - eps x * b) with (eps x) by ring. replace (eps x <? 0) with false by lia.
  rewrite elements_advance by nia. replace (eps x * b + eps x * j) with (eps x * (b + j)) by ring. replace (eps x * (j + 1) - eps x * j) with (eps x * (b + j + 1) - eps x * (b + j)) by ring. reflexivity.
Qed.

(** ** Columnar records *)
Lemma gather_spec : forall atts i (r q : record), NoDup (map fst atts) -> gather (V := V) atts i r = Some q ->
  (forall a col, In (a, col) atts -> column_at col i = Some (q a)) /\ (forall a, ~ In a (map fst atts) -> q a = r a).
Proof.
  induction atts as [|[a col] atts IH]; intros i r q N H; cbn [gather map fst] in *; [inversion H; subst; split; [intros ? ? []|reflexivity]|].
  inversion N as [|? ? N1 N2]; subst. destruct (column_at col i) as [v|] eqn:C; [|discriminate]. destruct (IH i _ q N2 H) as [I1 I2]. split.
  - intros a' col' [E|Hin]; [|now apply I1]. inversion E; subst. rewrite C. f_equal. rewrite I2 by assumption. now rewrite Nat.eqb_refl.
  - intros a' Ha. rewrite I2 by (intros Q; apply Ha; now right). destruct (Nat.eqb_spec a' a); [subst; exfalso; apply Ha; now left|reflexivity].
Qed.
Lemma existsb_in a l : existsb (Nat.eqb a) l = true <-> In a l.
Proof. rewrite existsb_exists. split; [intros [b [H E]]; apply Nat.eqb_eq in E; now subst|intros H; exists a; split; [assumption|apply Nat.eqb_refl]]. Qed.
Lemma element_agree (rows : list record) atts s1 s2 i (r q : record) : NoDup (map fst atts) -> (forall a col, In (a, col) atts -> col = Some (map (fun r => r a) rows)) ->
  element default (mkBuffer (Some rows) [] s1) i = Some r -> element default (mkBuffer None atts s2) i = Some q -> agrees default (map fst atts) r q.
Proof.
  intros N H E1 E2. unfold element in *. cbn [data attributes] in *. destruct (i <? 0) eqn:Ei; [discriminate|]. destruct (gather_spec _ _ _ _ N E2) as [G1 G2]. intros a.
  destruct (existsb (Nat.eqb a) (map fst atts)) eqn:X.
  - apply existsb_in in X. apply in_map_iff in X. destruct X as [[a' col] [<- Hin]]. cbn [fst]. specialize (G1 _ _ Hin). rewrite (H _ _ Hin) in G1. cbn [column_at] in G1. rewrite Ei in G1.
    erewrite map_nth_error in G1 by eassumption. congruence.
  - apply G2. intros Q. apply existsb_in in Q. congruence.
Qed.
Lemma elements_agree (rows : list record) atts s1 s2 : NoDup (map fst atts) -> (forall a col, In (a, col) atts -> col = Some (map (fun r => r a) rows)) ->
  forall n i l1 l2, elements default (mkBuffer (Some rows) [] s1) i n = Some l1 -> elements default (mkBuffer None atts s2) i n = Some l2 -> Forall2 (agrees default (map fst atts)) l1 l2.
Proof.
  intros N H. induction n as [|n IH]; intros i l1 l2 E1 E2; cbn [elements] in *; [inversion E1; inversion E2; constructor|].
  destruct (element default (mkBuffer (Some rows) [] s1) i) eqn:A; [|discriminate]. destruct (elements default (mkBuffer (Some rows) [] s1) (i + 1) n) eqn:A'; [|discriminate].
  destruct (element default (mkBuffer None atts s2) i) eqn:B; [|discriminate]. destruct (elements default (mkBuffer None atts s2) (i + 1) n) eqn:B'; [|discriminate].
  inversion E1; inversion E2; subst. constructor; [eapply element_agree; eassumption|eapply IH; eassumption].
Qed.
End Facts.

(** ** Chains *)
Lemma keys_mset_length {A} k (v : A) m : mfind k m <> None -> msorted m -> length (mset k v m) = length m.
Proof.
  unfold msorted. induction m as [|[k' v'] m IH]; cbn [mfind mset keys map length]; [congruence|]. intros H HS. inversion HS as [|? ? HS' HF]; subst.
  destruct (Nat.eqb_spec k k'); [subst; rewrite Nat.ltb_irrefl; reflexivity|]. destruct (Nat.ltb_spec k k').
  - exfalso. apply H. destruct (mfind k m) eqn:E; [|reflexivity]. apply mfind_In in E. rewrite Forall_forall in HF. specialize (HF k (in_map fst _ _ E)). cbn in HF. lia.
  - cbn [length]. now rewrite IH.
Qed.
Section Chain.
Variable h : heap.
Hypothesis Ac : acyclic h.
Lemma leads_trans p q r : leads h p q -> leads h q r -> leads h p r.
Proof. induction 1; intros; eapply l_more; eauto. Qed.
Lemma walk_fuel : forall fuel seen this c, NoDup seen -> incl seen (keys h) -> (forall s, In s seen -> leads h s c) -> (length (keys h) < fuel + length seen)%nat -> (fuel <> 0)%nat ->
  walk (S fuel) h this (Some c) <> OutOfFuel.
Proof.
  induction fuel as [|fuel IH]; intros seen this c N I L F F0; [congruence|]. cbn [walk]. destruct (Nat.eqb this c); [discriminate|]. destruct (mfind c h) as [nx|] eqn:E; [|discriminate].
  assert (Hc : In c (keys h)) by (apply mfind_keys; congruence). assert (Nc : ~ In c seen) by (intros Q; apply (Ac c); now apply L).
  assert (N' : NoDup (c :: seen)) by (constructor; assumption). assert (I' : incl (c :: seen) (keys h)) by (intros s [<-|Hs]; auto).
  pose proof (NoDup_incl_length N' I') as Len. cbn [length] in Len. destruct fuel as [|fuel]; [lia|]. destruct nx as [n|]; [|discriminate].
  apply (IH (c :: seen) this n N' I'); [|cbn [length]; lia|lia]. intros s [<-|Hs]; [now apply l_one|]. eapply leads_trans; [apply L; assumption|now apply l_one].
Qed.
Lemma walk_ends this c : walk (S (S (length h))) h this (Some c) <> OutOfFuel.
Proof. apply (walk_fuel (S (length h)) []); [constructor|intros ? []|intros ? []|unfold keys; rewrite map_length; cbn; lia|lia]. Qed.
Lemma walk_found fuel this : forall c, walk fuel h this (Some c) = Found -> this = c \/ leads h c this.
Proof.
  induction fuel as [|fuel IH]; intros c H; cbn [walk] in H; [discriminate|]. destruct (Nat.eqb_spec this c); [auto|]. destruct (mfind c h) as [[n'|]|] eqn:E; try discriminate.
  - right. destruct (IH n' H) as [->|L]; [now apply l_one|eapply l_more; eassumption].
  - destruct fuel; discriminate.
Qed.
Lemma walk_end fuel this : forall c, walk fuel h this (Some c) = End -> this <> c /\ ~ leads h c this /\ mfind c h <> None.
Proof.
  induction fuel as [|fuel IH]; intros c H; cbn [walk] in H; [discriminate|]. destruct (Nat.eqb_spec this c); [discriminate|]. destruct (mfind c h) as [nx|] eqn:E; [|discriminate].
  refine (conj n (conj _ _)); [|congruence]. intros L. destruct nx as [m|].
  - destruct (IH m H) as [A [B _]]. inversion L; subst; rewrite E in H0; inversion H0; subst; contradiction.
  - inversion L; subst; rewrite E in H0; discriminate.
Qed.
End Chain.
Lemma leads_frame h h' t : (forall p, p <> t -> mfind p h' = mfind p h) -> forall p q, leads h' p q -> (leads h p q) \/ (p = t \/ leads h p t).
Proof.
  intros Fr p q L. induction L as [p q E|p q r E L IH].
  - destruct (Nat.eq_dec p t) as [->|N]; [auto|]. left. apply l_one. now rewrite <- Fr.
  - destruct (Nat.eq_dec p t) as [->|N]; [auto|]. rewrite Fr in E by assumption. destruct IH as [I|[->|I]].
    + left. eapply l_more; eassumption.
    + right. right. now apply l_one.
    + right. right. eapply l_more; eassumption.
Qed.
Lemma no_cycle_through h h' t : acyclic h -> (forall p, p <> t -> mfind p h' = mfind p h) -> ~ leads h' t t -> acyclic h'.
Proof.
  intros Ac Fr Nt p L. destruct (Nat.eq_dec p t) as [->|N]; [contradiction|]. destruct (leads_frame h h' t Fr p p L) as [L'|[E|L']]; [now apply (Ac p)|contradiction|].
  (* p reaches t without passing t before, and t reaches p in h' *)
  assert (Q : forall a b, leads h' a b -> a = t \/ b = t \/ leads h a b \/ leads h' t b).
  { intros a b LL. induction LL as [a b E|a b c E LL IH].
    - destruct (Nat.eq_dec a t) as [->|Na]; [auto|]. right. right. left. apply l_one. now rewrite <- Fr.
    - destruct (Nat.eq_dec a t) as [->|Na]; [auto|]. destruct (Nat.eq_dec b t) as [->|Nb]; [right; right; right; assumption|]. destruct IH as [?|[?|[I|I]]]; [contradiction|auto| |auto].
      right. right. left. eapply l_more; [rewrite <- Fr by assumption; eassumption|assumption]. }
  destruct (Q p p L) as [?|[?|[I|I]]]; [contradiction|contradiction|now apply (Ac p)|].
  assert (P : leads h' p t \/ exists x, leads h' p x /\ x = t).
  { clear Q I. left. assert (G : forall a, leads h a t -> a <> t -> leads h' a t).
    { intros a La. remember t as tt eqn:Et in La. induction La as [a b E|a b c E La IH]; intros Na; subst.
      - apply l_one. rewrite Fr by assumption. assumption.
      - destruct (Nat.eq_dec b t) as [->|Nb]; [apply l_one; rewrite Fr by assumption; assumption|]. eapply l_more; [rewrite Fr by assumption; eassumption|auto]. }
    now apply G. }
  destruct P as [P|[x [P ->]]]; apply Nt; eapply leads_trans; eassumption.
Qed.
Lemma call_acyclic h x : acyclic h -> acyclic (fst (do_call h x)).
Proof.
  intros Ac. destruct x as [p|p n|p]; cbn [do_call].
  - destruct (mfind p h) eqn:E; cbn [fst]; [assumption|]. apply (no_cycle_through h _ p); [assumption|intros q Hq; now apply mfind_mset_neq|].
    intros L. inversion L; subst; rewrite mfind_mset_eq in H; discriminate.
  - destruct (mfind p h) eqn:E; cbn [fst]; [|assumption]. destruct (walk (S (S (length h))) h p (Some n)) eqn:W; cbn [fst]; try assumption.
    destruct (walk_end h _ _ _ W) as [W1 [W2 _]]. set (h' := mset p (Some n) h). assert (Fr : forall q, q <> p -> mfind q h' = mfind q h) by (intros q Hq; now apply mfind_mset_neq).
    apply (no_cycle_through h _ p); [assumption|assumption|].
    assert (G : forall a, leads h' a p -> a <> p -> leads h a p).
    { intros a La. remember p as t eqn:Et in La. induction La as [a b E'|a b c E' La IH]; intros Na; subst.
      - rewrite Fr in E' by assumption. now apply l_one.
      - rewrite Fr in E' by assumption. destruct (Nat.eq_dec b p) as [->|Nb]; [now apply l_one|]. eapply l_more; [eassumption|auto]. }
    intros L. inversion L as [? ? E'|? q ? E' L']; subst; unfold h' in E'; rewrite mfind_mset_eq in E'; inversion E'; subst; [congruence|]. apply W2. apply G; [assumption|congruence].
  - destruct (mfind p h) eqn:E; cbn [fst]; [|assumption]. apply (no_cycle_through h _ p); [assumption|intros q Hq; now apply mfind_merase_neq|].
    intros L. inversion L; subst; rewrite mfind_merase_eq in H; discriminate.
Qed.
Lemma run_acyclic xs : forall h, acyclic h -> acyclic (run h xs).
Proof. induction xs as [|x xs IH]; intros h Ac; [assumption|]. cbn [run]. apply IH. now apply call_acyclic. Qed.
