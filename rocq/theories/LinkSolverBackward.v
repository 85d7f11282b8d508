(** The backward substitution keeps the solutions and leaves each pivot column in its own row only; the flows read off solve the system. *)
From Verif Require Import Common NatMap LinkSolver LinkSolverSpec LinkSolverFacts LinkSolverForward YBusGrid.
From Coq Require Import Ring Sorted.

Section Backward.
Context {F : Type}.
Variable o : flow_ops F.
Hypothesis laws : flow_laws o.
Notation "a +! b" := (f_add o a b) (at level 50, left associativity).
Notation "a *! b" := (f_mul o a b) (at level 40, left associativity).
Notation "a -! b" := (f_sub o a b) (at level 50, left associativity).
Notation zero := (f_0 o).
Notation fz := (f_z o).
Notation big := (big o).
Add Ring Fring : (fl_ring o laws).

Variable es : list edge.
Variable loads : list F.
Notation m := (length es).
Variable w : fw_state F.
Variable rep : nat -> nat.
Hypothesis I : FI o es loads m w rep.
Notation P := (w_pivots w).
Notation K := (length P).
Notation free := (w_free w).
Notation row_holds := (row_holds o es).

(** pivot columns at position [j] and later are done *)
Record BI (j : nat) (M : coo) (rhs : list F) : Prop := {
  b_len : length rhs = K;
  b_done : forall q p r, j <= q -> nth_error P q = Some p -> r <> q -> zv (M r p) = 0%Z;
  b_keep : forall q p r, q < j -> nth_error P q = Some p -> M r p = w_matrix w r p;
  b_own : forall q p, nth_error P q = Some p -> zv (M q p) = 1%Z;
  b_right : forall r c, zv (M r c) <> 0%Z -> exists p, nth_error P r = Some p /\ p <= c < m;
  b_sem : forall x, (forall r, r < K -> row_holds M rhs x r) -> forall r, r < K -> row_holds (w_matrix w) (w_rhs w) x r }.

Lemma BI_start : BI K (w_matrix w) (w_rhs w).
Proof.
  constructor; auto.
  - now apply (fi_row _ _ _ _ _ _ I).
  - intros q p r Hq Hp. assert (q < K) by (apply nth_error_Some; congruence). lia.
  - intros q p Hp. now rewrite (fi_own _ _ _ _ _ _ I q p Hp).
  - intros r c Hz. destruct (w_matrix w r c) as [v|] eqn:E; [|now destruct Hz]. now apply (fi_mat _ _ _ _ _ _ I) in E.
Qed.
Lemma pivot_lt q p : nth_error P q = Some p -> p < m.
Proof. intros H. apply nth_error_In in H. now apply (fi_del _ _ _ _ _ _ I) in H. Qed.
Lemma not_both f : In f P -> ~ In f free.
Proof. intros Hp Hf. apply (fi_free _ _ _ _ _ _ I) in Hf as [_ Hc]. apply (fi_con _ _ _ _ _ _ I) in Hc. tauto. Qed.
Lemma pivots_order q q' p p' : nth_error P q = Some p -> nth_error P q' = Some p' -> q < q' -> p < p'.
Proof. apply sorted_nth. apply (fi_sorted _ _ _ _ _ _ I). Qed.

(** ** one row *)
Lemma row_columns mult q row : forall cols M, q <> row -> NoDup cols -> 
  let M' := fold_left (fun m c => match m q c with Some v => add_to_value (- (mult * v)) row c m | None => m end) cols M in
  forall r c, zv (M' r c) = (zv (M r c) - (if (r =? row)%nat && mem c cols then mult * zv (M q c) else 0))%Z /\ (~ In c cols \/ r <> row -> M' r c = M r c).
Proof.
  induction cols as [|c0 cols IH]; intros M Hq Hnd; cbn zeta; cbn [fold_left].
  - intros r c. change (mem c []) with false. rewrite andb_false_r. split; [lia|auto].
  - apply NoDup_cons_iff in Hnd as [Hn Hnd]. intros r c.
    set (M1 := match M q c0 with Some v => add_to_value (- (mult * v)) row c0 M | None => M end).
    destruct (IH M1 Hq Hnd r c) as [H1 H2].
    assert (Hz : forall r c, zv (M1 r c) = (zv (M r c) - (if (r =? row)%nat && (c =? c0)%nat then mult * zv (M q c0) else 0))%Z).
    { intros r' c'. unfold M1. destruct (M q c0) as [v|] eqn:E; [rewrite add_to_value_zv; destruct ((r' =? row) && (c' =? c0)); cbn [zv]; lia|]. cbn [zv]. destruct ((r' =? row) && (c' =? c0)); lia. }
    assert (Hs : forall r c, c <> c0 \/ r <> row -> M1 r c = M r c).
    { intros r' c' H. unfold M1. destruct (M q c0); auto. apply add_to_value_other. tauto. }
    split.
    + etransitivity; [exact H1|]. rewrite !Hz. change (mem c (c0 :: cols)) with ((c =? c0) || mem c cols). destruct (Nat.eqb_spec q row); [contradiction|]. cbn [andb]. rewrite Z.sub_0_r.
      destruct (Nat.eqb_spec r row); cbn [andb]; [|lia]. destruct (Nat.eqb_spec c c0) as [->|]; cbn [orb]; [|lia].
      rewrite (proj2 (mem_false _ _) Hn). lia.
    + intros H. assert (H' : ~ In c cols \/ r <> row) by (simpl in H; tauto). etransitivity; [exact (H2 H')|]. apply Hs. destruct H as [H|]; auto. left. intros ->. apply H. simpl. auto.
Qed.
Lemma seq_filter_mem p c : mem c (filter (fun c => p <? c) free) = mem c free && (p <? c).
Proof.
  destruct (mem c (filter (fun c => p <? c) free)) eqn:E.
  - apply mem_In, filter_In in E as [H1 H2]. apply mem_In in H1. now rewrite H1, H2.
  - apply mem_false in E. rewrite filter_In in E. destruct (mem c free) eqn:E1; auto. apply mem_In in E1. destruct (p <? c) eqn:E2; tauto.
Qed.

(** inside one pivot column: the rows in [todo] are still to be treated *)
Record CI (q p : nat) (todo : list nat) (M : coo) (rhs : list F) : Prop := {
  c_len : length rhs = K;
  c_done : forall q' p' r, q < q' -> nth_error P q' = Some p' -> r <> q' -> zv (M r p') = 0%Z;
  c_col : forall r, r <> q -> ~ In r todo -> zv (M r p) = 0%Z;
  c_todo : forall r, In r todo -> M r p = w_matrix w r p;
  c_keep : forall q' p' r, q' < q -> nth_error P q' = Some p' -> M r p' = w_matrix w r p';
  c_own : forall q p, nth_error P q = Some p -> zv (M q p) = 1%Z;
  c_right : forall r c, zv (M r c) <> 0%Z -> exists p, nth_error P r = Some p /\ p <= c < m;
  c_sem : forall x, (forall r, r < K -> row_holds M rhs x r) -> forall r, r < K -> row_holds (w_matrix w) (w_rhs w) x r }.

Lemma row_step q p row todo M rhs : nth_error P q = Some p -> row < q -> w_matrix w row p <> None -> NoDup (row :: todo) -> CI q p (row :: todo) M rhs ->
  exists M' rhs', substitute_row o free p q (Some (M, rhs)) row = Some (M', rhs') /\ CI q p todo M' rhs'.
Proof.
  intros Hp Hrq Hnone Hnd [C1 C2 C3 C4 C5 C6 C7 C8]. apply NoDup_cons_iff in Hnd as [Hnt Hnd].
  assert (HqK : q < K) by (apply nth_error_Some; congruence). assert (Hpm : p < m) by (eapply pivot_lt; eauto).
  assert (HpP : In p P) by (eapply nth_error_In; eauto).
  unfold substitute_row. rewrite (C4 row) by (simpl; auto). destruct (w_matrix w row p) as [mult|] eqn:Emult; [|congruence]. clear Hnone.
  assert (Hval : zv (M row p) = mult) by (rewrite C4 by (simpl; auto); now rewrite Emult).
  set (M1 := add_to_value (- mult) row p M).
  set (cols := filter (fun c => p <? c) free).
  pose proof (row_columns mult q row cols M1 ltac:(lia) (NoDup_filter _ (sorted_NoDup _ (proj2 (fi_sorted _ _ _ _ _ _ I))))) as HM. cbn zeta in HM.
  eexists. eexists. split; [reflexivity|].
  match goal with |- CI _ _ _ ?X _ => set (M2 := X) end.
  change (forall r c, zv (M2 r c) = (zv (M1 r c) - (if (r =? row)%nat && mem c cols then mult * zv (M1 q c) else 0))%Z /\ (~ In c cols \/ r <> row -> M2 r c = M1 r c)) in HM. clearbody M2.
  set (rhs2 := upd row _ rhs).
  (* the pivot row *)
  assert (Hprow : forall c, zv (M q c) <> 0%Z -> c = p \/ (In c free /\ p < c)).
  { intros c Hz. destruct (C7 q c Hz) as (p0 & Ep & Hc). rewrite Hp in Ep. injection Ep as <-. destruct (fi_part _ _ _ _ _ _ I c) as [Hin|Hin]; [lia| |].
    - left. destruct (In_nth_error _ _ Hin) as [q' Hq']. destruct (Nat.lt_trichotomy q' q) as [Hlt|[->|Hlt]].
      + pose proof (pivots_order _ _ _ _ Hq' Hp Hlt). lia.
      + congruence.
      + exfalso. apply Hz. apply (C2 q' c q Hlt Hq'). lia.
    - right. split; auto. assert (c <> p) by (intros ->; now apply (not_both p)). lia. }
  assert (Hown : zv (M q p) = 1%Z) by auto.
  (* the new matrix *)
  assert (HZ : forall r c, zv (M2 r c) = (zv (M r c) - (if (r =? row)%nat then mult * zv (M q c) else 0))%Z).
  { intros r c. destruct (HM r c) as [H1 _]. rewrite H1. unfold M1. rewrite !add_to_value_zv. destruct (Nat.eqb_spec q row); [lia|]. cbn [andb]. rewrite Z.add_0_r.
    destruct (Nat.eqb_spec r row) as [->|]; cbn [andb]; [|lia]. unfold cols. rewrite seq_filter_mem.
    destruct (Nat.eqb_spec c p) as [->|Hc]; cbn [andb].
    - rewrite Hown. destruct (Nat.ltb_spec p p); [lia|]. rewrite andb_false_r. lia.
    - destruct (Z.eq_dec (zv (M q c)) 0) as [E0|E0]; [rewrite E0; destruct (mem c free && (p <? c)); lia|].
      destruct (Hprow c E0) as [|[Hf Hlt]]; [contradiction|]. apply mem_In in Hf. rewrite Hf. destruct (Nat.ltb_spec p c); [|lia]. cbn [andb]. lia. }
  assert (HS : forall r c, (c <> p /\ ~ In c free) \/ r <> row -> M2 r c = M r c).
  { intros r c H. destruct (HM r c) as [_ H2]. rewrite H2.
    - unfold M1. apply add_to_value_other. tauto.
    - destruct H as [[H3 H4]|]; auto. left. unfold cols. rewrite filter_In. tauto. }
  assert (HR : forall r, load_at o rhs2 r = if r =? row then load_at o rhs row -! fz mult *! load_at o rhs q else load_at o rhs r).
  { intros r. unfold rhs2, load_at at 1. rewrite nth_upd by lia. auto. }
  assert (Hrow0 : forall q' p', nth_error P q' = Some p' -> q' <> q -> zv (M q p') = 0%Z).
  { intros q' p' Hq' Hne. destruct (Z.eq_dec (zv (M q p')) 0) as [|E0]; auto. exfalso. destruct (Hprow p' E0) as [->|[Hf _]].
    - apply Hne. apply (NoDup_nth_error P); [apply sorted_NoDup, (fi_sorted _ _ _ _ _ _ I)|apply nth_error_Some; congruence|congruence].
    - apply (not_both p'); auto. eapply nth_error_In; eauto. }
  constructor.
  - unfold rhs2. now rewrite upd_length.
  - intros q' p' r Hq' Hp' Hr. rewrite HZ. rewrite (C2 q' p' r), (Hrow0 q' p') by (auto; lia). destruct (r =? row); lia.
  - intros r Hr Ht. rewrite HZ, Hown. destruct (Nat.eqb_spec r row) as [->|]; [lia|]. rewrite C3; auto. intros [E|]; auto.
  - intros r Hr. rewrite HS by (right; intros ->; contradiction). apply C4. simpl; auto.
  - intros q' p' r Hq' Hp'. rewrite HS; [apply (C5 q'); auto|]. left. split.
    + intros ->. assert (q' = q); [|lia]. apply (NoDup_nth_error P); [apply sorted_NoDup, (fi_sorted _ _ _ _ _ _ I)|apply nth_error_Some; congruence|congruence].
    + apply not_both. eapply nth_error_In; eauto.
  - intros q' p' Hp'. rewrite HZ. destruct (Nat.eqb_spec q' row) as [->|]; [|rewrite C6 by auto; lia]. rewrite (C6 row p' Hp'), (Hrow0 row p') by (auto; lia). lia.
  - intros r c Hz. rewrite HZ in Hz. destruct (Nat.eqb_spec r row) as [->|]; [|apply C7; lia].
    destruct (Z.eq_dec (zv (M row c)) 0) as [E0|E0]; [|now apply C7]. destruct (Z.eq_dec (zv (M q c)) 0) as [E1|E1]; [rewrite E0, E1 in Hz; lia|].
    destruct (C7 q c E1) as (p0 & Ep & Hc). rewrite Hp in Ep. injection Ep as <-.
    destruct (nth_error P row) as [pr|] eqn:Er; [|apply nth_error_None in Er; lia]. exists pr. split; auto. pose proof (pivots_order _ _ _ _ Er Hp Hrq). lia.
  - intros x Hx. apply C8. intros r Hr.
    assert (Hq : row_holds M rhs x q).
    { specialize (Hx q HqK). unfold LinkSolverForward.row_holds in *. rewrite HR in Hx. destruct (Nat.eqb_spec q row); [lia|]. rewrite <- Hx. apply big_ext. intros c _. rewrite HZ. destruct (Nat.eqb_spec q row); [lia|]. now rewrite Z.sub_0_r. }
    specialize (Hx r Hr). unfold LinkSolverForward.row_holds in *. rewrite HR in Hx. destruct (Nat.eqb_spec r row) as [Er|Hne].
    + rewrite Er in *. clear Er. assert (E : big m (fun c => fz (zv (M2 row c)) *! x c) = big m (fun c => fz (zv (M row c)) *! x c) +! fz (- mult) *! big m (fun c => fz (zv (M q c)) *! x c)).
      { rewrite <- (big_scale o laws), <- (big_add o laws). apply big_ext. intros c _. rewrite HZ, Nat.eqb_refl. unfold Z.sub. rewrite (fl_zadd o laws).
        replace (- (mult * zv (M q c)))%Z with (- mult * zv (M q c))%Z by lia. rewrite (fl_zmul o laws). ring. }
      rewrite E, Hq in Hx. rewrite (fz_neg o laws) in Hx.
      transitivity ((big m (fun c => fz (zv (M row c)) *! x c) +! f_neg o (fz mult) *! load_at o rhs q) +! fz mult *! load_at o rhs q); [ring|]. rewrite Hx. ring.
    + rewrite <- Hx. apply big_ext. intros c _. rewrite HZ. destruct (Nat.eqb_spec r row); [contradiction|]. now rewrite Z.sub_0_r.
Qed.
Lemma rows_step q p : nth_error P q = Some p -> forall todo M rhs, (forall r, In r todo -> r < q /\ w_matrix w r p <> None) -> NoDup todo -> CI q p todo M rhs ->
  exists M' rhs', fold_left (substitute_row o free p q) todo (Some (M, rhs)) = Some (M', rhs') /\ CI q p [] M' rhs'.
Proof.
  intros Hp. induction todo as [|row todo IH]; intros M rhs Ht Hnd C; [simpl; eauto|].
  destruct (row_step q p row todo M rhs) as (M1 & rhs1 & E & C'); auto; try (apply Ht; simpl; auto).
  cbn [fold_left]. rewrite E. apply IH; auto; [intros r Hr; apply Ht; simpl; auto|now apply NoDup_cons_iff in Hnd].
Qed.

(** the last row recorded for a pivot is its own *)
Lemma hist_last q p : nth_error P q = Some p -> exists pre, rows_at (w_hist w) p = pre ++ [q] /\ NoDup pre /\ forall r, In r pre <-> (r < q /\ w_matrix w r p <> None).
Proof.
  intros Hp. assert (Hpm : p < m) by (eapply pivot_lt; eauto). destruct (fi_hist _ _ _ _ _ _ I p Hpm) as [Hs Hin].
  assert (Hq : In q (rows_at (w_hist w) p)) by (apply Hin; rewrite (fi_own _ _ _ _ _ _ I q p Hp); discriminate).
  assert (Hle : forall r, In r (rows_at (w_hist w) p) -> r <= q).
  { intros r Hr. apply Hin in Hr. destruct (w_matrix w r p) as [v|] eqn:E; [|congruence]. apply (fi_mat _ _ _ _ _ _ I) in E as (pr & Epr & Hle). destruct (Nat.le_gt_cases r q) as [|Hlt]; auto.
    pose proof (pivots_order _ _ _ _ Hp Epr Hlt). lia. }
  destruct (in_split _ _ Hq) as (pre & post & E). rewrite E in Hs, Hin, Hle.
  assert (post = []) as ->.
  { destruct post as [|z post]; auto. exfalso. assert (z <= q) by (apply Hle; rewrite in_app_iff; simpl; auto).
    assert (q < z); [|lia]. apply (sorted_nth _ Hs (length pre) (S (length pre))); [rewrite nth_error_app2, Nat.sub_diag by lia; reflexivity| |lia].
    rewrite nth_error_app2 by lia. replace (S (length pre) - length pre) with 1 by lia. reflexivity. }
  exists pre. split; auto. apply sorted_NoDup in Hs. split; [now apply NoDup_remove_1 in Hs; rewrite app_nil_r in Hs|].
  intros r. split.
  - intros Hr. split; [|apply Hin; rewrite in_app_iff; auto]. assert (r <= q) by (apply Hle; rewrite in_app_iff; auto). assert (r <> q); [|lia]. intros ->. apply NoDup_remove_2 in Hs. rewrite app_nil_r in Hs. auto.
  - intros [Hr Hn]. apply Hin in Hn. apply in_app_iff in Hn as [|[|[]]]; auto. lia.
Qed.

Lemma pivot_step q p M rhs : nth_error P q = Some p -> BI (S q) M rhs -> exists M' rhs', substitute_pivot o free (w_hist w) (Some (M, rhs)) p = Some (M', rhs') /\ BI q M' rhs'.
Proof.
  intros Hp [B1 B2 B3 B4 B5 B6]. destruct (hist_last q p Hp) as (pre & E & Hnd & Hpre). unfold substitute_pivot. rewrite E, last_last, rev_unit. simpl tl.
  destruct (rows_step q p Hp (rev pre) M rhs) as (M' & rhs' & E' & [C1 C2 C3 C4 C5 C6 C7 C8]).
  - intros r Hr. apply in_rev in Hr. now apply Hpre.
  - apply NoDup_rev. auto.
  - constructor; auto.
    + intros r Hr Hn. rewrite <- in_rev, Hpre in Hn. rewrite (B3 q p r) by auto. destruct (w_matrix w r p) as [v|] eqn:Ev; auto. exfalso. apply Hn. split; [|congruence].
      pose proof Ev as Ev'. apply (fi_mat _ _ _ _ _ _ I) in Ev' as (pr & Epr & Hle). destruct (Nat.lt_trichotomy r q) as [|[|Hlt]]; auto; [congruence|]. pose proof (pivots_order _ _ _ _ Hp Epr Hlt). lia.
    + intros r _. apply (B3 q p r); auto.
    + intros q' p' r Hq' Hp'. apply (B3 q'); auto.
  - exists M', rhs'. split; auto. constructor; auto. intros q' p' r Hq' Hp' Hr. destruct (Nat.eq_dec q' q) as [->|]; [|apply (C2 q'); auto; lia]. rewrite Hp in Hp'. injection Hp' as <-. apply C3; auto.
Qed.
Lemma back_steps : forall l pre post M rhs, P = pre ++ l ++ post -> BI (length pre + length l) M rhs ->
  exists M' rhs', fold_left (substitute_pivot o free (w_hist w)) (rev l) (Some (M, rhs)) = Some (M', rhs') /\ BI (length pre) M' rhs'.
Proof.
  induction l as [|p l IH] using rev_ind; intros pre post M rhs E B.
  - simpl in *. rewrite Nat.add_0_r in B. eauto.
  - rewrite rev_unit. cbn [fold_left]. rewrite app_length in B. simpl in B. rewrite <- app_assoc in E.
    destruct (pivot_step (length pre + length l) p M rhs) as (M1 & rhs1 & E1 & B1).
    + rewrite E, nth_error_app2 by lia. rewrite nth_error_app2 by lia. replace (length pre + length l - length pre - length l) with 0 by lia. reflexivity.
    + now replace (S (length pre + length l)) with (length pre + (length l + 1)) by lia.
    + rewrite E1. apply (IH pre (p :: post)); auto.
Qed.
Lemma back_done : exists M rhs, backward_substitution o w = Some (M, rhs) /\ BI 0 M rhs.
Proof.
  unfold backward_substitution. pose proof BI_start as B. destruct P as [|p0 l] eqn:EP.
  - simpl. exists (w_matrix w), (w_rhs w). split; auto.
  - cbn [tl]. destruct (back_steps l [p0] [] (w_matrix w) (w_rhs w)) as (M & rhs & E & B').
    + rewrite EP, app_nil_r. reflexivity.
    + exact B.
    + exists M, rhs. split; auto. simpl in B'. destruct B' as [B1 B2 B3 B4 B5 B6]. constructor; auto; try (intros; lia).
      intros q p r _ Hp Hr. destruct q as [|q]; [|apply (B2 (S q)); auto; lia].
      destruct (Z.eq_dec (zv (M r p)) 0) as [|E0]; auto. exfalso. destruct (B5 r p E0) as (pr & Epr & Hle).
      assert (p < pr) by (apply (pivots_order 0 r); auto; lia). lia.
Qed.

(** ** the solutions that are read off *)
Notation nfree := (length free).
Lemma all_edges f : f < m <-> In f P \/ In f free.
Proof.
  split.
  - intros H. now apply (fi_part _ _ _ _ _ _ I).
  - intros [H|H]; [now apply (fi_del _ _ _ _ _ _ I) in H|now apply (fi_free _ _ _ _ _ _ I) in H].
Qed.
Lemma P_NoDup : NoDup P. Proof. apply sorted_NoDup, (fi_sorted _ _ _ _ _ _ I). Qed.
Lemma free_NoDup : NoDup free. Proof. apply sorted_NoDup, (fi_sorted _ _ _ _ _ _ I). Qed.
Lemma count : K + nfree = m.
Proof.
  rewrite <- app_length, <- (seq_length m 0). apply Permutation.Permutation_length. apply Permutation.NoDup_Permutation.
  - apply NoDup_app2; [exact P_NoDup|exact free_NoDup|]. intros x. apply not_both.
  - apply seq_NoDup.
  - intros x. rewrite in_app_iff, in_seq, <- all_edges. lia.
Qed.

Section Read.
Variables (M : coo) (rhs : list F).
Hypothesis B : BI 0 M rhs.
Notation S0 := (set_solution_system o P free M rhs).

Record first_part (j : nat) (s : solution_set) : Prop := {
  fp_len : length (extended_rhs s) = m;
  fp_done : forall q p, q < j -> nth_error P q = Some p -> load_at o (extended_rhs s) p = load_at o rhs q /\ forall c, c < nfree -> zv (dfs_matrix s p c) = zv (M q (nth c free 0));
  fp_free : forall f, In f free -> load_at o (extended_rhs s) f = zero /\ forall c, dfs_matrix s f c = None;
  fp_rest : forall q p c, j <= q -> nth_error P q = Some p -> dfs_matrix s p c = None }.
Lemma dfs_row row p : forall n (d : coo), (forall c, d p c = None) ->
  let d' := fold_left (fun d c => match M row (nth c free 0) with Some v => set_value v p c d | None => d end) (seq 0 n) d in
  (forall c, d' p c = if c <? n then M row (nth c free 0) else None) /\ forall f c, f <> p -> d' f c = d f c.
Proof.
  induction n as [|n IH]; intros d Hd; cbn zeta.
  - simpl. auto.
  - rewrite seq_S, fold_left_app. cbn [fold_left Nat.add]. destruct (IH d Hd) as [H1 H2].
    match type of H1 with forall c, ?X p c = _ => set (d1 := X) in * end. clearbody d1. split.
    + intros c. destruct (M row (nth n free 0)) as [v|] eqn:E.
      * unfold set_value. rewrite coo_put_at, Nat.eqb_refl. cbn [andb]. destruct (Nat.eqb_spec c n) as [->|]; [destruct (Nat.ltb_spec n (S n)); [auto|lia]|].
        rewrite H1. destruct (Nat.ltb_spec c n), (Nat.ltb_spec c (S n)); auto; lia.
      * rewrite H1. destruct (Nat.ltb_spec c n), (Nat.ltb_spec c (S n)); auto; try lia. assert (c = n) by lia. subst. auto.
    + intros f c Hf. destruct (M row (nth n free 0)) as [v|]; auto. unfold set_value. rewrite coo_put_at. destruct (Nat.eqb_spec f p); [contradiction|]. cbn [andb]. auto.
Qed.
Lemma first_loop : forall j, j <= K -> first_part j (fold_left (fun s row =>
    let p := nth row P 0 in
    mkSolutionSet
      (fold_left (fun d c => match M row (nth c free 0) with Some v => set_value v p c d | None => d end) (seq 0 nfree) (dfs_matrix s))
      (upd p (load_at o rhs row) (extended_rhs s))) (seq 0 j) (mkSolutionSet coo_empty (repeat (f_0 o) (K + nfree)))).
Proof.
  induction j as [|j IH]; intros Hj.
  - constructor; simpl.
    + rewrite repeat_length. apply count.
    + intros; lia.
    + intros f Hf. split; auto. unfold load_at. apply nth_repeat.
    + auto.
  - rewrite seq_S, fold_left_app. cbn [fold_left Nat.add]. destruct IH as [H1 H2 H3 H4]; [lia|]. set (s := fold_left _ (seq 0 j) _) in *. clearbody s.
    destruct (nth_error P j) as [p|] eqn:Ep; [|apply nth_error_None in Ep; lia]. rewrite (nth_error_nth P j 0 Ep). cbn zeta.
    destruct (dfs_row j p nfree (dfs_matrix s)) as [D1 D2]; [intros c; apply (H4 j); auto|]. cbn zeta in D1, D2.
    match type of D1 with forall c, ?X p c = _ => set (d' := X) in * end. clearbody d'.
    assert (Hp : p < m) by (eapply pivot_lt; eauto).
    constructor; cbn [dfs_matrix extended_rhs].
    + now rewrite upd_length.
    + intros q p' Hq Hp'. destruct (Nat.eq_dec q j) as [->|Hn].
      * rewrite Ep in Hp'. injection Hp' as <-. split; [unfold load_at at 1; rewrite nth_upd by lia; now rewrite Nat.eqb_refl|].
        intros c Hc. rewrite D1. destruct (Nat.ltb_spec c nfree); [auto|lia].
      * assert (p' <> p) by (intros ->; apply Hn; apply (proj1 (NoDup_nth_error P) P_NoDup); [apply nth_error_Some; congruence|congruence]).
        destruct (H2 q p') as [E1 E2]; [lia|auto|]. split.
        -- unfold load_at at 1. rewrite nth_upd by lia. destruct (Nat.eqb_spec p' p); [contradiction|auto].
        -- intros c Hc. rewrite D2 by auto. auto.
    + intros f Hf. assert (f <> p) by (intros ->; apply (not_both p); auto; eapply nth_error_In; eauto). destruct (H3 f Hf) as [E1 E2]. split.
      * unfold load_at at 1. rewrite nth_upd by lia. destruct (Nat.eqb_spec f p); [contradiction|auto].
      * intros c. rewrite D2 by auto. auto.
    + intros q p' c Hq Hp'. rewrite D2; [apply (H4 q); auto; lia|]. intros ->. assert (q = j); [|lia]. apply (proj1 (NoDup_nth_error P) P_NoDup); [apply nth_error_Some; congruence|congruence].
Qed.

Record second_part (k : nat) (s : solution_set) : Prop := {
  sp_len : length (extended_rhs s) = m;
  sp_pivot : forall q p, nth_error P q = Some p -> load_at o (extended_rhs s) p = load_at o rhs q /\ forall c, c < nfree -> zv (dfs_matrix s p c) = zv (M q (nth c free 0));
  sp_free : forall k' f, nth_error free k' = Some f -> load_at o (extended_rhs s) f = zero /\ forall c, zv (dfs_matrix s f c) = if ((k' <? k) && (c =? k'))%nat then (-1)%Z else 0%Z }.
Lemma second_loop s0 : first_part K s0 -> forall k, k <= nfree -> second_part k (fold_left (fun s c => mkSolutionSet (set_value (-1) (nth c free 0) c (dfs_matrix s)) (upd (nth c free 0) (f_0 o) (extended_rhs s))) (seq 0 k) s0).
Proof.
  intros [F1 F2 F3 F4]. induction k as [|k IH]; intros Hk.
  - constructor; simpl; auto.
    + intros q p Hp. apply F2; auto. apply nth_error_Some. congruence.
    + intros k' f Hf. destruct (F3 f) as [E1 E2]; [eapply nth_error_In; eauto|]. split; auto. intros c. now rewrite E2.
  - rewrite seq_S, fold_left_app. cbn [fold_left Nat.add]. destruct IH as [H1 H2 H3]; [lia|]. set (s := fold_left _ (seq 0 k) s0) in *. clearbody s.
    destruct (nth_error free k) as [g|] eqn:Eg; [|apply nth_error_None in Eg; lia]. rewrite (nth_error_nth free k 0 Eg).
    assert (Hg : In g free) by (eapply nth_error_In; eauto). assert (Hgm : g < m) by (apply all_edges; auto).
    constructor; cbn [dfs_matrix extended_rhs].
    + now rewrite upd_length.
    + intros q p Hp. destruct (H2 q p Hp) as [E1 E2]. assert (p <> g) by (intros ->; apply (not_both g); auto; eapply nth_error_In; eauto). split.
      * unfold load_at at 1. rewrite nth_upd by lia. destruct (Nat.eqb_spec p g); [contradiction|auto].
      * intros c Hc. unfold set_value. rewrite coo_put_at. destruct (Nat.eqb_spec p g); [contradiction|]. cbn [andb]. auto.
    + intros k' f Hf. destruct (H3 k' f Hf) as [E1 E2]. destruct (Nat.eq_dec k' k) as [->|Hn].
      * rewrite Eg in Hf. injection Hf as <-. split.
        -- unfold load_at. rewrite nth_upd by lia. now rewrite Nat.eqb_refl.
        -- intros c. unfold set_value. rewrite coo_put_at, Nat.eqb_refl. cbn [andb]. destruct (Nat.ltb_spec k (S k)); [|lia]. cbn [andb]. destruct (Nat.eqb_spec c k) as [->|]; auto.
           rewrite E2. destruct (Nat.ltb_spec k k); [lia|auto].
      * assert (f <> g) by (intros ->; apply Hn; apply (proj1 (NoDup_nth_error free) free_NoDup); [apply nth_error_Some; congruence|congruence]). split.
        -- unfold load_at at 1. rewrite nth_upd by lia. destruct (Nat.eqb_spec f g); [contradiction|auto].
        -- intros c. unfold set_value. rewrite coo_put_at. destruct (Nat.eqb_spec f g); [contradiction|]. cbn [andb]. rewrite E2.
           destruct (Nat.ltb_spec k' k), (Nat.ltb_spec k' (S k)); auto; lia.
Qed.
Lemma solution_ok : second_part nfree S0.
Proof. unfold set_solution_system. cbn zeta. apply second_loop; auto. apply first_loop. auto. Qed.

(** ** any choice of the free flows gives a solution *)
Lemma big_list : forall l (g : nat -> F), NoDup l -> (forall c, In c l -> c < m) -> (forall c, c < m -> ~ In c l -> g c = zero) -> big m g = fold_right (fun c acc => g c +! acc) zero l.
Proof.
  induction l as [|c0 l IH]; intros g Hnd Hl H0; simpl.
  - apply big_zero; auto.
  - apply NoDup_cons_iff in Hnd as [Hn Hnd].
    transitivity (big m (fun c => (if c =? c0 then g c0 else zero) +! (if c =? c0 then zero else g c))).
    { apply big_ext. intros c _. destruct (Nat.eqb_spec c c0) as [->|]; ring. }
    rewrite (big_add o laws). f_equal.
    + rewrite (big_one o laws m c0); [now rewrite Nat.eqb_refl|apply Hl; simpl; auto|]. intros c _ Hc. destruct (Nat.eqb_spec c c0); [contradiction|auto].
    + rewrite IH; auto; [|intros; apply Hl; simpl; auto|].
      * clear IH Hl H0 Hnd. induction l as [|c1 l IH]; simpl; auto. rewrite IH by (simpl in Hn; tauto). destruct (Nat.eqb_spec c1 c0) as [->|]; auto. exfalso. apply Hn. simpl; auto.
      * intros c Hc Hnc. destruct (Nat.eqb_spec c c0); auto. apply H0; auto. intros [|]; auto.
Qed.
Lemma fold_nth (g : nat -> F) l : fold_right (fun c acc => g c +! acc) zero l = big (length l) (fun k => g (nth k l 0)).
Proof.
  induction l as [|c l IH] using rev_ind; simpl; auto. rewrite fold_right_app, app_length, Nat.add_1_r. simpl. rewrite nth_middle.
  assert (E : forall l z, fold_right (fun c acc => g c +! acc) z l = fold_right (fun c acc => g c +! acc) zero l +! z).
  { induction l0 as [|y l0 IH0]; intros z; simpl; [ring|]. rewrite IH0. ring. }
  rewrite E, IH. assert (Hb : big (length l) (fun k => g (nth k (l ++ [c]) 0)) = big (length l) (fun k => g (nth k l 0))) by (apply big_ext; intros i Hi; now rewrite app_nth1).
  rewrite Hb. ring.
Qed.
Lemma sum_over_big n (f : nat -> option F) : sum_over o (seq 0 n) f = big n (fun i => match f i with Some v => v | None => zero end).
Proof.
  unfold sum_over. induction n as [|n IH]; auto. rewrite seq_S, fold_left_app. simpl. rewrite IH. destruct (f n); auto. ring.
Qed.
Lemma rows_solved (lam x : nat -> F) : (forall f, f < m -> x f = load_at o (extended_rhs S0) f -! big nfree (fun c => fz (zv (dfs_matrix S0 f c)) *! lam c)) ->
  forall r, r < K -> row_holds M rhs x r.
Proof.
  intros Hx q Hq. destruct (nth_error P q) as [p|] eqn:Ep; [|apply nth_error_None in Ep; lia]. destruct solution_ok as [S1 S2 S3].
  assert (Hp : p < m) by (eapply pivot_lt; eauto). assert (HpP : In p P) by (eapply nth_error_In; eauto).
  unfold LinkSolverForward.row_holds. rewrite (big_list (p :: free)).
  - cbn [fold_right]. rewrite fold_nth, (b_own _ _ _ B q p Ep), (Hx p Hp). destruct (S2 q p Ep) as [-> E2].
    assert (E : big nfree (fun k => fz (zv (M q (nth k free 0))) *! x (nth k free 0)) = big nfree (fun c => fz (zv (dfs_matrix S0 p c)) *! lam c)).
    { apply big_ext. intros k Hk. rewrite E2 by auto. f_equal. destruct (nth_error free k) as [g|] eqn:Eg; [|apply nth_error_None in Eg; lia]. rewrite (nth_error_nth free k 0 Eg).
      rewrite Hx by (apply all_edges; right; eapply nth_error_In; eauto). destruct (S3 k g Eg) as [-> E4].
      rewrite (big_one o laws nfree k); auto.
      - rewrite E4, Nat.eqb_refl. destruct (Nat.ltb_spec k nfree); [|lia]. cbn [andb]. change (fz (-1)) with (fz (- (1))). rewrite (fz_neg o laws). ring.
      - intros i Hi Hn. rewrite E4. destruct (Nat.eqb_spec i k); [contradiction|]. rewrite andb_false_r, (fz0 o laws). ring. }
    rewrite E. ring.
  - constructor; [now apply not_both|exact free_NoDup].
  - intros c [<-|Hc]; auto. apply all_edges. auto.
  - intros c Hc Hn. assert (Hz : zv (M q c) = 0%Z).
    { assert (HcP : In c P) by (apply all_edges in Hc as [|]; auto; exfalso; apply Hn; simpl; auto). destruct (In_nth_error _ _ HcP) as [q' Hq']. apply (b_done _ _ _ B q' c q); auto; [lia|].
      intros ->. apply Hn. left. congruence. }
    rewrite Hz, (fz0 o laws). ring.
Qed.
End Read.

Lemma gauss_length n : forall s, length (naive_gauss_elimination o n s) = length s.
Proof.
  intros s. unfold naive_gauss_elimination.
  assert (H1 : forall l s, length (fold_left (back_row o n) l s) = length s).
  { induction l as [|r l IH]; intros s'; simpl; auto. rewrite IH. unfold back_row, set_last. now rewrite upd_length. }
  assert (H2 : forall c l s, length (fold_left (eliminate_row o n c) l s) = length s).
  { intros c. induction l as [|r l IH]; intros s'; simpl; auto. rewrite IH. unfold eliminate_row. now rewrite upd_length. }
  rewrite H1. unfold gauss_forward. generalize (seq 0 n). intros l. revert s. induction l as [|c l IH]; intros s; simpl; auto. now rewrite IH, H2.
Qed.
End Backward.

Section Compute.
Context {F : Type}.
Variable o : flow_ops F.
Hypothesis laws : flow_laws o.
Add Ring Fring2 : (fl_ring o laws).

Lemma inflow_big : forall es x v, length x = length es -> net_inflow o es x v = big o (length es) (fun f => f_mul o (f_z o (inc (edge_at es f) v)) (load_at o x f)).
Proof.
  induction es as [|[a b] es IH] using rev_ind; intros x v Hx; [destruct x; auto|].
  destruct x as [|z x] using rev_ind; [rewrite app_length in Hx; simpl in Hx; lia|]. rewrite !app_length in Hx. simpl in Hx. clear IHx.
  assert (E : forall es x, length x = length es -> net_inflow o (es ++ [(a, b)]) (x ++ [z]) v = f_add o (net_inflow o es x v) (net_inflow o [(a, b)] [z] v)).
  { clear - laws. induction es as [|[a' b'] es IH]; intros [|y x] H; try discriminate; simpl app; [simpl; destruct (a =? v), (b =? v); ring|].
    injection H as H. cbn [net_inflow] in *. rewrite IH by auto. destruct (a' =? v), (b' =? v); ring. }
  rewrite E by lia. rewrite app_length, Nat.add_1_r. cbn [big]. rewrite IH by lia. f_equal.
  - apply big_ext. intros i Hi. unfold edge_at, load_at. now rewrite !app_nth1 by lia.
  - unfold edge_at, load_at. assert (Hl : length x = length es) by lia. rewrite nth_middle, <- Hl, nth_middle. unfold inc. cbn [fst snd net_inflow].
    destruct (a =? v), (b =? v); simpl; rewrite ?(fl_z0 o laws); try ring; change (f_z o (-1)) with (f_z o (- (1))); rewrite (fz_neg o laws); ring.
Qed.
Lemma kcl_balanced es loads x : length x = length es -> kcl o es loads (fun f => load_at o x f) -> balanced o es loads x.
Proof.
  intros Hx H. split; auto. intros v ld Hv. assert (Hlt : v < length loads) by (apply nth_error_Some; congruence).
  rewrite inflow_big by auto. specialize (H v Hlt). etransitivity; [apply f_equal2; [exact H|reflexivity]|]. unfold load_at. rewrite (nth_error_nth loads v (f_0 o) Hv). ring.
Qed.
Lemma total_big l : total o l = big o (length l) (fun u => load_at o l u).
Proof.
  induction l as [|a l IH] using rev_ind; auto. unfold total in *. rewrite fold_right_app. simpl.
  assert (E : forall l z, fold_right (f_add o) z l = f_add o (fold_right (f_add o) (f_0 o) l) z) by (induction l0 as [|y l0 IH0]; intros z; simpl; [ring|rewrite IH0; ring]).
  rewrite E, IH, app_length, Nat.add_1_r. simpl. unfold load_at at 3. rewrite nth_middle.
  assert (Hb : big o (length l) (fun u => load_at o (l ++ [a]) u) = big o (length l) (fun u => load_at o l u)) by (apply big_ext; intros i Hi; unfold load_at; now rewrite app_nth1).
  rewrite Hb. ring.
Qed.

Theorem computed_balance es loads : link_graph es (length loads) -> total o loads = f_0 o -> clean_run o es loads = true ->
  exists x, compute_loads_link_elements o es loads = Some x /\ balanced o es loads x.
Proof.
  intros [He Hc] Ht Hcl. destruct (FI_final o laws es loads He Hcl) as [rep I].
  destruct (back_done o laws es loads _ rep I) as (M & rhs & Eb & B).
  unfold compute_loads_link_elements. rewrite Eb. set (w := forward_elimination o es loads) in *.
  set (S0 := set_solution_system o (w_pivots w) (w_free w) M rhs).
  destruct (solution_ok o es loads w rep I M rhs) as [S1 S2 S3].
  assert (Hsolve : forall lam x, length x = length es -> (forall f, f < length es -> load_at o x f = f_sub o (load_at o (extended_rhs S0) f) (big o (length (w_free w)) (fun c => f_mul o (f_z o (zv (dfs_matrix S0 f c))) (lam c)))) -> balanced o es loads x).
  { intros lam x Hlx Hx. apply kcl_balanced; auto. apply (FI_end o laws es loads w rep I); auto.
    - now rewrite <- total_big.
    - intros r Hr. rewrite (proj1 (fi_row _ _ _ _ _ _ I)) in Hr.
      apply (b_sem _ _ _ _ _ _ B); auto. apply (rows_solved o laws es loads w rep I M rhs B lam). exact Hx. }
  destruct (length (w_free w)) as [|k] eqn:Ek.
  - exists (extended_rhs S0). split; auto. apply (Hsolve (fun _ => f_0 o)); auto. intros f Hf. simpl. ring.
  - eexists. split; [reflexivity|]. rewrite <- Ek in *.
    set (lamb := map _ _).
    assert (Hll : length lamb = length (w_free w)) by (unfold lamb; rewrite map_length, gauss_length; unfold set_projection_system; now rewrite map_length, seq_length).
    apply (Hsolve (fun c => load_at o lamb c)).
    + unfold compute_internal_loads. now rewrite map_length, seq_length.
    + intros f Hf. unfold compute_internal_loads, load_at at 1.
      erewrite nth_error_nth; [|rewrite nth_error_map, (nth_error_nth' (seq 0 (length (extended_rhs S0))) 0) by (rewrite seq_length; unfold S0; now rewrite S1);
        rewrite seq_nth by (unfold S0; now rewrite S1); reflexivity].
      simpl Nat.add. f_equal.
      rewrite (sum_over_big o laws), Hll. apply big_ext. intros i _. destruct (dfs_matrix S0 f i); simpl; [auto|]. rewrite (fl_z0 o laws). ring.
Qed.
End Compute.
