(** C69: what a caller's logger says after a calculation with threads does not depend on how the threads run. *)
From Verif Require Import Common Logging LoggingSpec LoggingFacts.
From Coq Require Import Permutation String.
Local Open Scope Z_scope.

(** ** The calculation info *)

Lemma info_inv : forall (tr : list (action info_op)) s,
  no_sync tr -> only_ops (fun _ => False) tr -> info_acts tr (fresh_loggers []) = Some s ->
  means (lg_base s) (text_order [] tr) /\ Permutation (text_order [] tr) (handed_in tr).
Proof.
  intros tr s Hs Ho E.
  destruct (trace_inv (Op := info_op) [] info_log info_merge (fun _ _ => []) means means (fun _ => False)
              means_nil means_log means_log
              (fun l evs b evb Hl Hb => means_merge l evs Hl b evb Hb)
              (fun o b evs (F : False) _ => False_ind _ F) [] [] means_nil tr s Hs Ho E) as (Hb & _ & Hp).
  split; [exact Hb|exact Hp].
Qed.

(** Whatever the main thread and the threads do, in whatever order, the report says of every tag what follows from the list
    of what was logged by the main thread and by the threads whose logger is gone: the total of the numbers, the largest one
    for the numbers of iterations, and nothing if there was none. *)
Theorem C69_report : forall (tr : list (action info_op)) s,
  no_sync tr -> only_ops (fun _ => False) tr ->
  info_acts tr (fresh_loggers []) = Some s ->
  forall t, reported t (lg_base s) = expected t (handed_in tr).
Proof.
  intros tr s Hs Ho E t. destruct (info_inv tr s Hs Ho E) as [[_ Hb] Hp].
  rewrite Hb. apply expected_perm. exact Hp.
Qed.

(** Two runs with the same events, in any order and by any threads, have the same report (as a whole, with its order). *)
Theorem C69_schedule : forall (tr tr' : list (action info_op)) s s',
  no_sync tr -> only_ops (fun _ => False) tr -> no_sync tr' -> only_ops (fun _ => False) tr' ->
  info_acts tr (fresh_loggers []) = Some s -> info_acts tr' (fresh_loggers []) = Some s' ->
  Permutation (handed_in tr) (handed_in tr') ->
  lg_base s = lg_base s'.
Proof.
  intros tr tr' s s' Hs Ho Hs' Ho' E E' Hp.
  apply ordered_ext; [apply (info_inv tr s Hs Ho E)|apply (info_inv tr' s' Hs' Ho' E')|].
  intros t. rewrite (C69_report tr s Hs Ho E), (C69_report tr' s' Hs' Ho' E'). apply expected_perm. exact Hp.
Qed.

(** ** A batch *)

Lemma from_start_spec : forall fuel start stride n, (0 < stride)%nat -> (n <= start + fuel)%nat ->
  from_start start stride fuel n
  = filter (fun s => Nat.leb start s && (s mod stride =? start mod stride)%nat)%bool (seq 0 n).
Proof.
  assert (Hnone : forall start stride n, (n <= start)%nat ->
            filter (fun s => Nat.leb start s && (s mod stride =? start mod stride)%nat)%bool (seq 0 n) = []).
  { intros start stride n Hn.
    assert (G : forall l, (forall x, In x l -> (x < start)%nat) ->
              filter (fun s => Nat.leb start s && (s mod stride =? start mod stride)%nat)%bool l = []).
    { induction l as [|x l IH]; intros H; cbn; [reflexivity|].
      pose proof (H x (or_introl eq_refl)) as Hx. destruct (Nat.leb start x) eqn:E; [lia|]. cbn.
      apply IH. intros y Hy; apply H; right; exact Hy. }
    apply G. intros x Hx. apply in_seq in Hx. lia. }
  induction fuel as [|fuel IH]; intros start stride n Hs Hf.
  - cbn. symmetry. apply Hnone. lia.
  - cbn [from_start]. destruct (Nat.ltb start n) eqn:E; [|symmetry; apply Hnone; lia].
    rewrite IH by lia.
    replace (seq 0 n) with (seq 0 start ++ start :: seq (S start) (n - S start))%list.
    2:{ replace n with (start + S (n - S start))%nat at 2 by lia. rewrite seq_app. reflexivity. }
    rewrite !filter_app. cbn [filter]. rewrite Nat.leb_refl, Nat.eqb_refl. cbn [andb].
    assert (H1 : forall q, filter (fun s => Nat.leb (start + q) s && (s mod stride =? (start + q) mod stride)%nat)%bool
                             (seq 0 start) = []).
    { intros q. apply Hnone. lia. }
    pose proof (H1 stride) as H1a. pose proof (H1 0%nat) as H1b. rewrite Nat.add_0_r in H1b.
    rewrite H1a, H1b. cbn [app].
    replace (Nat.leb (start + stride) start) with false by lia. cbn [andb]. f_equal.
    apply filter_ext_in. intros x Hx. apply in_seq in Hx.
    replace ((start + stride) mod stride)%nat with (start mod stride)%nat.
    2:{ replace (start + stride)%nat with (start + 1 * stride)%nat by lia. rewrite Nat.mod_add by lia. reflexivity. }
    destruct (x mod stride =? start mod stride)%nat eqn:Em; [|rewrite !andb_false_r; reflexivity].
    rewrite !andb_true_r. apply Nat.eqb_eq in Em.
    destruct (Nat.leb (start + stride) x) eqn:E1, (Nat.leb start x) eqn:E2; try lia; try reflexivity.
    exfalso.
    pose proof (Nat.div_mod x stride ltac:(lia)) as Dx. pose proof (Nat.div_mod start stride ltac:(lia)) as Ds.
    pose proof (Nat.mod_upper_bound x stride ltac:(lia)). 
    assert (x / stride = start / stride \/ x / stride < start / stride \/ x / stride >= S (start / stride))%nat
      as [Hd | [Hd | Hd]] by lia; nia.
Qed.

(** A run of a batch of [n] scenarios with [k] workers: the main thread logs [before], the workers run in any interleaving,
    the main thread logs [after]. It never fails, and the report says of every tag other than those for the copies of the
    model and the totals of the workers what follows from the events of the main thread and of the scenarios, each taken once:
    it does not depend on the number of workers nor on how they run. *)
Theorem C69_batch : forall copied total scenario before after n k (tr : list (action info_op)),
  (0 < k)%nat ->
  (forall w, le_tag (copied w) = ev_copy_model) -> (forall w, le_tag (total w) = ev_total_batch_calculation_in_thread) ->
  (forall w, (w < k)%nat -> filter (on_child w) tr = worker_acts copied total scenario w k n) ->
  (forall a, In a tr -> exists w, (w < k)%nat /\ on_child w a = true) ->
  exists s,
    info_acts (map MainLog before ++ tr ++ map MainLog after) (fresh_loggers []) = Some s /\
    forall t, t <> ev_copy_model -> t <> ev_total_batch_calculation_in_thread ->
    reported t (lg_base s) = expected t (before ++ flat_map scenario (seq 0 n) ++ after).
Proof.
  intros copied total scenario before after n k tr Hk Hcop Htot Hproj Hown.
  set (whole := (map MainLog before ++ tr ++ map MainLog after)%list).
  assert (Hmain : forall i l, filter (on_child i) (map (@MainLog info_op) l) = []).
  { intros i; induction l; cbn; [reflexivity|assumption]. }
  assert (Hout : forall i, (k <= i)%nat -> filter (on_child i) tr = []).
  { intros i Hi. assert (G : forall l, (forall a, In a l -> In a tr) -> filter (on_child i) l = []).
    { induction l as [|a l IH]; intros Hl; cbn; [reflexivity|].
      destruct (on_child i a) eqn:E.
      - exfalso. destruct (Hown a (Hl a (or_introl eq_refl))) as (w & Hw & Ew).
        destruct a; cbn in E, Ew; try discriminate; lia.
      - apply IH. intros b Hb; apply Hl; right; exact Hb. }
    apply G. auto. }
  assert (Hwhole : forall i, filter (on_child i) whole = filter (on_child i) tr).
  { intros i. unfold whole. rewrite !filter_app, !Hmain, app_nil_r. reflexivity. }
  destruct (acts_progress (Op := info_op) [] info_log info_merge (fun _ _ => []) whole (fresh_loggers [])) as [s Es].
  { intros i. rewrite Hwhole. cbn [fresh_loggers lg_children].
    destruct (Nat.ltb i k) eqn:Ei.
    - rewrite Hproj by lia. unfold worker_acts. cbn [child_run child_step].
      assert (G : forall l d, exists c, child_run (Op := info_op) [] info_log (map (ChildLog i) l ++ [Destroy i])%list (Alive d) = Some c).
      { induction l as [|e l IH]; intros d; [eexists; reflexivity|apply IH]. }
      apply G.
    - rewrite Hout by lia. eexists; reflexivity. }
  exists s. split; [exact Es|]. intros t Ht1 Ht2.
  assert (Hns : no_sync whole).
  { intros i Hi. assert (Hf : In (Sync i) (filter (on_child i) whole)).
    { apply filter_In. split; [exact Hi|]. cbn. apply Nat.eqb_refl. }
    rewrite Hwhole in Hf. destruct (Nat.ltb i k) eqn:Ei; [|rewrite Hout in Hf by lia; destruct Hf].
    rewrite Hproj in Hf by lia. destruct Hf as [Hf | Hf]; [discriminate|].
    apply in_app_or in Hf. destruct Hf as [Hf | [Hf | []]]; [|discriminate].
    apply in_map_iff in Hf. destruct Hf as (e & He & _). discriminate. }
  assert (Hno : only_ops (fun _ => False) whole).
  { intros o Hi. unfold whole in Hi. apply in_app_or in Hi. destruct Hi as [Hi | Hi].
    - apply in_map_iff in Hi. destruct Hi as (e & He & _). discriminate.
    - apply in_app_or in Hi. destruct Hi as [Hi | Hi].
      + destruct (Hown _ Hi) as (w & _ & E). discriminate.
      + apply in_map_iff in Hi. destruct Hi as (e & He & _). discriminate. }
  rewrite (C69_report whole s Hns Hno Es t).
  apply expected_numbers.
  (* every worker's logger is destroyed *)
  assert (Hdes : forall i e, In (ChildLog i e) whole -> is_destroyed i whole = true).
  { intros i e Hi. assert (Hf : In (ChildLog i e) (filter (on_child i) whole)).
    { apply filter_In. split; [exact Hi|]. cbn. apply Nat.eqb_refl. }
    rewrite Hwhole in Hf. destruct (Nat.ltb i k) eqn:Ei; [|rewrite Hout in Hf by lia; destruct Hf].
    assert (Hd : In (Destroy i) (filter (on_child i) whole)).
    { rewrite Hwhole, Hproj by lia. right. apply in_or_app; right; left; reflexivity. }
    apply filter_In in Hd. unfold is_destroyed. apply existsb_exists. exists (Destroy i).
    split; [apply Hd|apply Nat.eqb_refl]. }
  assert (Hall : handed_in whole = logged whole).
  { unfold handed_in, logged.
    assert (G : forall l, (forall a, In a l -> In a whole) ->
      flat_map (fun a => match a with ChildLog i e => if is_destroyed i whole then [e] else []
                                 | MainLog e => [e] | _ => [] end) l
      = flat_map (fun a => match a with ChildLog _ e => [e] | MainLog e => [e] | _ => [] end) l).
    { induction l as [|a l IH]; intros Hl; cbn; [reflexivity|].
      rewrite IH by (intros b Hb; apply Hl; right; exact Hb). f_equal.
      destruct a; try reflexivity. rewrite (Hdes i e (Hl _ (or_introl eq_refl))). reflexivity. }
    apply G. auto. }
  rewrite Hall.
  assert (Hlm : forall l, logged (map (@MainLog info_op) l) = l).
  { induction l; cbn; [reflexivity|]. f_equal. assumption. }
  assert (Hla : forall a b : list (action info_op), logged (a ++ b) = (logged a ++ logged b)%list).
  { intros; apply flat_map_app. }
  unfold whole. rewrite !Hla, !Hlm, !numbers_app.
  apply Permutation_app_head. apply Permutation_app_tail.
  (* the workers share out the actions *)
  assert (P1 : Permutation tr (flat_map (fun w => filter (on_child w) tr) (seq 0 k))).
  { apply partition_perm.
    - apply seq_NoDup.
    - intros w w' x E E'. destruct x; cbn in E, E'; try discriminate; lia.
    - intros x Hx. destruct (Hown x Hx) as (w & Hw & E). exists w. split; [apply in_seq; lia|exact E]. }
  assert (P2 : Permutation (seq 0 n) (flat_map (fun w => from_start w k n n) (seq 0 k))).
  { etransitivity.
    - apply (partition_perm (fun w s => (s mod k =? w)%nat) (seq 0 k)).
      + apply seq_NoDup.
      + intros w w' x E E'. lia.
      + intros x Hx. exists (x mod k)%nat. pose proof (Nat.mod_upper_bound x k ltac:(lia)).
        split; [apply in_seq; lia|apply Nat.eqb_refl].
    - match goal with |- Permutation ?a ?b => replace b with a; [apply Permutation_refl|] end.
      assert (G : forall l, (forall w, In w l -> (w < k)%nat) ->
        flat_map (fun w => filter (fun s => (s mod k =? w)%nat) (seq 0 n)) l = flat_map (fun w => from_start w k n n) l).
      { induction l as [|w l IH]; intros Hl; cbn; [reflexivity|].
        rewrite IH by (intros b Hb; apply Hl; right; exact Hb). f_equal.
        pose proof (Hl w (or_introl eq_refl)) as Hw.
        rewrite from_start_spec by lia. apply filter_ext. intros x. rewrite (Nat.mod_small w k) by lia.
        destruct (x mod k =? w)%nat eqn:E; [|rewrite andb_false_r; reflexivity].
        rewrite andb_true_r. pose proof (Nat.mod_le x k ltac:(lia)). lia. }
      apply G. intros w Hw. apply in_seq in Hw. lia. }
  transitivity (flat_map (fun w => numbers t (flat_map scenario (from_start w k n n))) (seq 0 k)).
  - etransitivity; [unfold numbers, logged; do 2 apply Permutation_flat_map; exact P1|].
    match goal with |- Permutation ?a ?b => replace a with b; [apply Permutation_refl|] end.
    assert (G : forall l, (forall w, In w l -> (w < k)%nat) ->
      flat_map (fun w => numbers t (flat_map scenario (from_start w k n n))) l
      = numbers t (logged (flat_map (fun w => filter (on_child w) tr) l))).
    { induction l as [|w l IH]; intros Hl; cbn [flat_map]; [reflexivity|].
      rewrite IH by (intros b Hb; apply Hl; right; exact Hb). rewrite Hla, numbers_app. f_equal.
      rewrite Hproj by (apply Hl; left; reflexivity). unfold worker_acts.
      assert (Hc : forall l', logged (map (@ChildLog info_op w) l') = l').
      { induction l'; cbn; [reflexivity|]. f_equal. assumption. }
      change (Create w :: map (ChildLog w) (worker_events copied total scenario w k n) ++ [Destroy w])%list
        with ([Create w] ++ map (@ChildLog info_op w) (worker_events copied total scenario w k n) ++ [Destroy w])%list.
      rewrite !Hla, Hc. cbn [logged flat_map app]. rewrite app_nil_r. unfold worker_events.
      change (copied w :: flat_map scenario (from_start w k n n) ++ [total w])%list
        with ([copied w] ++ flat_map scenario (from_start w k n n) ++ [total w])%list.
      rewrite !numbers_app.
      assert (Hz : forall e, le_tag e <> t -> numbers t [e] = []).
      { intros e He. cbn. destruct (le_body e); try reflexivity. destruct (le_tag e =? t) eqn:F; [lia|reflexivity]. }
      rewrite !Hz by (rewrite ?Hcop, ?Htot; congruence). cbn. rewrite app_nil_r. reflexivity. }
    apply G. intros w Hw. apply in_seq in Hw. lia.
  - unfold numbers at 2. 
    etransitivity; [|apply Permutation_flat_map, Permutation_flat_map; symmetry; exact P2].
    match goal with |- Permutation ?a ?b => replace b with a; [apply Permutation_refl|] end.
    generalize (seq 0 k). induction l as [|w l IH]; cbn [flat_map]; [reflexivity|].
    rewrite IH. rewrite !flat_map_app. reflexivity.
Qed.

(** The report is counted once: a logger that is synchronised and later destroyed is counted twice. *)
Theorem C69_sync_refuted : exists (tr : list (action info_op)) s,
  info_acts tr (fresh_loggers []) = Some s /\
  reported ev_math_solver (lg_base s) <> expected ev_math_solver (handed_in tr).
Proof.
  exists [Create 0; ChildLog 0 (mkLogEvent 0 ev_math_solver (BNumber 5)); Sync 0; Destroy 0].
  eexists. split; [reflexivity|]. vm_compute. discriminate.
Qed.

(** ** The text *)

(** With a handler that accepts every text: what the handler has got and what is still to be handed over is, together and in
    this order, every event of the main thread when it was logged and those of every thread together, in the order in which the
    thread logged them, when the thread's logger was destroyed; none is lost and none is shown twice. When the logger itself is
    destroyed, the handler has got all of it. *)
Theorem C69_text : forall accepts (tr : list (action text_op)) s,
  (forall l, accepts l = false) -> no_sync tr -> only_ops (eq TextFlush) tr ->
  text_acts tr (fresh_loggers (mkText [] (Some accepts) [])) = Some s ->
  tl_handed (lg_base s) ++ tl_data (lg_base s) = text_order [] tr /\
  tl_handed (text_destroy (lg_base s)) = text_order [] tr /\
  Permutation (text_order [] tr) (handed_in tr).
Proof.
  intros h tr s Hh Hs Ho E.
  destruct (trace_inv (Op := text_op) (mkText [] None []) text_log1 text_merge
              (fun o => match o with TextClear => text_clear | TextFlush => text_flush end)
              (fun b evs => (tl_handed b ++ tl_data b)%list = evs /\ tl_handler b = Some h) (fun l evs => tl_data l = evs)
              (eq TextFlush)) with (base := mkText [] (Some h) []) (ev0 := @nil log_event) (tr := tr) (s := s)
    as ((Hb & Hd) & _ & Hp); try assumption.
  - reflexivity.
  - intros e l evs <-. reflexivity.
  - intros e l evs [<- Hl]. cbn. rewrite app_assoc. split; [reflexivity|exact Hl].
  - intros l evs b evb <- [<- Hb]. cbn. rewrite app_assoc. split; [reflexivity|exact Hb].
  - intros o b evs <- [<- Hb]. unfold text_flush. rewrite Hb, Hh. cbn. rewrite app_nil_r. split; reflexivity.
  - split; reflexivity.
  - cbn in Hb. split; [exact Hb|]. split; [|exact Hp].
    unfold text_destroy, text_flush. rewrite Hd. rewrite <- Hb.
    destruct (tl_data (lg_base s)) as [|x l]; [cbn; rewrite app_nil_r; reflexivity|].
    rewrite Hh. reflexivity.
Qed.

(** The text of a logger that is neither flushed nor cleared, with any handler or none. *)
Theorem C69_text_report : forall handler (tr : list (action text_op)) s,
  no_sync tr -> only_ops (fun _ => False) tr ->
  text_acts tr (fresh_loggers (mkText [] handler [])) = Some s ->
  tl_data (lg_base s) = text_order [] tr /\ tl_handed (lg_base s) = [].
Proof.
  intros h tr s Hs Ho E.
  destruct (trace_inv (Op := text_op) (mkText [] None []) text_log1 text_merge
              (fun o => match o with TextClear => text_clear | TextFlush => text_flush end)
              (fun b evs => tl_data b = evs /\ tl_handed b = []) (fun l evs => tl_data l = evs)
              (fun _ => False)) with (base := mkText [] h []) (ev0 := @nil log_event) (tr := tr) (s := s)
    as ((Hb & Hd) & _ & Hp); try assumption.
  - reflexivity.
  - intros e l evs <-. reflexivity.
  - intros e l evs [<- Hl]. split; [reflexivity|exact Hl].
  - intros l evs b evb <- [<- Hb]. split; [reflexivity|exact Hb].
  - intros o b evs [].
  - split; reflexivity.
  - split; assumption.
Qed.

(** ** Timers *)

Definition started (os : list timer_op) : list (Z * Z) :=
  flat_map (fun o => match o with TStart _ code now => [(code, now)] | _ => [] end) os.

Definition as_list {A} (o : option A) : list A := match o with Some a => [a] | None => [] end.
Definition running (m : nat) (f : nat -> option (Z * Z)) : list (Z * Z) := flat_map (fun x => as_list (f x)) (seq 0 m).
Definition below (m : nat) (o : timer_op) : Prop :=
  match o with
  | TStart x _ _ | TStop x _ => (x < m)%nat
  | TMoveTo x y | TAssign x y _ => (x < m)%nat /\ (y < m)%nat
  end.

Lemma running_ext : forall m f g, (forall x, f x = g x) -> running m f = running m g.
Proof. intros m f g H. apply flat_map_ext. intros x. rewrite H. reflexivity. Qed.
Lemma running_slot : forall m f x, (x < m)%nat ->
  Permutation (running m f) (as_list (f x) ++ running m (set_timer x None f)).
Proof.
  intros m f x Hx. unfold running.
  replace (seq 0 m) with (seq 0 x ++ x :: seq (S x) (m - S x))%list.
  2:{ replace m with (x + S (m - S x))%nat at 2 by lia. rewrite seq_app. reflexivity. }
  rewrite !flat_map_app. cbn [flat_map].
  assert (G : forall l, ~ In x l -> flat_map (fun y => as_list (set_timer x None f y)) l = flat_map (fun y => as_list (f y)) l).
  { induction l as [|y l IH]; intros Hl; cbn; [reflexivity|].
    unfold set_timer at 1. destruct (Nat.eqb y x) eqn:E; [exfalso; apply Hl; left; lia|].
    rewrite IH; [reflexivity|]. intros H; apply Hl; right; exact H. }
  rewrite !G by (rewrite in_seq; lia).
  unfold set_timer. rewrite Nat.eqb_refl. cbn [as_list app].
  rewrite !app_assoc. apply Permutation_app_tail. apply Permutation_app_comm.
Qed.
Lemma running_set : forall m f x v, (x < m)%nat ->
  Permutation (running m (set_timer x v f)) (as_list v ++ running m (set_timer x None f)).
Proof.
  intros m f x v Hx. etransitivity; [apply (running_slot m _ x Hx)|].
  unfold set_timer at 1. rewrite Nat.eqb_refl. apply Permutation_app_head.
  erewrite running_ext; [apply Permutation_refl|]. intros y. unfold set_timer. destruct (Nat.eqb y x); reflexivity.
Qed.

Definition timings (s : timers) : list (Z * Z) := map fst (tm_logged s).

Lemma stop_inv : forall m x now s, (x < m)%nat ->
  Permutation (timings (timer_stop x now s) ++ running m (tm_vars (timer_stop x now s)))
              (timings s ++ running m (tm_vars s)) /\ tm_vars (timer_stop x now s) x = None.
Proof.
  intros m x now s Hx. unfold timer_stop. destruct (tm_vars s x) as [[code start]|] eqn:E; [|split; [reflexivity|exact E]].
  cbn [tm_vars]. unfold timings. cbn [tm_logged]. rewrite map_app. split.
  - rewrite <- app_assoc. apply Permutation_app_head. cbn [map fst].
    symmetry. etransitivity; [apply (running_slot m _ x Hx)|]. rewrite E. reflexivity.
  - unfold set_timer. rewrite Nat.eqb_refl. reflexivity.
Qed.

Lemma timer_inv : forall m os s s', (forall o, In o os -> below m o) -> timer_run os s = Some s' ->
  Permutation (timings s' ++ running m (tm_vars s')) (started os ++ timings s ++ running m (tm_vars s)).
Proof.
  intros m; induction os as [|o os IH]; intros s s' Hb E.
  - cbn in E. injection E as <-. reflexivity.
  - cbn in E. destruct (timer_step o s) as [s1|] eqn:E1; [|discriminate].
    etransitivity; [apply (IH s1 s'); [intros p Hp; apply Hb; right; exact Hp|exact E]|].
    assert (G : Permutation (timings s1 ++ running m (tm_vars s1)) (started [o] ++ timings s ++ running m (tm_vars s))).
    { pose proof (Hb o (or_introl eq_refl)) as Ho. destruct o as [x code now|x now|x y|x y now]; cbn in E1, Ho.
      - destruct (tm_vars s x) eqn:Ex; [discriminate|]. injection E1 as <-.
        unfold timings. cbn [tm_vars tm_logged started flat_map app].
        rewrite (running_set m (tm_vars s) x _ Ho). cbn [as_list app].
        etransitivity; [symmetry; apply Permutation_middle|]. constructor. apply Permutation_app_head.
        symmetry. etransitivity; [apply (running_slot m _ x Ho)|]. rewrite Ex. reflexivity.
      - injection E1 as <-. apply stop_inv. exact Ho.
      - destruct Ho as [Hx Hy]. destruct (tm_vars s y) eqn:Ey; [discriminate|]. injection E1 as <-.
        unfold timings. cbn [tm_vars tm_logged started flat_map app]. apply Permutation_app_head.
        rewrite (running_set m _ y _ Hy).
        symmetry. etransitivity; [apply (running_slot m _ x Hx)|]. apply Permutation_app_head.
        erewrite running_ext; [apply Permutation_refl|]. intros z. unfold set_timer.
        destruct (Nat.eqb z y) eqn:Ez; [|reflexivity]. apply Nat.eqb_eq in Ez. subst z. rewrite Ey.
        destruct (Nat.eqb y x); reflexivity.
      - destruct Ho as [Hx Hy]. injection E1 as <-.
        destruct (stop_inv m y now s Hy) as [Hp Hn]. set (q := timer_stop y now s) in *.
        unfold timings at 1. cbn [tm_vars tm_logged started flat_map app].
        etransitivity; [|exact Hp]. apply Permutation_app_head.
        destruct (Nat.eq_dec x y) as [->|Hne].
        + rewrite Hn. erewrite running_ext; [apply Permutation_refl|]. intros z. unfold set_timer.
          destruct (Nat.eqb z y) eqn:Ez; [|reflexivity]. apply Nat.eqb_eq in Ez. subst z. symmetry. exact Hn.
        + etransitivity.
          * erewrite running_ext with (g := set_timer y (tm_vars q x) (set_timer x None (tm_vars q))); [apply Permutation_refl|].
            intros z. unfold set_timer. destruct (Nat.eqb z x) eqn:E1, (Nat.eqb z y) eqn:E2; try reflexivity. lia.
          * rewrite (running_set m _ y _ Hy). symmetry. etransitivity; [apply (running_slot m _ x Hx)|].
            apply Permutation_app_head.
            erewrite running_ext; [apply Permutation_refl|]. intros z. unfold set_timer.
            destruct (Nat.eqb z y) eqn:Ez; [|reflexivity]. apply Nat.eqb_eq in Ez. subst z. rewrite Hn.
            destruct (Nat.eqb y x); reflexivity. }
    etransitivity; [apply Permutation_app_head; exact G|].
    change (o :: os) with ([o] ++ os)%list. unfold started. rewrite flat_map_app, !app_assoc.
    apply Permutation_app_tail. apply Permutation_app_tail. apply Permutation_app_comm.
Qed.

Definition no_timers : timers := mkTimers (fun _ => None) [].

(** However timers are started, stopped, moved and assigned: once none is running, every timer that was started has been
    logged exactly once, with its own code and its own start. *)
Theorem C69_timers : forall os s,
  timer_run os no_timers = Some s -> (forall x, tm_vars s x = None) ->
  Permutation (map fst (tm_logged s)) (started os).
Proof.
  intros os s E H.
  assert (Hm : exists m, forall o, In o os -> below m o).
  { clear. induction os as [|o os [m IH]]; [exists 0%nat; intros o []|].
    exists (m + match o with TStart x _ _ | TStop x _ => S x | TMoveTo x y | TAssign x y _ => S (x + y) end)%nat.
    intros p [<- | Hp]; [destruct o; cbn; lia|]. specialize (IH p Hp). destruct p; cbn in *; lia. }
  destruct Hm as [m Hm]. pose proof (timer_inv m os no_timers s Hm E) as P.
  assert (Hz : forall f, (forall x, f x = None) -> running m f = []).
  { intros f Hf. unfold running. induction (seq 0 m) as [|y l IH]; cbn; [reflexivity|]. rewrite Hf. exact IH. }
  rewrite (Hz _ H), (Hz (tm_vars no_timers)), !app_nil_r in P by reflexivity. exact P.
Qed.

(** The codes of the events are different (else two kinds of events would share an entry of the report). *)
Theorem C69_codes : NoDup (ev_unknown :: accumulated_tags ++ maximized_tags) /\
  List.length (ev_unknown :: accumulated_tags ++ maximized_tags) = 29%nat.
Proof.
  split; [|reflexivity].
  assert (E : nodup Z.eq_dec (ev_unknown :: accumulated_tags ++ maximized_tags)
              = ev_unknown :: accumulated_tags ++ maximized_tags) by (vm_compute; reflexivity).
  rewrite <- E. apply NoDup_nodup.
Qed.

(** ** Examples *)

(** Three scenarios of 4, 7 and 5 iterations on two workers whose actions alternate. *)
Definition ex_copied (w : nat) := mkLogEvent (Z.of_nat w) ev_copy_model (BNumber 2).
Definition ex_total (w : nat) := mkLogEvent (9 + Z.of_nat w) ev_total_batch_calculation_in_thread (BNumber 20).
Definition ex_scenario (s : nat) : list log_event :=
  [mkLogEvent (2 + Z.of_nat s) ev_math_solver (BNumber (3 + Z.of_nat s));
   mkLogEvent (3 + Z.of_nat s) ev_iterative_pf_solver_max_num_iter (BNumber (nth s [4; 7; 5] 0));
   mkLogEvent (4 + Z.of_nat s) ev_unknown (BMessage "done")].
Fixpoint alternate {A} (l l' : list A) {struct l} : list A :=
  match l, l' with
  | x :: r, y :: r' => x :: y :: alternate r r'
  | [], _ => l'
  | _, [] => l
  end.
Definition ex_trace : list (action info_op) :=
  alternate (worker_acts ex_copied ex_total ex_scenario 0 2 3) (worker_acts ex_copied ex_total ex_scenario 1 2 3).

Example C69_batch_example :
  (forall w, (w < 2)%nat -> filter (on_child w) ex_trace = worker_acts ex_copied ex_total ex_scenario w 2 3) /\
  (forall a, In a ex_trace -> exists w, (w < 2)%nat /\ on_child w a = true) /\
  (exists s, info_acts ex_trace (fresh_loggers []) = Some s /\
             lg_base s = [(128, 40); (1100, 4); (2220, 12); (2246, 7)]).
Proof.
  split; [|split].
  - intros [|[|w]] Hw; [reflexivity|reflexivity|lia].
  - intros a Ha. vm_compute in Ha.
    repeat destruct Ha as [<- | Ha]; try (exists 0%nat; split; [lia|reflexivity]);
      try (exists 1%nat; split; [lia|reflexivity]). destruct Ha.
  - eexists. split; [vm_compute; reflexivity|reflexivity].
Qed.

(** A text with a flush while a thread is running. *)
Definition ex_event (n : Z) := mkLogEvent n ev_unknown BNothing.
Example C69_text_example : exists s,
  text_acts [MainLog (ex_event 1); Create 0; ChildLog 0 (ex_event 2); MainDo TextFlush; MainLog (ex_event 3);
             ChildLog 0 (ex_event 4); Destroy 0; MainLog (ex_event 5)]
            (fresh_loggers (mkText [] (Some (fun _ => false)) [])) = Some s /\
  tl_handed (lg_base s) = [ex_event 1] /\ tl_data (lg_base s) = map ex_event [3; 2; 4; 5].
Proof. eexists. split; [reflexivity|]. split; reflexivity. Qed.

(** A timer that is moved and assigned over. *)
Example C69_timer_example : exists s,
  timer_run [TStart 0 2220 10; TStart 1 2100 11; TAssign 1 0 15; TMoveTo 0 2; TStop 0 16; TStop 2 18; TStop 1 19] no_timers
  = Some s /\ tm_logged s = [(2220, 10, 15); (2100, 11, 18)] /\ tm_vars s 0%nat = None.
Proof. eexists. split; [reflexivity|]. split; reflexivity. Qed.

Print Assumptions C69_report.
Print Assumptions C69_schedule.
Print Assumptions C69_batch.
Print Assumptions C69_sync_refuted.
Print Assumptions C69_text.
Print Assumptions C69_text_report.
Print Assumptions C69_timers.
Print Assumptions C69_codes.
