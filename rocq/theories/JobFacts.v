(** Proofs about the dispatcher. *)
From Verif Require Import Common JobDispatch JobSpec.
From Coq Require Import String Permutation.

Lemma n_threads_pos hw n th : 0 < n -> 0 < n_threads hw n th.
Proof. intros H. unfold n_threads. destruct (_ || _ || _)%bool eqn:E; [lia|]. destruct (Z.eqb_spec th 0); lia. Qed.
Lemma n_threads_le hw n th : 0 < n -> n_threads hw n th <= n.
Proof. intros H. unfold n_threads. destruct (_ || _ || _)%bool eqn:E; lia. Qed.

Lemma same_mod_lt k a b : 0 < k -> a mod k = b mod k -> a < b -> a + k <= b.
Proof.
  intros Hk E H. pose proof (Nat.div_mod a k ltac:(lia)). pose proof (Nat.div_mod b k ltac:(lia)).
  assert (a / k < b / k) by (apply Nat.lt_nge; intro; nia). nia.
Qed.
Lemma mod_add_k k a : 0 < k -> (a + k) mod k = a mod k.
Proof. intros. rewrite <- (Nat.mul_1_l k) at 1. apply Nat.mod_add. lia. Qed.

Lemma NoDup_snoc {B} (l : list B) x : NoDup l -> ~ In x l -> NoDup (l ++ [x]).
Proof. intros H1 H2. apply (Permutation_NoDup (l := x :: l)); [apply Permutation_cons_append|now constructor]. Qed.

Section Facts.
Context {A R : Type} (j : job A R) (what : exn -> string).
Notation shared := (shared A R).
Notation worker := (worker A).
Variables n k : nat.
Hypothesis Hk : 0 < k.

Definition in_progress (p : phase A) : bool :=
  match p with SetUp _ | HasRun _ | Caught _ _ | Stored _ | CaughtAgain _ => true | _ => false end.

Ltac step_cases H :=
  unfold step_worker in H;
  match type of H with context [nth_error ?l ?w] => destruct (nth_error l w) as [[? ph]|] eqn:EW; [|injection H as <-] end.

Ltac split_step H :=
  repeat match type of H with
  | match ?x with _ => _ end = _ => destruct x eqn:?; try discriminate H
  end; try (injection H as <-).

(** ** Which scenarios are started *)
Definition worker_pos (i : nat) (w : worker) : Prop :=
  wk_scenario w mod k = i /\ (in_progress (wk_phase w) = true -> wk_scenario w < n) /\
  (wk_phase w = Finished -> n <= wk_scenario w).
(** scenario [s] has been started by its worker *)
Definition started (w : worker) (s : nat) : Prop :=
  s < wk_scenario w \/ (s = wk_scenario w /\ in_progress (wk_phase w) = true).

Record LogInv (g : shared) : Prop := mkLogInv {
  li_len : List.length (g_workers g) = k;
  li_pos : forall i w, nth_error (g_workers g) i = Some w -> worker_pos i w;
  li_nodup : NoDup (map snd (g_log g));
  li_log : forall i s, In (i, s) (g_log g) <-> exists w, nth_error (g_workers g) i = Some w /\ s mod k = i /\ s < n /\ started w s }.

Lemma start_LogInv out : LogInv (start_dispatch n k out).
Proof.
  assert (HW : forall i w, nth_error (map (fun i => mkWorker i (@Created A)) (seq 0 k)) i = Some w -> i < k /\ w = mkWorker i Created).
  { intros i w H. rewrite nth_error_map in H. destruct (nth_error (seq 0 k) i) eqn:E; [|discriminate]. injection H as <-.
    assert (i < k) by (rewrite <- (seq_length k 0); apply nth_error_Some; congruence).
    apply nth_error_nth with (d := 0) in E. rewrite seq_nth in E by lia. subst. auto. }
  split; cbn.
  - now rewrite map_length, seq_length.
  - intros i w H. apply HW in H as [? ->]. split; [|split]; cbn; try discriminate. now apply Nat.mod_small.
  - constructor.
  - intros i s. split; [contradiction|]. intros (w & H & Hs & Hn & [Hb|[_ Hb]]); apply HW in H as [? ->]; cbn in Hb; [|discriminate].
    rewrite Nat.mod_small in Hs by lia. lia.
Qed.

Lemma step_LogInv w g g' : step_worker j what n k w g = Some g' -> LogInv g -> LogInv g'.
Proof.
  intros H [L P D G].
  (* every kind of step replaces worker [w], and either starts its scenario or not *)
  assert (Keep : forall wk wk' out msgs, nth_error (g_workers g) w = Some wk -> worker_pos w wk' ->
      (forall s, s mod k = w -> s < n -> (started wk' s <-> started wk s)) ->
      LogInv (mkShared out msgs (upd w wk' (g_workers g)) (g_log g))).
  { intros wk wk' out msgs E HP HS. assert (w < List.length (g_workers g)) by (apply nth_error_Some; congruence).
    split; cbn.
    - now rewrite upd_length.
    - intros i x. destruct (Nat.eq_dec i w) as [->|].
      + rewrite nth_error_upd_eq by auto. intros [= <-]. auto.
      + rewrite nth_error_upd_neq by auto. auto.
    - auto.
    - intros i s. rewrite G. destruct (Nat.eq_dec i w) as [->|].
      + rewrite nth_error_upd_eq by auto. rewrite E. split; intros (x & Ex & Hm & Hn & Hs); injection Ex as <-; eexists; split; eauto;
          refine (conj Hm (conj Hn _)); now apply HS.
      + rewrite nth_error_upd_neq by auto. reflexivity. }
  assert (Begin : forall s a ph' out msgs, nth_error (g_workers g) w = Some (mkWorker s (AtLoop a)) -> s < n -> in_progress ph' = true ->
      LogInv (mkShared out msgs (upd w (mkWorker s ph') (g_workers g)) (g_log g ++ [(w, s)]))).
  { intros s a ph' out msgs E Hs Hp. assert (w < List.length (g_workers g)) by (apply nth_error_Some; congruence).
    pose proof (P _ _ E) as (Pm & _ & _). cbn in Pm.
    assert (HP : worker_pos w (mkWorker s ph')).
    { split; [|split]; cbn; auto. intros ->. discriminate. }
    split; cbn.
    - now rewrite upd_length.
    - intros i x. destruct (Nat.eq_dec i w) as [->|].
      + rewrite nth_error_upd_eq by auto. intros [= <-]. auto.
      + rewrite nth_error_upd_neq by auto. auto.
    - rewrite map_app. cbn. apply NoDup_snoc; [auto|].
      intros Hx. apply in_map_iff in Hx as ([i s'] & Hs2 & Hin). cbn in Hs2. subst s'. apply G in Hin as (wk & E' & Hm & _ & Hst).
      rewrite Pm in Hm. subst i. rewrite E in E'. injection E' as <-. destruct Hst as [Hst|[_ Hst]]; cbn in Hst; [lia|discriminate].
    - intros i s'. rewrite in_app_iff, G. cbn. destruct (Nat.eq_dec i w) as [->|Hi].
      + rewrite nth_error_upd_eq by auto. rewrite E. split.
        * intros [(x & Ex & Hm & Hn & Hst)|[[= <-]|[]]].
          -- injection Ex as <-. eexists; split; [reflexivity|]. refine (conj Hm (conj Hn _)). destruct Hst as [Hst|[_ Hst]]; [left; exact Hst|discriminate].
          -- eexists; split; [reflexivity|]. refine (conj Pm (conj Hs _)). right. auto.
        * intros (x & Ex & Hm & Hn & Hst). injection Ex as <-. destruct Hst as [Hst|[Hst _]]; cbn in Hst.
          -- left. eexists; split; [reflexivity|]. refine (conj Hm (conj Hn _)). left; exact Hst.
          -- right. left. now subst.
      + rewrite nth_error_upd_neq by auto. split; [intros [X|[[= -> ->]|[]]]; [exact X|congruence]|auto]. }
  step_cases H; [|split; auto]. pose proof (P _ _ EW) as (Pm & Pi & Pf). cbn in Pm, Pi, Pf.
  assert (Next : forall a out msgs, in_progress ph = true ->
      LogInv (mkShared out msgs (upd w (mkWorker (wk_scenario + k) (AtLoop a)) (g_workers g)) (g_log g))).
  { intros a out msgs Hp. apply (Keep _ _ _ _ eq_refl).
    - split; [|split]; cbn; try discriminate. now rewrite mod_add_k.
    - intros s Hm Hn. unfold started; cbn. split.
      + intros [Hl|[_ X]]; [|discriminate]. destruct (Nat.lt_trichotomy s wk_scenario) as [|[|Hg]]; auto.
        pose proof (same_mod_lt k wk_scenario s Hk ltac:(congruence) Hg). lia.
      + intros [Hl|[-> _]]; left; lia. }
  assert (Go : forall ph' out msgs, in_progress ph = true -> in_progress ph' = true ->
      LogInv (mkShared out msgs (upd w (mkWorker wk_scenario ph') (g_workers g)) (g_log g))).
  { intros ph' out msgs Hp Hp'. apply (Keep _ _ _ _ eq_refl).
    - split; [|split]; cbn; auto. intros ->. discriminate.
    - intros s Hm Hn. unfold started; cbn. rewrite Hp, Hp'. reflexivity. }
  destruct ph; split_step H; try (apply Go; reflexivity); try (apply Next; reflexivity).
  - apply (Keep _ _ _ _ eq_refl).
    + split; [|split]; cbn; auto; discriminate.
    + intros s Hm Hn. unfold started; cbn. intuition discriminate.
  - apply (Begin wk_scenario a); auto; [now apply Nat.ltb_lt|]. now destruct o.
  - apply (Keep _ _ _ _ eq_refl).
    + split; [|split]; cbn; auto; try discriminate. intros _. now apply Nat.ltb_ge.
    + intros s Hm Hn. unfold started; cbn. intuition discriminate.
  - split; auto.
Qed.
Lemma exec_LogInv sched : forall g g', exec j what n k sched g = Some g' -> LogInv g -> LogInv g'.
Proof.
  induction sched as [|w sched IH]; intros g g' H HI; simpl in H; [now injection H as <-|].
  destruct (step_worker j what n k w g) as [g1|] eqn:E; [|discriminate]. eapply IH; eauto. eapply step_LogInv; eauto.
Qed.

Lemma joined_log g : LogInv g -> all_joined g = true -> Permutation (map snd (g_log g)) (seq 0 n).
Proof.
  intros [L P D G] HF. apply NoDup_Permutation; [auto|apply seq_NoDup|]. intros s. rewrite in_seq. split.
  - intros H. apply in_map_iff in H as ([i s'] & <- & H). apply G in H as (w & _ & _ & Hn & _). cbn. lia.
  - intros [_ Hn]. apply in_map_iff. exists (s mod k, s). split; auto. apply G.
    assert (Hlt : s mod k < k) by (apply Nat.mod_upper_bound; lia).
    destruct (nth_error (g_workers g) (s mod k)) as [w|] eqn:E.
    2:{ apply nth_error_None in E. lia. }
    exists w. refine (conj eq_refl (conj eq_refl (conj _ _))); [lia|]. left.
    unfold all_joined in HF. rewrite forallb_forall in HF. specialize (HF w (nth_error_In _ _ E)).
    destruct (P _ _ E) as (_ & _ & Pf). unfold is_finished in HF. destruct (wk_phase w); try discriminate. specialize (Pf eq_refl). lia.
Qed.

(** ** Termination *)
Definition rank (p : phase A) : nat :=
  match p with Created => 8 | AtLoop _ => 7 | SetUp _ => 6 | HasRun _ => 5 | Caught _ _ => 4 | Stored _ => 3 | CaughtAgain _ => 2 | Finished => 0 end.
Definition work (w : worker) : nat := 7 * (n - wk_scenario w) + rank (wk_phase w).

Lemma step_work w g g' : LogInv g -> step_worker j what n k w g = Some g' ->
  (forall i, i <> w -> nth_error (g_workers g') i = nth_error (g_workers g) i) /\
  (forall wk, nth_error (g_workers g) w = Some wk -> exists wk', nth_error (g_workers g') w = Some wk' /\ work wk' <= work wk - 1).
Proof.
  intros HI H. pose proof (li_pos _ HI) as P. step_cases H; [|split; [auto|congruence]].
  destruct (P _ _ EW) as (_ & Pi & _). cbn in Pi.
  assert (w < List.length (g_workers g)) by (apply nth_error_Some; congruence).
  assert (K : forall wk' (out : list R) msgs log, work wk' <= work (mkWorker wk_scenario ph) - 1 -> let g'' := mkShared out msgs (upd w wk' (g_workers g)) log in
     (forall i, i <> w -> nth_error (g_workers g'') i = nth_error (g_workers g) i) /\
     (forall wk, Some (mkWorker wk_scenario ph) = Some wk -> exists wk', nth_error (g_workers g'') w = Some wk' /\ work wk' <= work wk - 1)).
  { intros wk' out msgs log HW g''. split; cbn.
    - intros i Hi. rewrite nth_error_upd_neq by auto. reflexivity.
    - intros wk [= <-]. exists wk'. now rewrite nth_error_upd_eq. }
  unfold work in *; destruct ph; split_step H; try specialize (Pi eq_refl); try (apply K; cbn; lia).
  - apply K. destruct o; cbn; lia.
  - split; [auto|]. intros wk [= <-]. rewrite EW. eexists; split; [reflexivity|]. pose proof (proj2 (proj2 (P _ _ EW)) eq_refl) as Q. cbn in *. lia.
Qed.

Lemma exec_work sched : forall g g', exec j what n k sched g = Some g' -> LogInv g ->
  forall i wk, nth_error (g_workers g) i = Some wk ->
  exists wk', nth_error (g_workers g') i = Some wk' /\ work wk' <= work wk - count_occ Nat.eq_dec sched i.
Proof.
  induction sched as [|w sched IH]; intros g g' H HI i wk E; simpl in H.
  - injection H as <-. exists wk. split; auto. simpl. lia.
  - destruct (step_worker j what n k w g) as [g1|] eqn:ES; [|discriminate].
    destruct (step_work _ _ _ HI ES) as [K1 K2]. pose proof (step_LogInv _ _ _ ES HI) as HI1.
    simpl. destruct (Nat.eq_dec w i) as [->|Hi].
    + destruct (K2 _ E) as (wk1 & E1 & Hw). destruct (IH _ _ H HI1 _ _ E1) as (wk' & E' & Hw'). exists wk'. split; auto. lia.
    + rewrite <- K1 in E by auto. destruct (IH _ _ H HI1 _ _ E) as (wk' & E' & Hw'). exists wk'. split; auto.
Qed.

Lemma fair_joined sched out g : exec j what n k sched (start_dispatch n k out) = Some g ->
  (forall w, w < k -> 7 * n + 8 <= count_occ Nat.eq_dec sched w) -> all_joined g = true.
Proof.
  intros H HF. pose proof (start_LogInv out) as HI. apply forallb_forall. intros wk Hin. apply In_nth_error in Hin as [i E].
  pose proof (exec_LogInv _ _ _ H HI) as HI'.
  assert (Hi : i < k). { rewrite <- (li_len _ HI'). apply nth_error_Some. congruence. }
  assert (E0 : nth_error (g_workers (start_dispatch (A := A) n k out)) i = Some (mkWorker i Created)).
  { cbn. rewrite nth_error_map. rewrite (nth_error_nth' _ 0) by (rewrite seq_length; lia). now rewrite seq_nth. }
  destruct (exec_work _ _ _ H HI _ _ E0) as (wk' & E' & Hw). rewrite E in E'. injection E' as <-. specialize (HF i Hi).
  unfold work in Hw. cbn in Hw. unfold is_finished. destruct (wk_phase wk); cbn in Hw; auto; lia.
Qed.

(** ** Nothing undefined happens *)
Definition defined_job : Prop :=
  (forall s a, s < n -> j_setup j s a <> None) /\ (forall s a, s < n -> j_run j s a <> None) /\ (forall a, j_winddown j a <> None).

Lemma step_sizes w g g' : step_worker j what n k w g = Some g' ->
  List.length (g_out g') = List.length (g_out g) /\ List.length (g_msgs g') = List.length (g_msgs g).
Proof.
  intros H. step_cases H; [|auto]. destruct ph; split_step H; cbn; rewrite ?upd_length; auto.
Qed.
Lemma step_defined w g : LogInv g -> defined_job -> List.length (g_out g) = n -> List.length (g_msgs g) = n ->
  step_worker j what n k w g <> None.
Proof.
  intros HI (Ds & Dr & Dw) Ho Hm. unfold step_worker. destruct (nth_error (g_workers g) w) as [[s ph]|] eqn:E; [|discriminate].
  destruct (li_pos _ HI _ _ E) as (_ & Pi & _). cbn in Pi. rewrite Ho, Hm.
  destruct ph; cbn in Pi; try discriminate; try specialize (Pi eq_refl); try (apply Nat.ltb_lt in Pi as Pl; rewrite Pl).
  - destruct (Nat.ltb_spec s n); [|discriminate]. specialize (Ds s a H). destruct (j_setup j s a) as [[? ?]|]; [discriminate|congruence].
  - specialize (Dr s a Pi). destruct (j_run j s a) as [[? [|]]|]; [discriminate|discriminate|congruence].
  - specialize (Dw a). destruct (j_winddown j a) as [[? [|]]|]; [discriminate|discriminate|congruence].
  - discriminate.
  - specialize (Dw a). destruct (j_winddown j a) as [[? [|]]|]; [discriminate|discriminate|congruence].
Qed.
Lemma exec_defined sched : forall g, LogInv g -> defined_job -> List.length (g_out g) = n -> List.length (g_msgs g) = n ->
  exec j what n k sched g <> None.
Proof.
  induction sched as [|w sched IH]; intros g HI HD Ho Hm; simpl; [discriminate|].
  destruct (step_worker j what n k w g) as [g'|] eqn:E; [|now apply step_defined in E].
  destruct (step_sizes _ _ _ E). apply IH; auto; try congruence. eapply step_LogInv; eauto.
Qed.

(** ** Results *)
Section Results.
Variable Good : A -> Prop.
Hypothesis good_start : Good (j_start j).
Hypothesis good_step : forall s a, s < n -> Good a ->
  exists a' r e, one_scenario j s a = Some (a', r, e) /\ alone j s = Some (r, e) /\ Good a'.
Variable out0 : list R.
Hypothesis Hout0 : List.length out0 = n.

Definition final_out (s : nat) (r0 : R) : R := match result_alone j s with Some r => r | None => r0 end.
Definition final_msg (s : nat) : string := match failure_alone j s with Some e => what e | None => EmptyString end.
(** undoing after an exception gives a good adapter *)
Definition undoes (a : A) : Prop :=
  match j_winddown j a with
  | None => False
  | Some (a', None) => Good a'
  | Some (a', Some _) => Good (j_recover j a')
  end.

(** results and message of scenario [s] while its worker is in phase [p] of it *)
Definition slot_in (s : nat) (p : phase A) (r0 : R) (r : R) (m : string) : Prop :=
  match p with
  | Created => r = r0 /\ m = EmptyString
  | AtLoop a => r = r0 /\ m = EmptyString
  | SetUp a => r = r0 /\ m = EmptyString /\
      match j_run j s a with
      | None => False
      | Some (a2, Err e) => result_alone j s = None /\ failure_alone j s = Some e /\ undoes a2
      | Some (a2, Ok v) => result_alone j s = Some v /\
          match j_winddown j a2 with
          | None => False
          | Some (a3, None) => failure_alone j s = None /\ Good a3
          | Some (a3, Some e) => failure_alone j s = Some e /\ undoes a3
          end
      end
  | HasRun a => r = final_out s r0 /\ m = EmptyString /\
      match j_winddown j a with
      | None => False
      | Some (a3, None) => failure_alone j s = None /\ Good a3
      | Some (a3, Some e) => failure_alone j s = Some e /\ undoes a3
      end
  | Caught e a => r = final_out s r0 /\ m = EmptyString /\ failure_alone j s = Some e /\ undoes a
  | Stored a => r = final_out s r0 /\ m = final_msg s /\ undoes a
  | CaughtAgain a => r = final_out s r0 /\ m = final_msg s /\ Good (j_recover j a)
  | Finished => False
  end.
Definition slot_ok (w : worker) (s : nat) (r0 r : R) (m : string) : Prop :=
  (s < wk_scenario w -> r = final_out s r0 /\ m = final_msg s) /\
  (wk_scenario w < s -> r = r0 /\ m = EmptyString) /\
  (s = wk_scenario w -> slot_in s (wk_phase w) r0 r m).

Record ResInv (g : shared) : Prop := mkResInv {
  ri_log : LogInv g;
  ri_out : List.length (g_out g) = n;
  ri_msg : List.length (g_msgs g) = n;
  ri_good : forall i s a, nth_error (g_workers g) i = Some (mkWorker s (AtLoop a)) -> Good a;
  ri_slot : forall s w r0 r m, s < n -> nth_error (g_workers g) (s mod k) = Some w -> nth_error out0 s = Some r0 ->
     nth_error (g_out g) s = Some r -> nth_error (g_msgs g) s = Some m -> slot_ok w s r0 r m }.

Lemma start_ResInv : ResInv (start_dispatch n k out0).
Proof.
  split; cbn; auto.
  - apply start_LogInv.
  - now rewrite repeat_length.
  - intros i s a H. rewrite nth_error_map in H. destruct (nth_error _ _); discriminate.
  - intros s w r0 r m Hs Hw H0 Hr Hm. rewrite H0 in Hr. injection Hr as <-.
    apply nth_error_In in Hm. apply repeat_spec in Hm. subst m.
    rewrite nth_error_map in Hw. destruct (nth_error (seq 0 k) (s mod k)) as [i|] eqn:E; [|discriminate]. injection Hw as <-.
    apply nth_error_nth with (d := 0) in E. rewrite seq_nth in E by (apply Nat.mod_upper_bound; lia). cbn in E.
    split; [|split]; cbn; auto. intros Hlt. pose proof (Nat.mod_le s k ltac:(lia)). lia.
Qed.

Lemma setup_slot s a a' o r0 : s < n -> Good a -> j_setup j s a = Some (a', o) ->
  slot_in s (outcome_phase o SetUp a') r0 r0 EmptyString.
Proof.
  intros Hs HG E. destruct (good_step s a Hs HG) as (a2 & r & e & H1 & H2 & H3).
  unfold final_out, result_alone, failure_alone, undoes. unfold one_scenario in H1. rewrite E in H1.
  destruct o as [x|]; cbn [outcome_phase slot_in]; unfold final_out, result_alone, failure_alone, undoes; rewrite H2.
  - destruct (j_winddown j a') as [[b [y|]]|]; [| |discriminate]; injection H1 as <- <- <-; auto.
  - split; [reflexivity|]. split; [reflexivity|]. destruct (j_run j s a') as [[b [v|x]]|]; [| |discriminate].
    + destruct (j_winddown j b) as [[b2 [y|]]|] eqn:EW2; [| |discriminate].
      * destruct (j_winddown j b2) as [[b3 [z|]]|]; [| |discriminate]; injection H1 as <- <- <-; auto.
      * injection H1 as <- <- <-. auto.
    + destruct (j_winddown j b) as [[b2 [y|]]|]; [| |discriminate]; injection H1 as <- <- <-; auto.
Qed.

Lemma step_ResInv w g : ResInv g -> exists g', step_worker j what n k w g = Some g' /\ ResInv g'.
Proof.
  intros [HL Ho Hm HG HS]. pose proof (fun g' H => step_LogInv w g g' H HL) as HL'. pose proof (li_pos _ HL) as P.
  unfold step_worker in *. destruct (nth_error (g_workers g) w) as [[s ph]|] eqn:EW; [|exists g; split; [auto|split; auto]].
  destruct (P _ _ EW) as (Pm & Pi & Pf). cbn in Pm, Pi, Pf.
  assert (Hw : w < List.length (g_workers g)) by (apply nth_error_Some; congruence).
  (* one slot and the phase of worker [w] change *)
  assert (Go : forall ph' r' m' log, in_progress ph' = true -> s < n ->
      (forall r0 r m, nth_error out0 s = Some r0 -> nth_error (g_out g) s = Some r -> nth_error (g_msgs g) s = Some m ->
         slot_ok (mkWorker s ph) s r0 r m ->
         slot_in s ph' r0 (match r' with Some x => x | None => r end) (match m' with Some x => x | None => m end)) ->
      let g' := mkShared (match r' with Some x => upd s x (g_out g) | None => g_out g end)
                         (match m' with Some x => upd s x (g_msgs g) | None => g_msgs g end)
                         (upd w (mkWorker s ph') (g_workers g)) log in
      LogInv g' -> ResInv g').
  { intros ph' r' m' log Hp Hs Hslot g' HLg. split; auto; cbn.
    - destruct r'; rewrite ?upd_length; auto.
    - destruct m'; rewrite ?upd_length; auto.
    - intros i s' a. destruct (Nat.eq_dec i w) as [->|].
      + rewrite nth_error_upd_eq by auto. intros [= <- ->]. discriminate.
      + rewrite nth_error_upd_neq by auto. apply HG.
    - intros s' wk r0 r m Hs' Ew E0 Er Em. destruct (Nat.eq_dec (s' mod k) w) as [Ew'|Ew'].
      + rewrite Ew', nth_error_upd_eq in Ew by auto. injection Ew as <-.
        destruct (Nat.eq_dec s' s) as [->|Hne].
        * split; [|split]; cbn; try lia. intros _.
          assert (exists r1, nth_error (g_out g) s = Some r1) as [r1 Er1].
          { destruct (nth_error (g_out g) s) eqn:X; eauto. apply nth_error_None in X. lia. }
          assert (exists m1, nth_error (g_msgs g) s = Some m1) as [m1 Em1].
          { destruct (nth_error (g_msgs g) s) eqn:X; eauto. apply nth_error_None in X. lia. }
          rewrite <- Ew' in EW. specialize (Hslot r0 r1 m1 E0 Er1 Em1 (HS _ _ _ _ _ Hs' EW E0 Er1 Em1)).
          replace r with (match r' with Some x => x | None => r1 end); [replace m with (match m' with Some x => x | None => m1 end); [auto|]|].
          -- destruct m'; [rewrite nth_error_upd_eq in Em by lia|]; congruence.
          -- destruct r'; [rewrite nth_error_upd_eq in Er by lia|]; congruence.
        * assert (Er2 : nth_error (g_out g) s' = Some r) by (destruct r'; [rewrite nth_error_upd_neq in Er by auto|]; auto).
          assert (Em2 : nth_error (g_msgs g) s' = Some m) by (destruct m'; [rewrite nth_error_upd_neq in Em by auto|]; auto).
          rewrite <- Ew' in EW. destruct (HS _ _ _ _ _ Hs' EW E0 Er2 Em2) as (B1 & B2 & B3). split; [|split]; cbn; auto; congruence.
      + rewrite nth_error_upd_neq in Ew by auto.
        assert (Hne : s' <> s) by congruence.
        assert (Er2 : nth_error (g_out g) s' = Some r) by (destruct r'; [rewrite nth_error_upd_neq in Er by auto|]; auto).
        assert (Em2 : nth_error (g_msgs g) s' = Some m) by (destruct m'; [rewrite nth_error_upd_neq in Em by auto|]; auto).
        eauto. }
  assert (Next : forall a', s < n -> Good a' ->
      (forall r0 r m, slot_ok (mkWorker s ph) s r0 r m -> r = final_out s r0 /\ m = final_msg s) ->
      let g' := mkShared (g_out g) (g_msgs g) (upd w (mkWorker (s + k) (AtLoop a')) (g_workers g)) (g_log g) in
      LogInv g' -> ResInv g').
  { intros a' Hs Ha Hslot g' HLg. split; auto; cbn.
    - intros i s' a. destruct (Nat.eq_dec i w) as [->|].
      + rewrite nth_error_upd_eq by auto. intros [= <- <-]. auto.
      + rewrite nth_error_upd_neq by auto. apply HG.
    - intros s' wk r0 r m Hs' Ew E0 Er Em. destruct (Nat.eq_dec (s' mod k) w) as [Ew'|Ew'].
      + rewrite Ew', nth_error_upd_eq in Ew by auto. injection Ew as <-. rewrite <- Ew' in EW.
        pose proof (HS _ _ _ _ _ Hs' EW E0 Er Em) as HB. destruct HB as (B1 & B2 & B3) eqn:EB. clear EB. cbn in B1, B2, B3.
        assert (HX : s' < s \/ s' = s \/ s + k <= s').
        { destruct (Nat.lt_trichotomy s' s) as [|[|Hg]]; auto. right. right. apply same_mod_lt; auto; congruence. }
        split; [|split]; cbn.
        * intros Hlt. destruct HX as [X|[->|X]]; [auto|apply Hslot; split; [|split]; cbn; auto; lia|lia].
        * intros Hlt. apply B2. lia.
        * intros ->. apply B2. lia.
      + rewrite nth_error_upd_neq in Ew by auto. eauto. }
  assert (Now : in_progress ph = true -> s < n /\ exists r0 r m, nth_error out0 s = Some r0 /\ nth_error (g_out g) s = Some r /\
      nth_error (g_msgs g) s = Some m /\ slot_in s ph r0 r m).
  { intros Hp. specialize (Pi Hp). split; auto.
    destruct (nth_error out0 s) as [r0|] eqn:E0; [|apply nth_error_None in E0; lia].
    destruct (nth_error (g_out g) s) as [r|] eqn:Er; [|apply nth_error_None in Er; lia].
    destruct (nth_error (g_msgs g) s) as [m|] eqn:Em; [|apply nth_error_None in Em; lia].
    exists r0, r, m. refine (conj eq_refl (conj eq_refl (conj eq_refl _))).
    assert (EW2 : nth_error (g_workers g) (s mod k) = Some (mkWorker s ph)) by now rewrite Pm.
    now apply (HS s _ r0 r m Pi EW2 E0 Er Em). }
  assert (At_s : forall r0 r m, slot_ok (mkWorker s ph) s r0 r m -> slot_in s ph r0 r m).
  { intros r0 r m (_ & _ & X). now apply X. }
  destruct ph as [|a|a|a|e a|a|a|].
  - (* Created *) eexists; split; [reflexivity|]. specialize (HL' _ eq_refl). split; auto; cbn.
    + intros i s' a. destruct (Nat.eq_dec i w) as [->|].
      * rewrite nth_error_upd_eq by auto. intros [= <- <-]. auto.
      * rewrite nth_error_upd_neq by auto. apply HG.
    + intros s' wk r0 r m Hs' Ew E0 Er Em. destruct (Nat.eq_dec (s' mod k) w) as [Ew'|Ew'].
      * rewrite Ew', nth_error_upd_eq in Ew by auto. injection Ew as <-. rewrite <- Ew' in EW.
        destruct (HS _ _ _ _ _ Hs' EW E0 Er Em) as (B1 & B2 & B3). split; [|split]; cbn; auto.
      * rewrite nth_error_upd_neq in Ew by auto. eauto.
  - (* AtLoop *) pose proof (HG _ _ _ EW) as Ha. destruct (Nat.ltb_spec s n) as [Hs|Hs].
    + destruct (j_setup j s a) as [[a' o]|] eqn:ES.
      2:{ destruct (good_step s a Hs Ha) as (a2 & r & e & H1 & _). unfold one_scenario in H1. rewrite ES in H1. discriminate. }
      eexists; split; [reflexivity|]. specialize (HL' _ eq_refl).
      refine (Go (outcome_phase o SetUp a') None None _ ltac:(now destruct o) Hs _ HL').
      intros r0 r m E0 Er Em X. apply At_s in X as [-> ->]. eapply setup_slot; eauto.
    + eexists; split; [reflexivity|]. specialize (HL' _ eq_refl). split; auto; cbn.
      * intros i s' a'. destruct (Nat.eq_dec i w) as [->|].
        -- rewrite nth_error_upd_eq by auto. discriminate.
        -- rewrite nth_error_upd_neq by auto. apply HG.
      * intros s' wk r0 r m Hs' Ew E0 Er Em. destruct (Nat.eq_dec (s' mod k) w) as [Ew'|Ew'].
        -- rewrite Ew', nth_error_upd_eq in Ew by auto. injection Ew as <-. rewrite <- Ew' in EW.
           destruct (HS _ _ _ _ _ Hs' EW E0 Er Em) as (B1 & B2 & B3). cbn in *. split; [|split]; cbn; auto. lia.
        -- rewrite nth_error_upd_neq in Ew by auto. eauto.
  - (* SetUp *) destruct (Now eq_refl) as (Hs & r0 & r & m & E0 & Er & Em & -> & -> & X).
    apply Nat.ltb_lt in Hs as Hsl. rewrite Ho, Hsl in *.
    destruct (j_run j s a) as [[a' [v|e]]|] eqn:ER; [| |contradiction].
    + eexists; split; [reflexivity|]. specialize (HL' _ eq_refl). destruct X as [X1 X2].
      refine (Go (HasRun a') (Some v) None _ eq_refl Hs _ HL').
      intros r1 r2 m2 _ _ _ Y. apply At_s in Y as (_ & -> & _). cbn. unfold final_out. rewrite X1. auto.
    + eexists; split; [reflexivity|]. specialize (HL' _ eq_refl). destruct X as (X1 & X2 & X3).
      refine (Go (Caught e a') None None _ eq_refl Hs _ HL').
      intros r1 r2 m2 _ _ _ Y. apply At_s in Y as (-> & -> & _). cbn. unfold final_out. rewrite X1. auto.
  - (* HasRun *) destruct (Now eq_refl) as (Hs & r0 & r & m & E0 & Er & Em & Xr & -> & X).
    destruct (j_winddown j a) as [[a' [e|]]|] eqn:EWD; [| |contradiction].
    + eexists; split; [reflexivity|]. specialize (HL' _ eq_refl). destruct X as [X1 X2].
      refine (Go (Caught e a') None None _ eq_refl Hs _ HL').
      intros r1 r2 m2 _ _ _ Y. apply At_s in Y as (-> & -> & _). cbn. auto.
    + eexists; split; [reflexivity|]. specialize (HL' _ eq_refl). destruct X as [X1 X2].
      refine (Next a' Hs X2 _ HL').
      intros r1 r2 m2 Y. apply At_s in Y as (-> & -> & _). split; auto. unfold final_msg. now rewrite X1.
  - (* Caught *) destruct (Now eq_refl) as (Hs & r0 & r & m & E0 & Er & Em & Xr & -> & X1 & X2).
    apply Nat.ltb_lt in Hs as Hsl. rewrite Hm, Hsl in *.
    eexists; split; [reflexivity|]. specialize (HL' _ eq_refl).
    refine (Go (Stored a) None (Some (what e)) _ eq_refl Hs _ HL').
    intros r1 r2 m2 _ _ _ Y. apply At_s in Y as (-> & _ & _). cbn. unfold final_msg. rewrite X1. auto.
  - (* Stored *) destruct (Now eq_refl) as (Hs & r0 & r & m & E0 & Er & Em & Xr & Xm & X). unfold undoes in X.
    destruct (j_winddown j a) as [[a' [e|]]|] eqn:EWD; [| |contradiction].
    + eexists; split; [reflexivity|]. specialize (HL' _ eq_refl).
      refine (Go (CaughtAgain a') None None _ eq_refl Hs _ HL').
      intros r1 r2 m2 _ _ _ Y. apply At_s in Y as (-> & -> & _). cbn. auto.
    + eexists; split; [reflexivity|]. specialize (HL' _ eq_refl).
      refine (Next a' Hs X _ HL').
      intros r1 r2 m2 Y. apply At_s in Y as (-> & -> & _). auto.
  - (* CaughtAgain *) destruct (Now eq_refl) as (Hs & r0 & r & m & E0 & Er & Em & Xr & Xm & X).
    eexists; split; [reflexivity|]. specialize (HL' _ eq_refl).
    refine (Next _ Hs X _ HL'). intros r1 r2 m2 Y. apply At_s in Y as (-> & -> & _). auto.
  - exists g. split; [auto|split; auto].
Qed.

Lemma exec_ResInv sched : forall g, ResInv g -> exists g', exec j what n k sched g = Some g' /\ ResInv g'.
Proof.
  induction sched as [|w sched IH]; intros g HI; simpl; [eauto|].
  destruct (step_ResInv w g HI) as (g1 & -> & HI1). auto.
Qed.

Lemma joined_slot g : ResInv g -> all_joined g = true -> forall s r0, nth_error out0 s = Some r0 ->
  nth_error (g_out g) s = Some (final_out s r0) /\ nth_error (g_msgs g) s = Some (final_msg s).
Proof.
  intros [HL Ho Hm HG HS] HF s r0 E0. assert (Hs : s < n). { rewrite <- Hout0. apply nth_error_Some. congruence. }
  assert (Hlt : s mod k < k) by (apply Nat.mod_upper_bound; lia).
  destruct (nth_error (g_workers g) (s mod k)) as [w|] eqn:E; [|apply nth_error_None in E; rewrite (li_len _ HL) in E; lia].
  destruct (nth_error (g_out g) s) as [r|] eqn:Er; [|apply nth_error_None in Er; lia].
  destruct (nth_error (g_msgs g) s) as [m|] eqn:Em; [|apply nth_error_None in Em; lia].
  destruct (HS _ _ _ _ _ Hs E E0 Er Em) as (B & _ & _).
  unfold all_joined in HF. rewrite forallb_forall in HF. specialize (HF w (nth_error_In _ _ E)).
  destruct (li_pos _ HL _ _ E) as (_ & _ & Pf). unfold is_finished in HF. destruct (wk_phase w); try discriminate. specialize (Pf eq_refl).
  destruct (B ltac:(lia)) as [-> ->]. auto.
Qed.
End Results.
End Facts.

Lemma combine_seq_nth {B} (l : list B) : forall a s, nth_error (combine (seq a (List.length l)) l) s =
  match nth_error l s with Some x => Some (a + s, x) | None => None end.
Proof.
  induction l as [|x l IH]; intros a s; simpl; [now destruct s|]. destruct s; simpl; [now rewrite Nat.add_0_r|].
  rewrite IH. destruct (nth_error l s); auto. do 2 f_equal. lia.
Qed.

Lemma failures_spec (f : nat -> string) m : forall a,
  filter (fun x => negb (String.eqb (snd x) EmptyString)) (combine (seq a m) (map f (seq a m))) =
  flat_map (fun s => if String.eqb (f s) EmptyString then [] else [(s, f s)]) (seq a m).
Proof. induction m as [|m IH]; intros a; simpl; auto. destruct (String.eqb (f a) EmptyString); simpl; rewrite IH; auto. Qed.

(** The whole threaded part gives what the specification says. *)
Lemma dispatch_isolated {A R} (j : job A R) what hw n th sched out res : 0 < n -> List.length out = n -> isolated j n ->
  dispatch j what hw n th sched out = Some res ->
  fst (fst res) = expected_results j n out /\
  snd (fst res) = handle_batch_exceptions (map (final_msg j what) (seq 0 n)).
Proof.
  intros Hn Hout (Good & G1 & G2) H. unfold dispatch in H. pose proof (n_threads_pos hw n th Hn) as Hk. set (k := n_threads hw n th) in *.
  destruct (exec_ResInv j what n k Hk Good G1 G2 out Hout sched _ (start_ResInv j what n k Hk Good G2 out Hout)) as (g & EX & HI). rewrite EX in H.
  destruct (all_joined g) eqn:EJ; [|discriminate]. injection H as <-. cbn.
  pose proof (joined_slot j what n k Hk Good G2 out Hout g HI EJ) as HS. split.
  - apply nth_error_ext. intros s. unfold expected_results. rewrite nth_error_map. subst n. rewrite combine_seq_nth. cbn.
    destruct (nth_error out s) as [r0|] eqn:E0.
    + cbn. apply (HS s r0 E0).
    + apply nth_error_None. apply nth_error_None in E0. now rewrite (ri_out _ _ _ _ _ _ _ HI).
  - f_equal. apply nth_error_ext. intros s. rewrite nth_error_map. destruct (nth_error out s) as [r0|] eqn:E0.
    + assert (s < n). { rewrite <- Hout. apply nth_error_Some. congruence. }
      rewrite (nth_error_nth' _ 0) by (rewrite seq_length; lia). rewrite seq_nth by lia. cbn. apply (HS s r0 E0).
    + apply nth_error_None in E0. pose proof (ri_msg _ _ _ _ _ _ _ HI). rewrite (proj2 (nth_error_None _ _)) by lia.
      rewrite (proj2 (nth_error_None _ _)) by (rewrite seq_length; lia). auto.
Qed.
