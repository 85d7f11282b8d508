(** Proofs about batches with several dimensions. *)
From Verif Require Import Common Handle MultiDim MultiDimSpec.
From Coq Require Import String.

Section Facts.
Context {M D R : Type}.
Variable size : D -> nat.
Variable updated_copy : D -> nat -> M -> option (M * option exn).
Variable one_dim : D -> list R -> M -> option (list R * option thrown).
Variable what : exn -> string.
Variable scenario : D -> nat -> M -> option R * option string.
Variable Good : M -> Prop.
Notation comb := (combination size updated_copy what scenario).
Notation md := (multi_dim size updated_copy one_dim what).
Notation combs := (combinations size).

Lemma stride_combinations ds : stride_size size ds = combs ds.
Proof.
  unfold stride_size. assert (X : forall a, fold_left (fun s d => s * size d) ds a = a * combs ds).
  { induction ds as [|d ds IH]; intros a; simpl; [lia|]. rewrite IH. lia. }
  rewrite X. lia.
Qed.


Lemma slice_spec b n (out : list R) : b + n <= List.length out -> exists s, slice b n out = Some s /\ List.length s = n /\
  forall p, p < n -> nth_error s p = nth_error out (b + p).
Proof.
  intros H. unfold slice. destruct (Nat.leb_spec (b + n) (List.length out)); [|lia]. eexists. split; [reflexivity|]. split.
  - rewrite firstn_length, skipn_length. lia.
  - intros p Hp. rewrite nth_error_firstn. destruct (Nat.ltb_spec p n); [|lia].
    clear - H. revert out H. induction b as [|b IH]; intros out H; [reflexivity|]. destruct out as [|x out]; simpl in H; [lia|].
    simpl. apply IH. lia.
Qed.
Lemma write_spec b (s out : list R) : b + List.length s <= List.length out ->
  List.length (write_slice b s out) = List.length out /\
  forall q, nth_error (write_slice b s out) q =
            if (b <=? q) && (q <? b + List.length s) then nth_error s (q - b) else nth_error out q.
Proof.
  intros H. unfold write_slice. assert (L1 : List.length (firstn b out) = b) by (rewrite firstn_length; lia). split.
  - rewrite !app_length, L1, skipn_length. lia.
  - intros q. destruct (Nat.leb_spec b q); simpl.
    + rewrite nth_error_app2 by lia. rewrite L1. destruct (Nat.ltb_spec q (b + List.length s)).
      * rewrite nth_error_app1 by lia. reflexivity.
      * rewrite nth_error_app2 by lia. replace q with ((b + List.length s) + (q - b - List.length s)) at 2 by lia.
        generalize (b + List.length s), (q - b - List.length s). clear. intros a k. revert out.
        induction a as [|a IH]; intros out; [reflexivity|]. destruct out as [|x out]; simpl; [destruct k; reflexivity|apply IH].
    + rewrite nth_error_app1 by lia. rewrite nth_error_firstn. destruct (Nat.ltb_spec q b); [reflexivity|lia].
Qed.

Lemma failing_app f a b : failing f (a + b) = failing f a ++ map (fun x => (a + fst x, snd x)) (failing (fun p => f (a + p)) b).
Proof.
  unfold failing. rewrite seq_app, flat_map_app. f_equal. rewrite (Nat.add_0_l a).
  rewrite <- (Nat.add_0_r a) at 1. generalize 0. induction b as [|b IH]; intros k; simpl; auto.
  rewrite map_app, <- IH. replace (a + S k) with (S (a + k)) by lia. destruct (f (a + k)); reflexivity.
Qed.
Lemma failing_ext f g n : (forall p, p < n -> f p = g p) -> failing f n = failing g n.
Proof.
  intros H. unfold failing. rewrite !flat_map_concat_map. f_equal. apply map_ext_in. intros p Hp. apply in_seq in Hp.
  rewrite H by lia. reflexivity.
Qed.

(** What the loop does with one scenario of the first dimension, in terms of the specification. *)
Definition results_at (d : D) (rest : list D) (m : M) (p : nat) := fst (comb d rest p m).
Definition failures_at (d : D) (rest : list D) (m : M) (p : nat) := snd (comb d rest p m).

Lemma comb_inner d d2 rest m m' i p : updated_copy d i m = Some (m', None) -> p < combs (d2 :: rest) ->
  comb d (d2 :: rest) (i * combs (d2 :: rest) + p) m = comb d2 rest p m'.
Proof.
  intros HE Hp. cbn [combination]. rewrite Nat.add_comm, Nat.div_add by lia. rewrite Nat.div_small by auto. simpl Nat.add. rewrite HE.
  rewrite Nat.mod_add by lia. now rewrite Nat.mod_small.
Qed.
Lemma comb_throw d d2 rest m m' i p e : updated_copy d i m = Some (m', Some e) -> p < combs (d2 :: rest) ->
  comb d (d2 :: rest) (i * combs (d2 :: rest) + p) m = (None, Some (what e)).
Proof.
  intros HE Hp. cbn [combination]. rewrite Nat.add_comm, Nat.div_add by lia. rewrite Nat.div_small by auto. simpl Nat.add. now rewrite HE.
Qed.

(** [out'] is [out] with the results of positions a .. b-1 filled in. *)
Definition filled_between (result : nat -> option R) (a b : nat) (out out' : list R) : Prop :=
  List.length out' = List.length out /\
  forall p, nth_error out' p = if (a <=? p) && (p <? b)
                               then match nth_error out p with
                                    | Some o => Some (match result p with Some r => r | None => o end)
                                    | None => None
                                    end
                               else nth_error out p.

Lemma filled_filled result n out out' : List.length out = n -> filled_between result 0 n out out' -> filled result out out'.
Proof.
  intros HL [A B]. split; auto. intros p o Hp. rewrite B, Hp. assert (p < n) by (rewrite <- HL; apply nth_error_Some; congruence).
  destruct (Nat.ltb_spec p n); [reflexivity|lia].
Qed.
Lemma filled_trans result a b c out o1 o2 : a <= b <= c -> filled_between result a b out o1 -> filled_between result b c o1 o2 ->
  filled_between result a c out o2.
Proof.
  intros Hle [A B] [A' B']. split; [congruence|]. intros p. rewrite B', B.
  destruct (Nat.leb_spec b p), (Nat.ltb_spec p c), (Nat.leb_spec a p), (Nat.ltb_spec p b); simpl; auto; try lia.
Qed.
Lemma filled_none result a b out : (forall p, a <= p < b -> result p = None) -> filled_between result a b out out.
Proof.
  intros H. split; auto. intros p. destruct (Nat.leb_spec a p), (Nat.ltb_spec p b); simpl; auto.
  rewrite H by lia. now destruct (nth_error out p).
Qed.

Definition never_undefined : Prop := forall d i m, Good m -> i < size d -> updated_copy d i m <> None.

Lemma outer_loop_spec inner d d2 rest m (HU : never_undefined) (HGm : Good m) :
  (forall i m' s, i < size d -> updated_copy d i m = Some (m', None) -> List.length s = combs (d2 :: rest) ->
     exists s' t, inner s m' = Some (s', t) /\ filled (results_at d2 rest m') s s') ->
  forall k a out h, a + k = size d -> List.length out = size d * combs (d2 :: rest) ->
  exists out' h', outer_loop updated_copy what inner d (combs (d2 :: rest)) m (seq a k) out h = Some (out', h') /\
    filled_between (results_at d (d2 :: rest) m) (a * combs (d2 :: rest)) (size d * combs (d2 :: rest)) out out'.
Proof.
  set (st := combs (d2 :: rest)). intros HI. induction k as [|k IH]; intros a out h Ha HL.
  - exists out, h. split; [reflexivity|]. apply filled_none. intros p Hp. exfalso. assert (a = size d) by lia. subst a. lia.
  - cbn [seq outer_loop]. assert (Hb : a * st + st <= List.length out) by (rewrite HL; nia).
    destruct (slice_spec (a * st) st out Hb) as (s & -> & Ls & Ns).
    destruct (updated_copy d a m) as [[m' [e|]]|] eqn:EU; [| |exfalso; exact (HU d a m HGm ltac:(lia) EU)].
    + destruct (IH (S a) out (md_handler (a * st) st (StdException (what e)) cleared) ltac:(lia) HL) as (out' & h' & E & F).
      exists out', h'. split; [exact E|]. eapply filled_trans; [|apply filled_none|exact F]; [nia|].
      intros p Hp. unfold results_at. replace p with (a * st + (p - a * st)) by lia. unfold st. rewrite (comb_throw _ _ _ _ _ _ _ _ EU); [reflexivity|fold st; nia].
    + destruct (HI a m' s ltac:(lia) EU Ls) as (s' & t & -> & F1).
      assert (Ls' : List.length s' = st) by (rewrite (proj1 F1); exact Ls).
      destruct (write_spec (a * st) s' out ltac:(lia)) as [W1 W2].
      destruct (IH (S a) (write_slice (a * st) s' out) (match t with None => cleared | Some t => md_handler (a * st) st t cleared end) ltac:(lia) ltac:(lia)) as (out' & h' & E & F).
      exists out', h'. split; [exact E|]. refine (filled_trans _ (a * st) (S a * st) _ out _ _ _ _ F); [nia|].
      split; auto. intros p. rewrite W2, Ls'. replace (S a * st) with (a * st + st) by nia.
      destruct (Nat.leb_spec (a * st) p), (Nat.ltb_spec p (a * st + st)); simpl; auto.
      assert (Hq : p - a * st < st) by lia. pose proof (Ns _ Hq) as Hn. replace (a * st + (p - a * st)) with p in Hn by lia.
      destruct (nth_error out p) as [o|] eqn:Eo; [|apply nth_error_None in Eo; lia].
      rewrite (proj2 F1 _ _ Hn). do 2 f_equal. unfold results_at. rewrite <- (comb_inner d d2 rest m m' a (p - a * st) EU Hq).
      fold st. now replace (a * st + (p - a * st)) with p by lia.
Qed.

Hypothesis H1 : one_dim_as_specified size scenario Good one_dim.
Hypothesis HG : forall d i m m' , Good m -> i < size d -> updated_copy d i m = Some (m', None) -> Good m'.

Lemma results_spec : never_undefined -> forall rest d out m, Good m -> List.length out = combs (d :: rest) ->
  exists out' t, md d rest out m = Some (out', t) /\ filled (results_at d rest m) out out'.
Proof.
  intros HU. induction rest as [|d2 rest IH]; intros d out m HGm HL.
  - simpl in HL. rewrite Nat.mul_1_r in HL. destruct (H1 d out m HGm HL) as (out' & t & E & F & _). exists out', t. split; auto.
  - cbn [multi_dim]. rewrite stride_combinations.
    destruct (outer_loop_spec (md d2 rest) d d2 rest m HU HGm) with (k := size d) (a := 0) (out := out) (h := cleared) as (out' & h' & E & F); auto.
    + intros i m' s Hi HE Hs. apply IH; auto. eapply HG; eauto.
    + rewrite E. eexists _, _. split; [reflexivity|]. eapply filled_filled; [|exact F]. exact HL.
Qed.

(** ** The report *)

Lemma last_iteration (inner : list R -> M -> option (list R * option thrown)) d st m k a : forall out h out' h', outer_loop updated_copy what inner d st m (seq a (S k)) out h = Some (out', h') ->
  exists out1 s, slice ((a + k) * st) st out1 = Some s /\
    match updated_copy d (a + k) m with
    | None => False
    | Some (_, Some e) => h' = md_handler ((a + k) * st) st (StdException (what e)) cleared
    | Some (m', None) => exists s' t, inner s m' = Some (s', t) /\
                                      h' = match t with None => cleared | Some t => md_handler ((a + k) * st) st t cleared end
    end.
Proof.
  revert a. induction k as [|k IH]; intros a out h out' h' H.
  - cbn [seq outer_loop] in H. rewrite Nat.add_0_r. destruct (slice (a * st) st out) as [s|] eqn:ES; [|discriminate].
    exists out, s. split; auto. destruct (updated_copy d a m) as [[m' [e|]]|]; [|destruct (inner s m') as [[s' t]|]|]; try discriminate.
    + now injection H as <- <-.
    + injection H as <- <-. eauto.
  - replace (a + S k) with (S a + k) by lia. remember (S k) as k1. cbn [seq outer_loop] in H. subst k1.
    destruct (slice (a * st) st out) as [s|]; [|discriminate].
    destruct (updated_copy d a m) as [[m' [e|]]|]; [|destruct (inner s m') as [[s' t]|]|]; try discriminate; eapply IH; exact H.
Qed.

Lemma innermost_cons (d d2 : D) rest : innermost d (d2 :: rest) = innermost d2 rest.
Proof. unfold innermost. revert d d2. induction rest as [|x r IHr]; intros d d2; [reflexivity|]. change (last (d2 :: x :: r) d) with (last (x :: r) d). rewrite (IHr d x). now rewrite (IHr d2 x). Qed.
Lemma combs_innermost d rest : exists k, combs (d :: rest) = k * size (innermost d rest).
Proof.
  revert d. induction rest as [|d2 rest IH]; intros d.
  - exists 1. unfold innermost. simpl. lia.
  - destruct (IH d2) as [k E]. exists (size d * k). rewrite innermost_cons. change (combs (d :: d2 :: rest)) with (size d * combs (d2 :: rest)).
    rewrite E. ring.
Qed.

Definition in_last_row (d : D) (rest : list D) (x : nat * string) : bool :=
  combs (d :: rest) - size (innermost d rest) <=? fst x.

Lemma filter_all {X} (f : X -> bool) l : (forall x, In x l -> f x = true) -> filter f l = l.
Proof. induction l as [|x l IH]; intros H; simpl; auto. rewrite (H x) by (left; auto). f_equal. apply IH. intros; apply H. now right. Qed.
Lemma filter_none {X} (f : X -> bool) l : (forall x, In x l -> f x = false) -> filter f l = [].
Proof. induction l as [|x l IH]; intros H; simpl; auto. rewrite (H x) by (left; auto). apply IH. intros; apply H. now right. Qed.
Lemma failing_lt f n x : In x (failing f n) -> fst x < n.
Proof.
  unfold failing. rewrite in_flat_map. intros (p & Hp & H). apply in_seq in Hp. destruct (f p); [|destruct H]. destruct H as [<-|[]]. simpl. lia.
Qed.
Lemma filter_map_swap {X Y} (f : Y -> bool) (g : X -> Y) l : filter f (map g l) = map g (filter (fun x => f (g x)) l).
Proof. induction l as [|x l IH]; simpl; auto. destruct (f (g x)); simpl; congruence. Qed.

Lemma report_spec : forall rest d out m out' t, Good m -> List.length out = combs (d :: rest) -> outer_updates_ok size updated_copy d rest m ->
  md d rest out m = Some (out', t) ->
  reports (filter (in_last_row d rest) (failing (failures_at d rest m) (combs (d :: rest)))) t.
Proof.
  induction rest as [|d2 rest IH]; intros d out m out' t HGm HL HO HE.
  - simpl in HL. rewrite Nat.mul_1_r in HL. destruct (H1 d out m HGm HL) as (o & t' & E & F & G). cbn [multi_dim] in HE. rewrite E in HE. injection HE as <- <-.
    cbn [combinations]. rewrite Nat.mul_1_r, filter_all; [exact G|]. intros x _. unfold in_last_row, innermost. simpl. apply Nat.leb_le. lia.
  - cbn [multi_dim] in HE. rewrite stride_combinations in HE. set (st := combs (d2 :: rest)) in *.
    destruct (outer_loop _ _ _ d st m (seq 0 (size d)) out cleared) as [[o h]|] eqn:EL; [|discriminate]. injection HE as <- <-.
    assert (HC : combs (d :: d2 :: rest) = size d * st) by reflexivity. rewrite HC.
    destruct (size d) as [|k] eqn:Ed.
    { cbn [seq outer_loop] in EL. injection EL as <- <-. reflexivity. }
    apply last_iteration in EL as (out1 & s & ES & EL). cbn [Nat.add] in ES, EL.
    cbn [outer_updates_ok] in HO. destruct (HO k ltac:(lia)) as (m' & EU & HO'). rewrite EU in EL.
    destruct EL as (s' & t & EI & ->).
    assert (Ls : List.length s = st).
    { unfold slice in ES. destruct (Nat.leb_spec (k * st + st) (List.length out1)); [|discriminate]. injection ES as <-. rewrite firstn_length, skipn_length. lia. }
    assert (HGm' : Good m') by (eapply HG; [exact HGm| |exact EU]; lia).
    pose proof (IH d2 s m' s' t HGm' Ls HO' EI) as HR.
    replace (S k * st) with (k * st + st) by lia. rewrite failing_app, filter_app.
    rewrite (failing_ext (fun p => failures_at d (d2 :: rest) m (k * st + p)) (failures_at d2 rest m')).
    2:{ intros p Hp. unfold failures_at, st. now rewrite (comb_inner _ _ _ _ _ _ _ EU). }
    destruct (combs_innermost d2 rest) as [q Eq]. fold st in Eq.
    rewrite filter_none.
    2:{ intros x Hx. apply failing_lt in Hx. unfold in_last_row. rewrite HC, innermost_cons. apply Nat.leb_gt. destruct q; [rewrite Eq in Hx; lia|nia]. }
    rewrite app_nil_l, filter_map_swap.
    rewrite (filter_ext_in _ (in_last_row d2 rest)).
    2:{ intros x Hx. apply failing_lt in Hx. unfold in_last_row. rewrite HC, innermost_cons. cbn [fst]. fold st.
        destruct (Nat.leb_spec (st - size (innermost d2 rest)) (fst x)); [apply Nat.leb_le|apply Nat.leb_gt]; (destruct q; [rewrite Eq in Hx; lia|nia]). }
    revert HR. fold st. generalize (filter (in_last_row d2 rest) (failing (failures_at d2 rest m') st)). intros l HR.
    destruct l as [|x l]; cbn [reports] in HR.
    + subst t. reflexivity.
    + destruct HR as [w ->]. cbn [map reports]. exists (h_msg (handle_regular_error batch_error w EmptyString cleared)). cbn -[String.append].
      rewrite !map_map. cbn. do 2 f_equal. f_equal; [apply Nat.add_comm|]. apply map_ext. intros y. apply Nat.add_comm.
Qed.
End Facts.
