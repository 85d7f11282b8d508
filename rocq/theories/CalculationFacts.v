(** Proofs about doubles, the check of regulators, the choice of the solver and the loop. *)
From Coq Require Import Floats.SpecFloat Permutation.
From Verif Require Import Common Calculation CalculationSpec.

(** ** Comparisons of doubles *)
Lemma pcont_eq m n : Pos.compare_cont Eq m n = Pos.compare m n. Proof. reflexivity. Qed.
Ltac sf_cases := unfold SFeqb, SFltb, SFleb, SFcompare in *;
  repeat match goal with x : spec_float |- _ => destruct x as [[]|[]| |[] ? ?] end;
  try discriminate; try reflexivity; try congruence.
Ltac cmp := repeat match goal with
  | H : context [Z.compare ?a ?b] |- _ => destruct (Z.compare_spec a b); try discriminate
  | |- context [Z.compare ?a ?b] => destruct (Z.compare_spec a b); try discriminate
  | H : context [Pos.compare_cont Eq ?a ?b] |- _ => rewrite (pcont_eq a b) in H; destruct (Pos.compare_spec a b); try discriminate
  | |- context [Pos.compare_cont Eq ?a ?b] => rewrite (pcont_eq a b); destruct (Pos.compare_spec a b); try discriminate
  end; subst; try reflexivity; try lia; try congruence.
Lemma SFeqb_sym a b : SFeqb a b = true -> SFeqb b a = true.
Proof. intros H. sf_cases; cmp. Qed.
Lemma SFeqb_trans a b c : SFeqb a b = true -> SFeqb b c = true -> SFeqb a c = true.
Proof. intros H1 H2. sf_cases; cmp. Qed.
Lemma SFleb_refl a : a <> S754_nan -> SFleb a a = true.
Proof. intros H. sf_cases; cmp. Qed.
Lemma SFleb_trans a b c : SFleb a b = true -> SFleb b c = true -> SFleb a c = true.
Proof. intros H1 H2. sf_cases; cmp. Qed.
Lemma SFltb_leb a b : SFltb a b = true -> SFleb a b = true.
Proof. intros H. sf_cases; cmp. Qed.
Lemma SFltb_false a b : a <> S754_nan -> b <> S754_nan -> SFltb a b = false -> SFleb b a = true.
Proof. intros Ha Hb H. sf_cases; cmp. Qed.

Lemma max_deviation_bound devs : Forall not_nan devs -> max_deviation devs <> S754_nan /\ forall d, In d devs -> SFleb d (max_deviation devs) = true.
Proof.
  unfold max_deviation. assert (G : forall devs m, m <> S754_nan -> Forall not_nan devs ->
    let M := fold_left (fun m d => if SFltb d m then m else d) devs m in M <> S754_nan /\ SFleb m M = true /\ forall d, In d devs -> SFleb d M = true).
  { clear. induction devs as [|d devs IH]; intros m Hm Hn; cbn [fold_left].
    - refine (conj Hm (conj (SFleb_refl m Hm) _)). intros d [].
    - inversion_clear Hn. destruct (SFltb d m) eqn:E.
      + destruct (IH m Hm H0) as (I1 & I2 & I3). refine (conj I1 (conj I2 _)). intros x [<-|Hx]; [|auto]. eapply SFleb_trans; [apply SFltb_leb; exact E|exact I2].
      + destruct (IH d H H0) as (I1 & I2 & I3). refine (conj I1 (conj _ _)).
        * eapply SFleb_trans; [|exact I2]. apply SFltb_false; auto.
        * intros x [<-|Hx]; auto. }
  intros H. destruct (G devs (S754_zero false) ltac:(discriminate) H) as (G1 & _ & G3). auto.
Qed.

Lemma max_deviation_in devs : max_deviation devs = S754_zero false \/ In (max_deviation devs) devs.
Proof.
  unfold max_deviation. generalize (S754_zero false). induction devs as [|d devs IH]; intros m; cbn [fold_left]; [left; reflexivity|].
  destruct (SFltb d m); [destruct (IH m) as [E|E]; [left; exact E|right; right; exact E]|]. right. destruct (IH d) as [E|E]; [left; symmetry; exact E|right; exact E].
Qed.
Lemma SFltb_leb_absurd a b : SFltb a b = true -> SFleb b a = true -> False.
Proof. intros H1 H2. sf_cases; cmp. Qed.

(** ** The check of regulators *)
Section Check.
Variable s : situation.
Hypothesis nd : NoDup (map fst (load_gens s)).
Lemma get_load_gen_in id node t : get_load_gen s id = Some (node, t) <-> In (id, (node, t)) (load_gens s).
Proof.
  unfold get_load_gen. revert nd. induction (load_gens s) as [|[i [n k]] l IH]; intros N; cbn [find option_map fst].
  - split; [discriminate|intros []].
  - cbn [map fst] in N. inversion_clear N. destruct (i =? id)%Z eqn:E.
    + apply Z.eqb_eq in E. subst i. cbn [option_map snd]. split.
      * intros H1. injection H1 as -> ->. left. reflexivity.
      * intros [H1|H1]; [injection H1 as -> ->; reflexivity|]. exfalso. apply H. apply in_map_iff. exists (id, (node, t)). auto.
    + rewrite (IH H0). split; [intros H1; right; exact H1|]. intros [H1|H1]; [|exact H1]. injection H1 as -> _ _. rewrite Z.eqb_refl in E. discriminate.
Qed.
Lemma regulates_unique r n1 n2 : regulates_at s r n1 -> regulates_at s r n2 -> n1 = n2.
Proof. intros [t1 H1] [t2 H2]. apply get_load_gen_in in H1. apply get_load_gen_in in H2. congruence. Qed.

(** [v] describes the regulators [done]: for each node of an enabled one, the first of them *)
Definition describes (v : visited) (done : list vregulator) : Prop :=
  (forall r node, In r done -> vr_status r = true -> regulates_at s r node -> exists id u, find_node v node = Some (id, u) /\
     (SFeqb u (vr_u_ref r) = true \/ u = vr_u_ref r)) /\
  (forall node id u, find_node v node = Some (id, u) -> exists r, In r done /\ vr_status r = true /\ regulates_at s r node /\ vr_id r = id /\ vr_u_ref r = u).

Lemma find_node_cons node x v m : find_node ((node, x) :: v) m = if (node =? m)%Z then Some x else find_node v m.
Proof. unfold find_node. cbn [find fst]. destruct (node =? m)%Z; reflexivity. Qed.

Lemma ordpairs_snoc {A} (R : A -> A -> Prop) l x : ForallOrdPairs R l -> (forall y, In y l -> R y x) -> ForallOrdPairs R (l ++ [x]).
Proof.
  induction 1 as [|a l Ha Hl IH]; intros H; cbn [app]; [repeat constructor|]. constructor.
  - apply Forall_app. split; [exact Ha|]. constructor; [apply H; left; reflexivity|constructor].
  - apply IH. intros y Hy. apply H. right. exact Hy.
Qed.
Lemma ordpairs_app {A} (R : A -> A -> Prop) l1 l2 : ForallOrdPairs R (l1 ++ l2) -> ForallOrdPairs R l1 /\ ForallOrdPairs R l2 /\ forall x y, In x l1 -> In y l2 -> R x y.
Proof.
  induction l1 as [|a l1 IH]; cbn [app]; intros H; [repeat split; [constructor|exact H|intros x y []]|].
  inversion_clear H as [|? ? F P]. apply Forall_app in F. destruct F as [F1 F2]. destruct (IH P) as (I1 & I2 & I3).
  repeat split; [constructor; assumption|assumption|]. intros x y [<-|Hx] Hy; [|auto]. rewrite Forall_forall in F2. auto.
Qed.

Lemma check_u_ref_spec rs : forall done v, describes v done -> ForallOrdPairs (agree s) done -> (forall r, In r (done ++ rs) -> exists node, regulates_at s r node) ->
  match check_u_ref_per_node s rs v with
  | inl v' => describes v' (done ++ rs) /\ ForallOrdPairs (agree s) (done ++ rs)
  | inr e => ~ ForallOrdPairs (agree s) (done ++ rs) /\
      exists r1 r2 node, In r1 (done ++ rs) /\ In r2 (done ++ rs) /\ vr_status r1 = true /\ vr_status r2 = true /\ regulates_at s r1 node /\ regulates_at s r2 node /\
        SFeqb (vr_u_ref r1) (vr_u_ref r2) = false /\ e = ConflictingURef (vr_id r1) (vr_id r2)
  end.
Proof.
  induction rs as [|r rs IH]; intros done v [D1 D2] P Ex; cbn [check_u_ref_per_node].
  - rewrite app_nil_r. refine (conj (conj D1 D2) P).
  - assert (Eapp : done ++ r :: rs = (done ++ [r]) ++ rs) by (rewrite <- app_assoc; reflexivity). rewrite Eapp in *.
    assert (Inr : In r ((done ++ [r]) ++ rs)) by (apply in_or_app; left; apply in_or_app; right; left; reflexivity).
    destruct (vr_status r) eqn:St; cbn [negb].
    + destruct (Ex r Inr) as [node Hn]. destruct Hn as [t Ht]. pose proof (proj2 (get_load_gen_in _ _ _) Ht) as G. rewrite G.
      assert (Hn : regulates_at s r node) by (exists t; exact Ht).
      destruct (find_node v node) as [[id0 u0]|] eqn:F.
      * destruct (D2 _ _ _ F) as (r0 & R1 & R2 & R3 & R4 & R5). unfold dbl_neq. destruct (SFeqb u0 (vr_u_ref r)) eqn:Q; cbn [negb].
        -- apply IH; [|apply ordpairs_snoc; [exact P|]|exact Ex].
           ++ split.
              ** intros x m Hx Sx Rx. apply in_app_or in Hx. destruct Hx as [Hx|[<-|[]]]; [apply D1; assumption|].
                 rewrite (regulates_unique r m node Rx Hn). exists id0, u0. auto.
              ** intros m i w Hm. destruct (D2 _ _ _ Hm) as (x & X1 & X2). exists x. split; [apply in_or_app; auto|exact X2].
           ++ intros y Hy Sy Sr m Ym Rm. pose proof (regulates_unique r m node Rm Hn). subst m.
              destruct (D1 y node Hy Sy Ym) as (i & w & W1 & W2). rewrite F in W1. injection W1 as <- <-.
              destruct W2 as [W2|W2]; [eapply SFeqb_trans; [apply SFeqb_sym; exact W2|exact Q]|]. rewrite <- W2. exact Q.
        -- split.
           ++ intros A. apply ordpairs_app in A. destruct A as [A _]. apply ordpairs_app in A. destruct A as (_ & _ & A).
              specialize (A r0 r R1 (or_introl eq_refl) R2 St node R3 Hn). rewrite R5 in A. congruence.
           ++ exists r0, r, node. rewrite R4, R5. repeat split; auto. apply in_or_app. left. apply in_or_app. left. exact R1.
      * apply IH; [|apply ordpairs_snoc; [exact P|]|exact Ex].
        -- split.
           ++ intros x m Hx Sx Rx. rewrite find_node_cons. destruct (node =? m)%Z eqn:E.
              ** apply Z.eqb_eq in E. subst m. exists (vr_id r), (vr_u_ref r). split; [reflexivity|]. apply in_app_or in Hx. destruct Hx as [Hx|[<-|[]]]; [|right; reflexivity].
                 destruct (D1 x node Hx Sx Rx) as (i & w & W & _). congruence.
              ** apply in_app_or in Hx. destruct Hx as [Hx|[<-|[]]]; [apply D1; assumption|]. rewrite (regulates_unique r m node Rx Hn), Z.eqb_refl in E. discriminate.
           ++ intros m i w Hm. rewrite find_node_cons in Hm. destruct (node =? m)%Z eqn:E.
              ** apply Z.eqb_eq in E. subst m. injection Hm as <- <-. exists r. repeat split; auto. apply in_or_app. right. left. reflexivity.
              ** destruct (D2 _ _ _ Hm) as (x & X1 & X2). exists x. split; [apply in_or_app; auto|exact X2].
        -- intros y Hy Sy Sr m Ym Rm. pose proof (regulates_unique r m node Rm Hn). subst m. destruct (D1 y node Hy Sy Ym) as (i & w & W & _). congruence.
    + apply IH; [|apply ordpairs_snoc; [exact P|]|exact Ex].
      * split.
        -- intros x m Hx Sx Rx. apply in_app_or in Hx. destruct Hx as [Hx|[<-|[]]]; [apply D1; assumption|congruence].
        -- intros m i w Hm. destruct (D2 _ _ _ Hm) as (x & X1 & X2). exists x. split; [apply in_or_app; auto|exact X2].
      * intros y Hy Sy Sr. congruence.
Qed.

Lemma check_type_spec rs : (forall r, In r rs -> exists node, regulates_at s r node) ->
  match check_load_gen_type s rs with
  | inl _ => forall r node t, In r rs -> vr_status r = true -> In (vr_object r, (node, t)) (load_gens s) -> t = 0%Z
  | inr e => exists r node t, In r rs /\ vr_status r = true /\ In (vr_object r, (node, t)) (load_gens s) /\ t <> 0%Z /\ e = UnsupportedLoadGenType (vr_id r)
  end.
Proof.
  induction rs as [|r rs IH]; intros Ex; cbn [check_load_gen_type]; [intros r node t []|].
  specialize (IH (fun x Hx => Ex x (or_intror Hx))).
  assert (K : vr_status r = false \/ (exists node, In (vr_object r, (node, 0%Z)) (load_gens s)) ->
    match check_load_gen_type s rs with
    | inl _ => forall r0 node t, In r0 (r :: rs) -> vr_status r0 = true -> In (vr_object r0, (node, t)) (load_gens s) -> t = 0%Z
    | inr e => exists r0 node t, In r0 (r :: rs) /\ vr_status r0 = true /\ In (vr_object r0, (node, t)) (load_gens s) /\ t <> 0%Z /\ e = UnsupportedLoadGenType (vr_id r0)
    end).
  { intros C. destruct (check_load_gen_type s rs) as [[]|e].
    - intros x node t [<-|Hx] Sx Hl; [|apply (IH x node t); auto]. destruct C as [C|[m C]]; [congruence|]. apply get_load_gen_in in Hl. apply get_load_gen_in in C. congruence.
    - destruct IH as (x & node & t & X1 & X2). exists x, node, t. split; [right; exact X1|exact X2]. }
  destruct (vr_status r) eqn:St; cbn [negb]; [|apply K; auto].
  destruct (Ex r (or_introl eq_refl)) as [node [t Ht]]. pose proof (proj2 (get_load_gen_in _ _ _) Ht) as G. rewrite G.
  destruct (t =? 0)%Z eqn:E.
  - apply Z.eqb_eq in E. subst t. apply K. right. exists node. exact Ht.
  - apply Z.eqb_neq in E. exists r, node, t. repeat split; auto. left. reflexivity.
Qed.
Lemma check_sources_spec ss v :
  match check_sources ss v with
  | inl _ => forall x, In x ss -> cs_status x = true -> find_node v (cs_node x) = None
  | inr e => exists x id u, In x ss /\ cs_status x = true /\ find_node v (cs_node x) = Some (id, u) /\ e = UnsupportedRegulatorSource (cs_node x)
  end.
Proof.
  induction ss as [|x ss IH]; cbn [check_sources]; [intros x []|]. destruct (cs_status x) eqn:St; cbn [andb].
  - destruct (find_node v (cs_node x)) as [[id u]|] eqn:F.
    + exists x, id, u. repeat split; auto. left. reflexivity.
    + destruct (check_sources ss v) as [[]|e].
      * intros y [<-|Hy] Sy; [exact F|apply IH; auto].
      * destruct IH as (y & id & u & Y1 & Y2). exists y, id, u. split; [right; exact Y1|exact Y2].
  - destruct (check_sources ss v) as [[]|e].
    + intros y [<-|Hy] Sy; [congruence|apply IH; auto].
    + destruct IH as (y & id & u & Y1 & Y2). exists y, id, u. split; [right; exact Y1|exact Y2].
Qed.
Lemma describes_nil : describes [] [].
Proof. split; [intros r node []|intros node id u H; discriminate]. Qed.
End Check.

Lemma ordpairs_perm {A} (R : A -> A -> Prop) : (forall x y, R x y -> R y x) -> forall l l', Permutation l l' -> ForallOrdPairs R l -> ForallOrdPairs R l'.
Proof.
  intros Sy l l' P. induction P as [|x l l' P IH|x y l|l l' l'' P1 IH1 P2 IH2]; intros H; [constructor| | |auto].
  - inversion_clear H as [|? ? F O]. constructor; [|auto]. eapply Permutation_Forall; eassumption.
  - inversion_clear H as [|? ? F O]. inversion_clear O as [|? ? F2 O2]. inversion_clear F. constructor; [constructor; auto|]. constructor; auto.
Qed.

(** ** The loop *)
Section Loop.
Context {St : Type} (step : St -> option (St * list spec_float)) (err_tol : spec_float) (max_iter : Z).
Lemma pf_loop_spec s0 fuel : forall s dev n k, n = Z.of_nat k -> iterations step k s0 s ->
  (k > 0 -> exists s1 devs, iterations step (k - 1) s0 s1 /\ step s1 = Some (s, devs) /\ dev = max_deviation devs) ->
  match pf_loop step err_tol max_iter fuel s dev n with
  | Finished s' m => exists k', m = Z.of_nat k' /\ 0 < k' /\ iterations step k' s0 s' /\
      exists s1 devs, iterations step (k' - 1) s0 s1 /\ step s1 = Some (s', devs) /\ SFltb err_tol (max_deviation devs) = false
  | Failed (IterationDiverge i) m => i = max_iter /\ m = max_iter /\ exists k' s', m = Z.of_nat k' /\ iterations step k' s0 s' /\
      (k' = 0 \/ exists s1 devs, iterations step (k' - 1) s0 s1 /\ step s1 = Some (s', devs) /\ SFltb err_tol (max_deviation devs) = true)
  | Failed e m => e = SolverError /\ exists k' s', m = Z.of_nat k' /\ iterations step k' s0 s' /\ step s' = None
  | OutOfFuel => True
  end.
Proof.
  induction fuel as [|fuel IH]; intros s dev n k En It Last; cbn [pf_loop].
  - destruct (SFltb err_tol dev || (n =? 0)%Z) eqn:C; [exact I|]. apply orb_false_iff in C. destruct C as [C1 C2].
    exists k. assert (k > 0) by lia. destruct (Last H) as (s1 & devs & L1 & L2 & L3). repeat split; auto. exists s1, devs. subst dev. auto.
  - destruct (SFltb err_tol dev || (n =? 0)%Z) eqn:C.
    + destruct (n =? max_iter)%Z eqn:M.
      * repeat split; [lia|]. exists k, s. split; [lia|split; [exact It|]]. destruct k as [|k]; [left; reflexivity|right].
        destruct (Last ltac:(lia)) as (s1 & devs & L1 & L2 & L3). exists s1, devs. split; [exact L1|split; [exact L2|]]. subst dev. apply orb_true_iff in C. destruct C as [C|C]; [exact C|lia].
      * destruct (step s) as [[s' devs]|] eqn:E; [|split; [reflexivity|exists k, s; auto]].
        apply (IH s' (max_deviation devs) (n + 1)%Z (S k)); [lia|eapply it_next; eassumption|].
        intros _. exists s, devs. replace (S k - 1) with k by lia. auto.
    + apply orb_false_iff in C. destruct C as [C1 C2].
      exists k. assert (k > 0) by lia. destruct (Last H) as (s1 & devs & L1 & L2 & L3). repeat split; auto. exists s1, devs. subst dev. auto.
Qed.
Lemma pf_loop_fuel fuel : forall s dev n, (0 <= n <= max_iter)%Z -> (Z.to_nat (max_iter - n) < fuel) -> pf_loop step err_tol max_iter fuel s dev n <> OutOfFuel.
Proof.
  induction fuel as [|fuel IH]; intros s dev n Hn Hf; [lia|]. cbn [pf_loop]. destruct (SFltb err_tol dev || (n =? 0)%Z); [|discriminate].
  destruct (n =? max_iter)%Z eqn:M; [discriminate|]. destruct (step s) as [[s' devs]|]; [|discriminate]. apply IH; lia.
Qed.
Lemma pf_loop_limit fuel : forall s dev n, (0 <= n <= max_iter)%Z -> match pf_loop step err_tol max_iter fuel s dev n with Finished _ m | Failed _ m => (0 <= m <= max_iter)%Z | OutOfFuel => True end.
Proof.
  induction fuel as [|fuel IH]; intros s dev n Hn; cbn [pf_loop]; (destruct (SFltb err_tol dev || (n =? 0)%Z); [|lia]); [exact I|].
  destruct (n =? max_iter)%Z eqn:M; [lia|]. destruct (step s) as [[s' devs]|]; [|lia]. apply IH. lia.
Qed.
End Loop.
Section NewtonRaphson.
Context {St : Type} (err_tol : spec_float) (max_iter : Z).
Variables (nr_step : bool -> St -> option (St * list spec_float)) (cache_run : bool).
Lemma nr_loop_fuel fuel : forall s cd dev n, (0 <= n <= max_iter)%Z -> (Z.to_nat (max_iter - n) < fuel) ->
  match nr_loop err_tol max_iter nr_step cache_run fuel s cd dev n with Finished _ m | Failed _ m => (0 <= m <= max_iter)%Z | OutOfFuel => False end.
Proof.
  induction fuel as [|fuel IH]; intros s cd dev n Hn Hf; [lia|]. cbn [nr_loop]. destruct (SFltb err_tol dev || (n =? 0)%Z); [|lia].
  destruct (n =? max_iter)%Z eqn:M; [lia|]. cbv zeta. destruct (nr_step _ s) as [[s' devs]|]; [|lia].
  destruct (_ && negb cache_run); apply IH; lia.
Qed.
Lemma nr_loop_spec (limits : bool) (nt : not_nan err_tol) (fin : SFltb err_tol (S754_infinity false) = true) s0 fuel : forall s cd dev n k, (if limits then 0 <= cd else cd = -1)%Z -> n = Z.of_nat k -> nr_iterations nr_step k s0 s ->
  (0 < n -> dev = S754_infinity false \/
     exists s1 devs, nr_iterations nr_step (k - 1) s0 s1 /\ nr_step (cd =? 0)%Z s1 = Some (s, devs) /\ dev = max_deviation devs /\ (SFleb dev err_tol && (0 <? cd)%Z && negb cache_run = false))%Z ->
  match nr_loop err_tol max_iter nr_step cache_run fuel s cd dev n with
  | Finished s' m => exists k' checked s1 devs, m = Z.of_nat (S k') /\ nr_iterations nr_step k' s0 s1 /\ nr_step checked s1 = Some (s', devs) /\
      (Forall not_nan devs -> (forall d, In d devs -> SFleb d err_tol = true) /\ (limits = true -> cache_run = false -> checked = true))
  | Failed (IterationDiverge i) m => i = max_iter /\ m = max_iter
  | Failed e m => e = SolverError
  | OutOfFuel => True
  end.
Proof.
  induction fuel as [|fuel IH]; intros s cd dev n k Hc Hn It Last; cbn [nr_loop].
  1: destruct (SFltb err_tol dev || (n =? 0)%Z) eqn:C; [exact I|].
  2: destruct (SFltb err_tol dev || (n =? 0)%Z) eqn:C; [destruct (n =? max_iter)%Z eqn:M; [lia|]|].
  2:{ cbv zeta. set (cd' := if (0 <? cd)%Z then _ else _).
      assert (Hc' : (if limits then 0 <= cd' else cd' = -1)%Z) by (subst cd'; destruct limits; destruct (0 <? cd)%Z eqn:E; lia).
      destruct (nr_step (cd' =? 0)%Z s) as [[s' devs]|] eqn:E; [|reflexivity].
      destruct (SFleb (max_deviation devs) err_tol && (0 <? cd')%Z && negb cache_run) eqn:K.
      - apply (IH _ _ _ _ (S k)); [destruct limits; [lia|apply andb_true_iff in K; destruct K as [K _]; apply andb_true_iff in K; destruct K as [_ K]; lia]|lia|eapply nr_it_next; eassumption|left; reflexivity].
      - apply (IH _ _ _ _ (S k)); [exact Hc'|lia|eapply nr_it_next; eassumption|]. intros _. right. exists s, devs. replace (S k - 1) with k by lia. auto. }
  all: apply orb_false_iff in C; destruct C as [C1 C2]; (destruct Last as [->|(s1 & devs & L0 & L1 & L2 & L3)]; [lia|congruence|]);
    exists (k - 1), (cd =? 0)%Z, s1, devs; (split; [lia|]); (split; [exact L0|]); (split; [exact L1|]); intros N; destruct (max_deviation_bound devs N) as [M1 M2];
    assert (Le : SFleb dev err_tol = true) by (apply SFltb_false; [exact nt|subst dev; exact M1|exact C1]);
    (split; [intros d Hd; eapply SFleb_trans; [apply M2; exact Hd|subst dev; exact Le]|]);
    intros -> ->; rewrite Le in L3; cbn [negb andb] in L3; rewrite andb_true_r in L3; lia.
Qed.
End NewtonRaphson.
