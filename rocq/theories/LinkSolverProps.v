(** C25: the flows through the links of a topological node balance every node. *)
From Verif Require Import Common LinkSolver LinkSolverSpec LinkSolverFacts LinkSolverForward LinkSolverBackward.
From Coq Require Import Ring QArith Qcanon.
Close Scope Qc_scope. Close Scope Q_scope. Open Scope nat_scope.

Section Props.
Context {F : Type}.
Variable o : flow_ops F.
Hypothesis laws : flow_laws o.

(** The full property asks this without [clean_run]; C25_cycle_refuted shows that it fails then. *)
Theorem C25_balance_partial es loads : link_graph es (length loads) -> total o loads = f_0 o -> clean_run o es loads = true ->
  exists x, compute_loads_link_elements o es loads = Some x /\ balanced o es loads x.
Proof. exact (computed_balance o laws es loads). Qed.

(** ** links without cycles *)
Lemma joined_mono es es' u v : (forall e, In e es -> In e es') -> joined es u v -> joined es' u v.
Proof. intros H. induction 1; [constructor|econstructor 2; eauto|econstructor 3; eauto]. Qed.
Lemma joined_trans es u v w : joined es u v -> joined es v w -> joined es u w.
Proof. intros H. induction 1; auto; [econstructor 2; eauto|econstructor 3; eauto]. Qed.
Lemma joined_sym es u v : joined es u v -> joined es v u.
Proof. induction 1; [constructor| |]; (eapply joined_trans; [|exact IHjoined]); [econstructor 3|econstructor 2]; eauto; constructor. Qed.
Lemma in_firstn_le {A} (l : list A) i j e : i <= j -> In e (firstn i l) -> In e (firstn j l).
Proof. intros H. replace (firstn i l) with (firstn i (firstn j l)) by (rewrite firstn_firstn; f_equal; lia). generalize (firstn j l). intros l'. rewrite <- (firstn_skipn i l') at 2. intros. apply in_or_app. auto. Qed.
Lemma edge_in_firstn (es : list edge) i : i < length es -> In (edge_at es i) (firstn (S i) es).
Proof.
  intros H. apply nth_error_In with i. destruct (nth_error es i) as [e|] eqn:E; [|apply nth_error_None in E; lia].
  rewrite <- (firstn_skipn (S i) es) in E. rewrite nth_error_app1 in E by (rewrite firstn_length; lia). rewrite E. f_equal. unfold edge_at. symmetry. apply nth_error_nth.
  rewrite <- (firstn_skipn (S i) es), nth_error_app1 by (rewrite firstn_length; lia). auto.
Qed.

Section Run.
Variables (es : list edge) (loads : list F).
Hypothesis ends : forall a b, In (a, b) es -> a < length loads /\ b < length loads /\ a <> b.
Lemma run_clean (J : nat -> fw_state F -> (nat -> nat) -> Prop) :
  (forall i s rep, FI o es loads i s rep -> J i s rep -> i < length es -> step_clean s i = true) ->
  (forall i s rep, FI o es loads i s rep -> J i s rep -> i < length es -> mem i (w_contracted s) = true -> J (S i) (forward_step o s i) rep) ->
  (forall i s rep, FI o es loads i s rep -> J i s rep -> i < length es -> mem i (w_contracted s) = false ->
    J (S i) (forward_step o s i) (fun v => if rep v =? snd (edge_at (w_edges s) i) then fst (edge_at (w_edges s) i) else rep v)) ->
  J 0 (forward_init o es loads) (fun v => v) -> clean_run o es loads = true.
Proof.
  intros Hc H1 H2 H0. unfold clean_run.
  assert (H : forall k i s rep, FI o es loads i s rep -> J i s rep -> i + k = length es -> runs_clean o s (seq i k) = true).
  { induction k as [|k IH]; intros i s rep I HJ E; simpl; auto. assert (Hi : i < length es) by lia. pose proof (Hc i s rep I HJ Hi) as Hcl. rewrite Hcl. cbn [andb].
    destruct (mem i (w_contracted s)) eqn:Em.
    - apply (IH _ _ rep); [now apply FI_free|now apply (H1 i s rep)|lia].
    - eapply IH; [exact (FI_pivot o laws es loads ends i s rep I Hi Em Hcl)|exact (H2 i s rep I HJ Hi Em)|lia]. }
  apply (H (length es) 0 _ _ (FI_init o laws es loads ends) H0). reflexivity.
Qed.
End Run.

Lemma step_free (s : fw_state F) i : mem i (w_contracted s) = false -> w_free (forward_step o s i) = w_free s.
Proof.
  intros E. unfold forward_step. rewrite E. destruct (edge_at (w_edges s) i) as [a b].
  assert (H : forall l (t : fw_state F), w_free (fold_left (reattach a b (w_row s)) l t) = w_free t).
  { induction l as [|f l IH]; intros t; simpl; auto. rewrite IH. now destruct (reattach_fields a b (w_row s) t f) as (_ & _ & _ & _ & _ & _ & _ & -> & _). }
  now rewrite H.
Qed.
Lemma cur_end es loads i (s : fw_state F) rep f : FI o es loads i s rep -> f < length es -> ~ In f (w_pivots s) ->
  fst (edge_at (w_edges s) f) = rep (fst (edge_at es f)) /\ snd (edge_at (w_edges s) f) = rep (snd (edge_at es f)).
Proof. intros I Hf Hn. now rewrite (fi_cur _ _ _ _ _ _ I f Hf Hn). Qed.
Lemma not_done es loads i (s : fw_state F) rep : FI o es loads i s rep -> ~ In i (w_pivots s).
Proof. intros I H. apply (fi_del _ _ _ _ _ _ I) in H. lia. Qed.

Lemma acyclic_clean es loads : link_graph es (length loads) -> acyclic es -> clean_run o es loads = true.
Proof.
  intros [He _] Ha.
  assert (Hnone : forall i s rep, FI o es loads i s rep -> (forall u v, u < length loads -> v < length loads -> rep u = rep v -> joined (firstn i es) u v) -> w_free s = [] -> forall f, ~ In f (w_contracted s)).
  { intros i s rep I HJ Hfr f Hc. apply (fi_con _ _ _ _ _ _ I) in Hc as (Hfm & Hnp & E). destruct (cur_end _ _ _ _ _ _ I Hfm Hnp) as [C1 C2]. rewrite C1, C2 in E.
    destruct (edge_ends es loads He f Hfm) as (E1 & E2 & _). destruct (Nat.lt_ge_cases f i) as [Hlt|Hge].
    - destruct (fi_part _ _ _ _ _ _ I f Hlt) as [|Hfree]; [contradiction|]. now rewrite Hfr in Hfree.
    - specialize (HJ _ _ E1 E2 E). apply (Ha f (fst (edge_at es f)) (snd (edge_at es f))).
      + rewrite <- surjective_pairing. now apply nth_error_nth'.
      + eapply joined_mono; [|exact HJ]. intros e. now apply in_firstn_le. }
  apply (run_clean es loads He (fun i s rep => (forall u v, u < length loads -> v < length loads -> rep u = rep v -> joined (firstn i es) u v) /\ w_free s = [])).
  - intros i s rep I [HJ Hfr] Hi. unfold step_clean. apply orb_true_iff. right. apply forallb_forall. intros f _.
    apply negb_true_iff, mem_false. now apply (Hnone i s rep).
  - intros i s rep I [HJ Hfr] Hi Em. apply mem_In in Em. now apply (Hnone i s rep) in Em.
  - intros i s rep I [HJ Hfr] Hi Em. split; [|now rewrite step_free].
    pose proof (edge_in_firstn es i Hi) as Hin. destruct (cur_end _ _ _ _ _ _ I Hi (not_done _ _ _ _ _ I)) as [C1 C2]. destruct (edge_ends es loads He i Hi) as (E1 & E2 & _).
    destruct (edge_at es i) as [a b]. cbn [fst snd] in *. rewrite C1, C2.
    assert (HJ' : forall u v, u < length loads -> v < length loads -> rep u = rep v -> joined (firstn (S i) es) u v) by (intros u v Hu Hv E; eapply joined_mono; [|apply HJ; auto]; intros e; apply in_firstn_le; lia).
    assert (Hab : joined (firstn (S i) es) a b) by (econstructor 2; [constructor|exact Hin]).
    intros u v Hu Hv E. destruct (Nat.eqb_spec (rep u) (rep b)) as [Eu|Eu], (Nat.eqb_spec (rep v) (rep b)) as [Ev|Ev]; auto.
    + apply HJ'; auto; congruence.
    + eapply joined_trans; [apply (HJ' u b); auto|]. eapply joined_trans; [apply joined_sym, Hab|]. apply HJ'; auto.
    + eapply joined_trans; [apply (HJ' u a); auto|]. eapply joined_trans; [exact Hab|]. apply HJ'; auto.
  - split; auto. intros u v _ _ ->. constructor.
Qed.
Theorem C25_forest es loads : link_graph es (length loads) -> acyclic es -> total o loads = f_0 o ->
  exists x, compute_loads_link_elements o es loads = Some x /\ balanced o es loads x.
Proof. intros Hg Ha Ht. apply C25_balance_partial; auto. now apply acyclic_clean. Qed.

(** ** links listed from one node outwards, with any cycles and parallel links *)
Definition outwards (root : nat) (es : list (nat * nat)) : Prop := forall k a b, nth_error es k = Some (a, b) -> joined (firstn k es) root a.
Lemma joined_rep es loads i (s : fw_state F) rep u v : FI o es loads i s rep -> i <= length es -> joined (firstn i es) u v -> rep u = rep v.
Proof.
  intros I Hi.
  assert (H : forall a b, In (a, b) (firstn i es) -> rep a = rep b).
  { intros a b Hin. destruct (In_nth_error _ _ Hin) as [f Hf]. assert (Hlt : f < length (firstn i es)) by (apply nth_error_Some; intros E0; pose proof (eq_trans (eq_sym E0) Hf); discriminate). rewrite firstn_length in Hlt.
    assert (E : edge_at es f = (a, b)) by (apply nth_error_nth; rewrite <- (firstn_skipn i es), nth_error_app1; auto; rewrite firstn_length; lia).
    destruct (fi_part _ _ _ _ _ _ I f) as [Hp|Hp]; [lia| |].
    - apply (fi_del _ _ _ _ _ _ I) in Hp as (_ & _ & Hp). now rewrite E in Hp.
    - apply (fi_free _ _ _ _ _ _ I) in Hp as [_ Hp]. apply (fi_con _ _ _ _ _ _ I) in Hp as (Hm & Hn & Hp). destruct (cur_end _ _ _ _ _ _ I Hm Hn) as [C1 C2]. rewrite C1, C2, E in Hp. exact Hp. }
  induction 1 as [|v w Hv IH Hin|v w Hv IH Hin]; auto; apply H in Hin; congruence.
Qed.
Lemma outwards_clean root es loads : link_graph es (length loads) -> outwards root es -> clean_run o es loads = true.
Proof.
  intros [He _] Ho.
  assert (Hfrom : forall i s rep, FI o es loads i s rep -> i < length es -> rep (fst (edge_at es i)) = rep root).
  { intros i s rep I Hi. symmetry. apply (joined_rep es loads i s rep _ _ I); [exact (Nat.lt_le_incl _ _ Hi)|]. apply (Ho i _ (snd (edge_at es i))). rewrite <- surjective_pairing. now apply nth_error_nth'. }
  apply (run_clean es loads He (fun i s rep => rep root = root /\ (forall u, u < length loads -> rep u = u \/ rep u = root))).
  - intros i s rep I [H1 H2] Hi. unfold step_clean. destruct (mem i (w_contracted s)) eqn:Em; auto. cbn [orb]. apply forallb_forall. intros f Hf.
    apply negb_true_iff, mem_false. intros Hc. apply (fi_con _ _ _ _ _ _ I) in Hc as (Hfm & Hnp & E). apply (fi_adj _ _ _ _ _ _ I) in Hf as (_ & _ & Hor).
    destruct (cur_end _ _ _ _ _ _ I Hfm Hnp) as [C1 C2]. destruct (cur_end _ _ _ _ _ _ I Hi (not_done _ _ _ _ _ I)) as [D1 D2].
    assert (Hne : snd (edge_at (w_edges s) i) <> root).
    { intros E0. apply mem_false in Em. apply Em. apply (fi_con _ _ _ _ _ _ I). refine (conj Hi (conj (not_done _ _ _ _ _ I) _)). rewrite E0, D1, <- H1. now apply (Hfrom i s). }
    destruct (edge_ends es loads He f Hfm) as (E1 & E2 & E3). destruct (H2 _ E1) as [F1|F1], (H2 _ E2) as [F2|F2]; rewrite C1, C2, ?F1, ?F2 in *; destruct Hor; congruence.
  - auto.
  - intros i s rep I [H1 H2] Hi Em. destruct (cur_end _ _ _ _ _ _ I Hi (not_done _ _ _ _ _ I)) as [C1 C2]. rewrite C1, C2.
    rewrite (Hfrom i s rep I Hi), H1. split.
    + destruct (root =? _); auto.
    + intros u Hu. destruct (_ =? _); auto.
  - auto.
Qed.
Theorem C25_outwards root es loads : link_graph es (length loads) -> outwards root es -> total o loads = f_0 o ->
  exists x, compute_loads_link_elements o es loads = Some x /\ balanced o es loads x.
Proof. intros Hg Ho Ht. apply C25_balance_partial; auto. now apply (outwards_clean root). Qed.
End Props.

(** ** the rationals *)
Definition qops : flow_ops Qc := mkFlowOps Qcplus Qcminus Qcmult Qcdiv Qcopp 0%Qc (fun z => Q2Qc (inject_Z z)).
Definition q (z : Z) : Qc := Q2Qc (inject_Z z).
Lemma qlaws : flow_laws qops.
Proof.
  constructor.
  - exact Qcrt.
  - reflexivity.
  - intros a b. apply Qc_is_canon. change (Qred (inject_Z (a + b)) == Qred (Qred (inject_Z a) + Qred (inject_Z b)))%Q. rewrite !Qred_correct, inject_Z_plus. reflexivity.
  - intros a b. apply Qc_is_canon. change (Qred (inject_Z (a * b)) == Qred (Qred (inject_Z a) * Qred (inject_Z b)))%Q. rewrite !Qred_correct, inject_Z_mult. reflexivity.
Qed.

(** A second link between the same nodes, then the node is merged into a third: the third node is left with a flow of 1 although nothing is injected there. *)
Theorem C25_cycle_refuted : exists (es : list (nat * nat)) (loads x : list Qc), link_graph es (length loads) /\ total qops loads = 0%Qc /\
  compute_loads_link_elements qops es loads = Some x /\ ~ balanced qops es loads x.
Proof.
  exists [(0, 1); (0, 1); (2, 0)], [q 3; q (-3); q 0], [q 2; q 1; q 1].
  refine (conj _ (conj eq_refl (conj _ _))).
  - constructor.
    + intros a b H. simpl in *. intuition; match goal with H : (_, _) = _ |- _ => injection H as <- <- end; lia.
    + assert (H0 : forall v, v < 3 -> joined [(0, 1); (0, 1); (2, 0)] 0 v).
      { intros v Hv. destruct v as [|[|[|]]]; [constructor| | |lia].
        - apply joined_to with 0; [constructor|simpl; auto].
        - apply joined_from with 0; [constructor|simpl; auto]. }
      intros u v Hu Hv. eapply joined_trans; [apply joined_sym|]; apply H0; auto.
  - vm_compute. repeat f_equal; apply Qc_is_canon; reflexivity.
  - intros [_ H]. specialize (H 2 (q 0) eq_refl). vm_compute in H. discriminate.
Qed.

(** ** the hypotheses are met *)
(** a triangle with one doubled side, listed from node 0 outwards *)
Definition demo_es : list (nat * nat) := [(0, 1); (1, 2); (0, 1); (2, 0)].
Definition demo_loads : list Qc := [q 1; q (-3); q 2].
Example demo_graph : link_graph demo_es (length demo_loads) /\ total qops demo_loads = 0%Qc /\ outwards 0 demo_es /\ clean_run qops demo_es demo_loads = true.
Proof.
  refine (conj _ (conj eq_refl (conj _ eq_refl))).
  - constructor.
    + intros a b H. simpl in *. intuition; match goal with H : (_, _) = _ |- _ => injection H as <- <- end; lia.
    + assert (H0 : forall v, v < 3 -> joined demo_es 0 v).
      { intros v Hv. destruct v as [|[|[|]]]; [constructor| | |lia].
        - apply joined_to with 0; [constructor|simpl; auto].
        - apply joined_from with 0; [constructor|simpl; auto]. }
      intros u v Hu Hv. eapply joined_trans; [apply joined_sym|]; apply H0; auto.
  - intros [|[|[|[|k]]]] a b E; try (destruct k; discriminate E); injection E as <- <-; simpl firstn.
    + constructor.
    + apply joined_to with 0; [constructor|simpl; auto].
    + constructor.
    + apply joined_to with 1; [|simpl; auto]. apply joined_to with 0; [constructor|simpl; auto].
Qed.
Example demo_flows : exists x, compute_loads_link_elements qops demo_es demo_loads = Some x /\ balanced qops demo_es demo_loads x.
Proof. apply (C25_outwards _ qlaws 0); apply demo_graph. Qed.
(** a path listed from the far end, so that nodes with links of their own are merged away *)
Definition path_es : list (nat * nat) := [(2, 3); (1, 2); (1, 0)].
Example path_graph : link_graph path_es 4 /\ acyclic path_es /\ compute_loads_link_elements qops path_es [q 5; q 1; q (-2); q (-4)] = Some [q 4; q 6; q (-5)].
Proof.
  refine (conj _ (conj _ _)).
  - constructor.
    + intros a b H. simpl in *. intuition; match goal with H : (_, _) = _ |- _ => injection H as <- <- end; lia.
    + assert (H0 : forall v, v < 4 -> joined path_es 1 v).
      { intros v Hv. destruct v as [|[|[|[|]]]]; [| constructor | | |lia].
        - apply joined_to with 1; [constructor|simpl; auto].
        - apply joined_to with 1; [constructor|simpl; auto].
        - apply joined_to with 2; [|simpl; auto]. apply joined_to with 1; [constructor|simpl; auto]. }
      intros u v Hu Hv. eapply joined_trans; [apply joined_sym|]; apply H0; auto.
  - assert (Hinv : forall es (c : nat -> nat), (forall a b, In (a, b) es -> c a = c b) -> forall u v, joined es u v -> c u = c v).
    { intros es c H u v. induction 1 as [|v w Hv IH Hin|v w Hv IH Hin]; auto; apply H in Hin; congruence. }
    intros [|[|[|k]]] a b E; try (destruct k; discriminate E); injection E as <- <-; simpl firstn; intros H.
    + apply (Hinv _ (fun v => v)) in H; [discriminate|]. intros a b [].
    + apply (Hinv _ (fun v => if v =? 1 then 1 else 0)) in H; [discriminate|]. intros a b [E|[]]. now injection E as <- <-.
    + apply (Hinv _ (fun v => if v =? 0 then 1 else 0)) in H; [discriminate|]. intros a b [E|[E|[]]]; now injection E as <- <-.
  - vm_compute. repeat f_equal; apply Qc_is_canon; reflexivity.
Qed.

Print Assumptions C25_balance_partial.
Print Assumptions C25_forest.
Print Assumptions C25_outwards.
Print Assumptions C25_cycle_refuted.
