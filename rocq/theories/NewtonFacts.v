(** Facts about the model of the Newton-Raphson power flow. *)
From Coq Require Import Field.
From Verif Require Import Common Numbers NumbersPair ShortCircuit PowerFlow PowerFlowSpec PowerFlowFacts NewtonRaphson NewtonSpec.

Section Parts.
Context {R : Type} (o : num_ops R).
Hypothesis L : num_laws o.
Add Field NumFieldNf : (nl_field o L).
Local Notation "a + b" := (n_add o a b) : num_scope. Local Notation "a * b" := (n_mul o a b) : num_scope. Local Notation "a - b" := (n_sub o a b) : num_scope.
Local Notation "a / b" := (n_div o a b) : num_scope. Local Notation "- a" := (n_opp o a) : num_scope.
Local Notation zero := (n_zero o). Local Notation one := (n_one o).
Local Open Scope num_scope.
Local Notation cx := (NumbersPair.cx (R := R)). Local Notation cxo := (pair_num o). Local Notation conj := (cconj o).
Local Notation cmul := (NumbersPair.cmul o). Local Notation cadd := (NumbersPair.cadd o). Local Notation csub := (NumbersPair.csub o).

(** ** Complex numbers by their parts *)
Lemma re_sum {A} (f : A -> cx) l : re (nsum cxo (map f l)) = nsum o (map (fun i => re (f i)) l).
Proof. unfold nsum. induction l as [|i l IH]; [reflexivity|]. cbn [map fold_right n_add pair_num]. cbn [NumbersPair.cadd re fst]. f_equal. exact IH. Qed.
Lemma im_sum {A} (f : A -> cx) l : im (nsum cxo (map f l)) = nsum o (map (fun i => im (f i)) l).
Proof. unfold nsum. induction l as [|i l IH]; [reflexivity|]. cbn [map fold_right n_add pair_num]. cbn [NumbersPair.cadd im snd]. f_equal. exact IH. Qed.
Lemma sum_cons z l : nsum cxo (z :: l) = cadd z (nsum cxo l). Proof. reflexivity. Qed.
Lemma conj_sum {A} (f : A -> cx) l : conj (nsum cxo (map f l)) = nsum cxo (map (fun i => conj (f i)) l).
Proof.
  induction l as [|i l IH]; [apply pair_eq; cbn; ring|]. cbn [map]. rewrite !sum_cons, <- IH. apply pair_eq; cbn; ring.
Qed.
Lemma mul_sum {A} z (f : A -> cx) l : cmul z (nsum cxo (map f l)) = nsum cxo (map (fun i => cmul z (f i)) l).
Proof.
  induction l as [|i l IH]; [apply pair_eq; cbn; ring|]. cbn [map]. rewrite !sum_cons, <- IH. apply pair_eq; cbn; ring.
Qed.
Lemma conj_mul z w : conj (cmul z w) = cmul (conj z) (conj w).
Proof. apply pair_eq; cbn; ring. Qed.
Lemma norm2_mul z w : norm2 o (cmul z w) = norm2 o z * norm2 o w.
Proof. unfold norm2. cbn. ring. Qed.
Lemma fold_vminus {A} (f : A -> nat -> R) l d p : fold_left (fun d j => vminus o d (f j)) l d p = d p - nsum o (map (fun j => f j p) l).
Proof.
  revert d. induction l as [|j l IH]; intros d; [cbn; ring|]. cbn [fold_left]. rewrite IH. unfold vminus, nsum. cbn [map fold_right]. ring.
Qed.
Lemma fold_vplus {A} (f : A -> nat -> R) l d p : fold_left (fun d j => vplus o d (f j)) l d p = d p + nsum o (map (fun j => f j p) l).
Proof.
  revert d. induction l as [|j l IH]; intros d; [cbn; ring|]. cbn [fold_left]. rewrite IH. unfold vplus, nsum. cbn [map fold_right]. ring.
Qed.

(** ** The right-hand side of a row *)
Variables (np n : nat) (ybus : nat -> nat -> nat -> nat -> cx).
Variables (sources loads : nat -> list nat) (source_y : nat -> nat -> nat -> cx) (source_u : nat -> nat -> cx).
Variables (type : nat -> load_type) (s : nat -> nat -> cx).
Local Notation dot := (ShortCircuit.dot cxo np).
Local Notation network := (network_current cxo np n ybus).
Local Notation sum_row := (NewtonRaphson.sum_row o np).
Lemma hnml_row y ui uj p :
  sum_row (bn (calculate_hnml o y ui uj)) p = re (cmul (ui p) (conj (dot y uj p))) /\
  sum_row (bh (calculate_hnml o y ui uj)) p = im (cmul (ui p) (conj (dot y uj p))).
Proof.
  assert (E : cmul (ui p) (conj (dot y uj p)) = nsum cxo (map (fun q => cmul (cmul (ui p) (conj (uj q))) (conj (y p q))) (seq 0 np))).
  { unfold ShortCircuit.dot. rewrite conj_sum, mul_sum. apply nsum_ext. intros q _. cbn [n_mul pair_num]. apply pair_eq; cbn; ring. }
  rewrite E, re_sum, im_sum. split; reflexivity.
Qed.
Lemma network_del u b p :
  pa (r_del (network_row o np n ybus u b)) p = - re (cmul (u b p) (conj (network u b p))) /\
  pb (r_del (network_row o np n ybus u b)) p = - im (cmul (u b p) (conj (network u b p))).
Proof.
  unfold network_row. cbn [r_del].
  set (f := fun r j => _).
  assert (F : forall l r, pa (r_del (fold_left f l r)) p = pa (r_del r) p - nsum o (map (fun j => re (cmul (u b p) (conj (dot (ybus b j) (u j) p)))) l) /\
                          pb (r_del (fold_left f l r)) p = pb (r_del r) p - nsum o (map (fun j => im (cmul (u b p) (conj (dot (ybus b j) (u j) p)))) l)).
  { induction l as [|j l IH]; intros r; [cbn; split; ring|]. cbn [fold_left]. destruct (IH (f r j)) as [IH1 IH2]. rewrite IH1, IH2.
    destruct (hnml_row (ybus b j) (u b) (u j) p) as [H1 H2]. unfold f. cbn [r_del pa pb]. unfold vminus. rewrite H1, H2. unfold nsum. cbn [map fold_right]. split; ring. }
  destruct (F (seq 0 n) (mkRow (fun _ => zero_block o) (mkPolar (v0 o) (v0 o)))) as [H1 H2]. rewrite H1, H2.
  unfold network_current. rewrite conj_sum, mul_sum, re_sum, im_sum. cbn [r_del pa pb]. unfold v0. split; ring.
Qed.
(** the power that a load is taken to give at the magnitude [v] *)
Definition load_at (clamped : nat -> option (nat -> R)) (v : nat -> R) (l p : nat) : cx :=
  match clamped l with
  | Some q => (re (s l p), q p)
  | None => match type l with
            | const_pq => s l p
            | const_y => (re (s l p) * v p * v p, im (s l p) * v p * v p)
            | const_i => (re (s l p) * v p, im (s l p) * v p)
            end
  end.
Lemma loads_del clamped v p : forall ls kd,
  pa (snd (fold_left (add_load o type s clamped v) ls kd)) p = pa (snd kd) p + nsum o (map (fun l => re (load_at clamped v l p)) ls) /\
  pb (snd (fold_left (add_load o type s clamped v) ls kd)) p = pb (snd kd) p + nsum o (map (fun l => im (load_at clamped v l p)) ls).
Proof.
  induction ls as [|l ls IH]; intros kd; [cbn; split; ring|]. cbn [fold_left]. destruct (IH (add_load o type s clamped v kd l)) as [H1 H2]. rewrite H1, H2.
  unfold nsum. cbn [map fold_right]. unfold load_at, add_load. destruct kd as [k d]. cbn [snd].
  destruct (clamped l) as [q|]; [|destruct (type l)]; cbn [snd pa pb]; unfold vplus, vre, vim; cbn [re im fst snd]; split; ring.
Qed.
(** the current of a source at the voltages [u] *)
Definition source_at (u : nat -> cx) (i p : nat) : cx := csub (dot (source_y i) (source_u i) p) (dot (source_y i) u p).
Lemma dot_opp y v p : dot (fun p q => copp o (y p q)) v p = copp o (dot y v p).
Proof.
  unfold ShortCircuit.dot. induction (seq 0 np) as [|q l IH]; [apply pair_eq; cbn; ring|]. cbn [map]. rewrite !sum_cons, IH. apply pair_eq; cbn; ring.
Qed.
Lemma sum_row_add t t' p : sum_row (tplus o t t') p = sum_row t p + sum_row t' p.
Proof. unfold NewtonRaphson.sum_row, tplus. apply (nsum_add o L). Qed.
Lemma sources_del u p : forall ls kd,
  pa (snd (fold_left (add_source o np source_y source_u u) ls kd)) p = pa (snd kd) p + nsum o (map (fun i => re (cmul (u p) (conj (source_at u i p)))) ls) /\
  pb (snd (fold_left (add_source o np source_y source_u u) ls kd)) p = pb (snd kd) p + nsum o (map (fun i => im (cmul (u p) (conj (source_at u i p)))) ls).
Proof.
  induction ls as [|i ls IH]; intros kd; [cbn; split; ring|]. cbn [fold_left]. destruct (IH (add_source o np source_y source_u u kd i)) as [H1 H2]. rewrite H1, H2.
  unfold nsum. cbn [map fold_right]. destruct kd as [k d]. unfold add_source. cbn [snd pa pb]. unfold vminus. rewrite !sum_row_add.
  destruct (hnml_row (source_y i) u u p) as [M1 M2]. destruct (hnml_row (fun p q => copp o (source_y i p q)) u (source_u i) p) as [S1 S2].
  rewrite M1, M2, S1, S2, dot_opp. unfold source_at. cbn. split; ring.
Qed.
(** what is specified less what the voltages [u] give: at a bus, with the magnitude [v] *)
Definition imbalance (clamped : nat -> option (nat -> R)) (v : nat -> R) (u : nat -> nat -> cx) (b p : nat) : cx :=
  csub (cadd (nsum cxo (map (fun l => load_at clamped v l p) (loads b))) (nsum cxo (map (fun i => cmul (u b p) (conj (source_at (u b) i p))) (sources b))))
    (cmul (u b p) (conj (network u b p))).
Lemma build_del xs clamped u b p :
  pa (r_del (build_row o np n ybus sources loads source_y source_u type s xs clamped u b)) p = re (imbalance clamped (pb (xs b)) u b p) /\
  pb (r_del (build_row o np n ybus sources loads source_y source_u type s xs clamped u b)) p = im (imbalance clamped (pb (xs b)) u b p).
Proof.
  unfold build_row.
  pose proof (sources_del (u b) p (sources b) (fold_left (add_load o type s clamped (pb (xs b))) (loads b) (r_jac (network_row o np n ybus u b) b, r_del (network_row o np n ybus u b)))) as [S1 S2].
  destruct (fold_left (add_source o np source_y source_u (u b)) (sources b) _) as [k d]. cbn [snd] in S1, S2. cbn [r_del]. rewrite S1, S2.
  destruct (loads_del clamped (pb (xs b)) p (loads b) (r_jac (network_row o np n ybus u b) b, r_del (network_row o np n ybus u b))) as [H1 H2]. rewrite H1, H2. cbn [snd].
  destruct (network_del u b p) as [N1 N2]. rewrite N1, N2. unfold imbalance. cbn [NumbersPair.csub NumbersPair.cadd re im fst snd]. fold (re (R := R)) (im (R := R)).
  change (@fst R R) with (re (R := R)). change (@snd R R) with (im (R := R)). rewrite !re_sum, !im_sum. split; ring.
Qed.
End Parts.

Section Run.
Context {R : Type} (o : num_ops R).
Hypothesis L : num_laws o.
Add Field NumFieldNr : (nl_field o L).
Local Notation "a + b" := (n_add o a b) : num_scope. Local Notation "a * b" := (n_mul o a b) : num_scope. Local Notation "a - b" := (n_sub o a b) : num_scope.
Local Notation "a / b" := (n_div o a b) : num_scope. Local Notation "- a" := (n_opp o a) : num_scope.
Local Notation zero := (n_zero o). Local Notation one := (n_one o). Local Notation three := (n_add o (n_add o one one) one).
Local Open Scope num_scope.
Local Notation cx := (NumbersPair.cx (R := R)). Local Notation cxo := (pair_num o).
Local Notation cmul := (NumbersPair.cmul o). Local Notation cadd := (NumbersPair.cadd o). Local Notation csub := (NumbersPair.csub o).
Variables (cabs arg : cx -> R) (rcos rsin : R -> R) (gtb : R -> R -> bool) (rabs : R -> R) (tol : R).
Variables (np n : nat) (ybus : nat -> nat -> nat -> nat -> cx).
Variables (sources loads : nat -> list nat) (source_y : nat -> nat -> nat -> cx) (source_u : nat -> nat -> cx).
Variables (type : nat -> load_type) (s : nat -> nat -> cx) (status : nat -> bool) (regulators_of : nat -> list nat) (regs : nat -> regulator (R := R)).
Local Notation active := (NewtonRaphson.active loads status regulators_of regs).
Local Notation bus_control := (NewtonRaphson.bus_control o sources loads status regulators_of regs).
Local Notation build_row := (NewtonRaphson.build_row o np n ybus sources loads source_y source_u type s).
Local Notation build := (NewtonRaphson.build o np n ybus sources loads source_y source_u type s).
Local Notation clamp := (NewtonRaphson.clamp o gtb rabs tol np s).
Local Notation clamp_at := (NewtonRaphson.clamp_at o gtb rabs tol np s regs).
Local Notation enforce_bus := (NewtonRaphson.enforce_bus o gtb rabs tol np loads type s status regulators_of regs).
Local Notation enforce := (NewtonRaphson.enforce o gtb rabs tol np loads type s status regulators_of regs).
Local Notation prepare := (NewtonRaphson.prepare o gtb rabs tol np n ybus sources loads source_y source_u type s status regulators_of regs).
Local Notation total := (NewtonRaphson.total o np).
Local Notation state := (NewtonRaphson.state (R := R)).

(** ** The regulators of a bus *)
Lemma in_active b l g : In (l, g) (active b) <-> In l (loads b) /\ status l = true /\ In g (regulators_of l) /\ g_status (regs g) = true.
Proof.
  unfold NewtonRaphson.active. rewrite in_flat_map. split.
  - intros (l' & H1 & H2). destruct (status l') eqn:E; [|contradiction]. apply in_map_iff in H2 as (g' & H3 & H4). injection H3 as -> ->. apply filter_In in H4 as [H4 H5]. auto.
  - intros (H1 & H2 & H3 & H4). exists l. split; [exact H1|]. rewrite H2. apply in_map. apply filter_In. auto.
Qed.
Definition fold_control (ls : list (nat * nat)) (c : control (R := R)) : control :=
  fold_left (fun c lg => mkCtl pv (g_u_ref (regs (snd lg))) false false none (oplus o (c_q_min c) (g_q_min (regs (snd lg)))) (oplus o (c_q_max c) (g_q_max (regs (snd lg))))) ls c.
Lemma fold_control_spec : forall ls c,
  c_type (fold_control ls c) = match ls with [] => c_type c | _ => pv end /\
  (ls <> [] -> exists lg, In lg ls /\ c_u_ref (fold_control ls c) = g_u_ref (regs (snd lg))) /\
  (forall m, c_q_min (fold_control ls c) = Some m -> forall lg, In lg ls -> g_q_min (regs (snd lg)) <> None) /\
  (forall m, c_q_max (fold_control ls c) = Some m -> forall lg, In lg ls -> g_q_max (regs (snd lg)) <> None) /\
  (forall m, c_q_min (fold_control ls c) = Some m -> c_q_min c <> None) /\ (forall m, c_q_max (fold_control ls c) = Some m -> c_q_max c <> None) /\
  (c_violated c = none -> c_violated (fold_control ls c) = none) /\ (c_recalc c = false -> c_recalc (fold_control ls c) = false) /\
  (c_has_limits c = false -> c_has_limits (fold_control ls c) = false).
Proof.
  induction ls as [|lg ls IH]; intros c.
  - refine (conj eq_refl (conj _ (conj _ (conj _ (conj _ (conj _ (conj _ (conj _ _)))))))).
    + intros H. contradiction.
    + intros m _ lg [].
    + intros m _ lg [].
    + cbn. intros m ->. discriminate.
    + cbn. intros m ->. discriminate.
    + auto.
    + auto.
    + auto.
  - cbn [fold_control fold_left]. set (c1 := mkCtl pv _ _ _ _ _ _). destruct (IH c1) as (H1 & H2 & H3 & H4 & H5 & H6 & H7 & H8 & H9).
    assert (Q1 : c_q_min c1 <> None -> c_q_min c <> None /\ g_q_min (regs (snd lg)) <> None).
    { unfold c1. cbn [c_q_min]. unfold oplus. destruct (c_q_min c), (g_q_min (regs (snd lg))); intros H; split; congruence. }
    assert (Q2 : c_q_max c1 <> None -> c_q_max c <> None /\ g_q_max (regs (snd lg)) <> None).
    { unfold c1. cbn [c_q_max]. unfold oplus. destruct (c_q_max c), (g_q_max (regs (snd lg))); intros H; split; congruence. }
    refine (conj _ (conj _ (conj _ (conj _ (conj _ (conj _ (conj _ (conj _ _)))))))).
    + unfold fold_control in H1. rewrite H1. destruct ls; reflexivity.
    + intros _. destruct ls as [|lg' ls].
      * exists lg. split; [left; reflexivity|reflexivity].
      * destruct H2 as (x & Hx & E); [discriminate|]. exists x. split; [right; exact Hx|exact E].
    + intros m Hm x [<-|Hx]; [apply Q1, (H5 m Hm)|exact (H3 m Hm x Hx)].
    + intros m Hm x [<-|Hx]; [apply Q2, (H6 m Hm)|exact (H4 m Hm x Hx)].
    + intros m Hm. apply Q1, (H5 m Hm).
    + intros m Hm. apply Q2, (H6 m Hm).
    + intros _. apply H7. reflexivity.
    + intros _. apply H8. reflexivity.
    + intros _. apply H9. reflexivity.
Qed.
Lemma bus_control_spec b :
  c_violated (bus_control b) = none /\ c_recalc (bus_control b) = false /\
  match sources b with
  | _ :: _ => c_type (bus_control b) = slack
  | [] => c_type (bus_control b) = match active b with [] => pq | _ => pv end
  end /\
  (c_type (bus_control b) = pv -> sources b = [] /\ (exists lg, In lg (active b) /\ c_u_ref (bus_control b) = g_u_ref (regs (snd lg))) /\
    (forall m, c_q_min (bus_control b) = Some m -> forall lg, In lg (active b) -> g_q_min (regs (snd lg)) <> None) /\
    (forall m, c_q_max (bus_control b) = Some m -> forall lg, In lg (active b) -> g_q_max (regs (snd lg)) <> None)).
Proof.
  unfold NewtonRaphson.bus_control. destruct (sources b) as [|i is].
  - destruct (fold_control_spec (active b) (start_control o)) as (H1 & H2 & H3 & H4 & H5 & H6 & H7 & H8 & H9).
    change (fold_left _ (active b) (start_control o)) with (fold_control (active b) (start_control o)). rewrite H1. destruct (active b) as [|lg ls] eqn:E.
    + cbn. refine (conj eq_refl (conj eq_refl (conj eq_refl _))). discriminate.
    + cbn [c_violated c_recalc c_type c_u_ref c_q_min c_q_max]. refine (conj eq_refl (conj eq_refl (conj eq_refl _))). intros _.
      refine (conj eq_refl (conj (H2 ltac:(discriminate)) (conj H3 H4))).
  - cbn. refine (conj eq_refl (conj eq_refl (conj eq_refl _))). discriminate.
Qed.

(** ** Limits *)
Hypothesis phases : np = 1 \/ np = 3.
Hypothesis three_nz : three <> zero.
Hypothesis above_tol : forall t, gtb (rabs t) tol = true -> t <> zero.
Lemma clamp_total m l : total (clamp m l) = m.
Proof.
  unfold NewtonRaphson.total, NewtonRaphson.clamp. destruct phases as [E|E]; rewrite E; cbn [Nat.eqb]; [reflexivity|].
  destruct (gtb _ _) eqn:G.
  - apply above_tol in G. cbn [NewtonRaphson.total Nat.eqb] in *. unfold NewtonRaphson.total in *. cbn [Nat.eqb] in *. field. exact G.
  - field. intros H. apply three_nz. transitivity (one + (one + one)); [ring|exact H].
Qed.
Lemma total_sum v : total v = nsum o (map v (seq 0 np)).
Proof. unfold NewtonRaphson.total. destruct phases as [E|E]; rewrite E; cbn; ring. Qed.
Lemma fold_clamp v : forall ls (cl : nat -> option (nat -> R)) l,
  let cl' := fold_left (fun cl lg => fun l => if l =? fst lg then clamp_at v lg else cl l) ls cl in
  (exists g, In (l, g) ls /\ cl' l = clamp_at v (l, g)) \/ ((forall g, ~ In (l, g) ls) /\ cl' l = cl l).
Proof.
  induction ls as [|[l0 g0] ls IH]; intros cl l; cbn [fold_left].
  - right. split; [intros g []|reflexivity].
  - destruct (IH (fun l => if l =? fst (l0, g0) then clamp_at v (l0, g0) else cl l) l) as [(g & H1 & H2)|[H1 H2]].
    + left. exists g. split; [right; exact H1|exact H2].
    + cbn [fst] in H2. destruct (l =? l0) eqn:E.
      * apply Nat.eqb_eq in E. subst l0. left. exists g0. split; [left; reflexivity|exact H2].
      * apply Nat.eqb_neq in E. right. split; [|exact H2]. intros g [H|H]; [injection H as H _; congruence|exact (H1 g H)].
Qed.

(** ** What holds of the control of a bus *)
Definition side_of (v : violation) : side := match v with upper => at_max | _ => at_min end.
Definition same_control (st : state) (b : nat) : Prop :=
  c_type (ctl st b) = c_type (bus_control b) /\ c_u_ref (ctl st b) = c_u_ref (bus_control b) /\ c_q_min (ctl st b) = c_q_min (bus_control b) /\
  c_q_max (ctl st b) = c_q_max (bus_control b) /\ c_violated (ctl st b) = none /\ (forall l, In l (loads b) -> clamped st l = None).
Definition at_limit (st : state) (b : nat) : Prop :=
  c_type (bus_control b) = pv /\ c_type (ctl st b) = pq /\ c_violated (ctl st b) <> none /\
  (forall l, In l (loads b) ->
    (exists g q, In (l, g) (active b) /\ clamped st l = Some q /\ limit regs (side_of (c_violated (ctl st b))) g = Some (total q)) \/
    ((forall g, ~ In (l, g) (active b)) /\ clamped st l = None)).
Hypothesis loads_disjoint : forall b b' l, b < n -> b' < n -> In l (loads b) -> In l (loads b') -> b = b'.
Lemma build_row_ext xs cl cl' u b : (forall l, In l (loads b) -> cl l = cl' l) -> build_row xs cl u b = build_row xs cl' u b.
Proof.
  intros H. unfold NewtonRaphson.build_row.
  assert (F : forall ls kd, incl ls (loads b) -> fold_left (add_load o type s cl (pb (xs b))) ls kd = fold_left (add_load o type s cl' (pb (xs b))) ls kd).
  { induction ls as [|l ls IH]; intros kd I; [reflexivity|]. cbn [fold_left]. rewrite IH by (intros i Hi; apply I; right; exact Hi). f_equal.
    unfold add_load. rewrite (H l) by (apply I; left; reflexivity). reflexivity. }
  rewrite F by (intros i Hi; exact Hi). reflexivity.
Qed.
Definition mid (xs : nat -> polar) (u : nat -> nat -> cx) (st : state) : Prop :=
  x st = xs /\
  forall b, b < n -> (same_control st b /\ c_recalc (ctl st b) = false \/ at_limit st b) /\ (c_recalc (ctl st b) = false -> rows st b = build_row xs (clamped st) u b).
Lemma enforce_bus_mid xs u st st' b : b < n -> mid xs u st -> enforce_bus st b = Some st' -> mid xs u st'.
Proof.
  intros Hb [Hx M]. unfold NewtonRaphson.enforce_bus. destruct (c_type (ctl st b)) eqn:Ty; try (intros H; injection H as <-; split; assumption).
  destruct (c_has_limits (ctl st b)); [|intros H; injection H as <-; split; assumption].
  destruct (forallb _ _); [|discriminate]. set (q := vminus o _ _).
  destruct (M b Hb) as [[[Sc Rc]|Al] _]; [|destruct Al as (_ & H & _); congruence].
  destruct Sc as (S1 & S2 & S3 & S4 & S5 & S6).
  destruct (bus_control_spec b) as (_ & _ & _ & BC). destruct BC as (Bs & Bu & Blo & Bhi); [congruence|].
  assert (Step : forall v, v <> none -> (forall lg, In lg (active b) -> exists m, limit regs (side_of v) (snd lg) = Some m) ->
    mid xs u (mkState (x st) (rows st) (fun i => if i =? b then mkCtl pq (c_u_ref (ctl st b)) true true v (c_q_min (ctl st b)) (c_q_max (ctl st b)) else ctl st i)
              (fold_left (fun cl lg => fun l => if l =? fst lg then clamp_at v lg else cl l) (active b) (clamped st)) (countdown st))).
  { intros v Hv Lim. set (cl' := fold_left _ (active b) (clamped st)). split; [exact Hx|]. cbn [ctl rows clamped]. intros b' Hb'.
    destruct (b' =? b) eqn:E.
    - apply Nat.eqb_eq in E. subst b'. split; [right|cbn [c_recalc]; discriminate].
      unfold at_limit. cbn [ctl clamped]. rewrite Nat.eqb_refl. cbn [c_type c_violated]. refine (conj _ (conj eq_refl (conj Hv _))); [congruence|].
      intros l Hl. destruct (fold_clamp v (active b) (clamped st) l) as [(g & G1 & G2)|[G1 G2]]; fold cl' in G2.
      + left. destruct (Lim (l, g) G1) as (m & Hm). cbn [snd] in Hm. exists g, (clamp m l). refine (conj G1 (conj _ _)).
        * rewrite G2. unfold NewtonRaphson.clamp_at. cbn [snd fst]. unfold limit, side_of in Hm. destruct v; [contradiction| |]; rewrite Hm; reflexivity.
        * rewrite clamp_total. exact Hm.
      + right. split; [exact G1|]. rewrite G2. apply S6. exact Hl.
    - apply Nat.eqb_neq in E.
      assert (Same : forall l, In l (loads b') -> cl' l = clamped st l).
      { intros l Hl. destruct (fold_clamp v (active b) (clamped st) l) as [(g & G1 & G2)|[G1 G2]]; fold cl' in G2; [|exact G2].
        apply in_active in G1 as (G1 & _). elim E. exact (loads_disjoint b' b l Hb' Hb Hl G1). }
      destruct (M b' Hb') as [K Rr]. split.
      + destruct K as [[(K1 & K2 & K3 & K4 & K5 & K6) K7]|(K1 & K2 & K3 & K4)].
        * left. unfold same_control. cbn [ctl clamped]. rewrite (proj2 (Nat.eqb_neq b' b) E).
          split; [|exact K7]. refine (conj K1 (conj K2 (conj K3 (conj K4 (conj K5 _))))). intros l Hl. rewrite (Same l Hl). exact (K6 l Hl).
        * right. unfold at_limit. cbn [ctl clamped]. rewrite (proj2 (Nat.eqb_neq b' b) E).
          refine (conj K1 (conj K2 (conj K3 _))). intros l Hl. rewrite (Same l Hl). exact (K4 l Hl).
      + intros Hr. rewrite (Rr Hr). apply build_row_ext. intros l Hl. symmetry. exact (Same l Hl). }
  unfold violated_limit. destruct (c_q_max (ctl st b)) as [m|] eqn:Emax.
  - destruct (gtb (total q) (m + tol)).
    + intros H. injection H as <-. apply Step; [discriminate|]. intros lg Hlg. cbn [side_of limit]. symmetry in S4.
      destruct (g_q_max (regs (snd lg))) as [x1|] eqn:Eg; [eexists; reflexivity|]. elim (Bhi m S4 lg Hlg Eg).
    + destruct (c_q_min (ctl st b)) as [m'|] eqn:Emin; [|intros H; injection H as <-; split; assumption].
      destruct (gtb (m' - tol) (total q)); [|intros H; injection H as <-; split; assumption].
      intros H. injection H as <-. apply Step; [discriminate|]. intros lg Hlg. cbn [side_of limit]. symmetry in S3.
      destruct (g_q_min (regs (snd lg))) as [x1|] eqn:Eg; [eexists; reflexivity|]. elim (Blo m' S3 lg Hlg Eg).
  - destruct (c_q_min (ctl st b)) as [m'|] eqn:Emin; [|intros H; injection H as <-; split; assumption].
    destruct (gtb (m' - tol) (total q)); [|intros H; injection H as <-; split; assumption].
    intros H. injection H as <-. apply Step; [discriminate|]. intros lg Hlg. cbn [side_of limit]. symmetry in S3.
    destruct (g_q_min (regs (snd lg))) as [x1|] eqn:Eg; [eexists; reflexivity|]. elim (Blo m' S3 lg Hlg Eg).
Qed.
Lemma enforce_mid xs u : forall bs st st', (forall b, In b bs -> b < n) -> mid xs u st -> enforce bs st = Some st' -> mid xs u st'.
Proof.
  induction bs as [|b bs IH]; intros st st' Hbs M; cbn [NewtonRaphson.enforce]; [intros H; injection H as <-; exact M|].
  destruct (enforce_bus st b) as [st1|] eqn:E; [|discriminate]. apply IH; [intros i Hi; apply Hbs; right; exact Hi|].
  apply (enforce_bus_mid xs u st st1 b); [apply Hbs; left; reflexivity|exact M|exact E].
Qed.
Lemma enforce_bus_type st st' b : enforce_bus st b = Some st' -> forall i, c_type (ctl st' i) = pv -> c_type (ctl st i) = pv.
Proof.
  unfold NewtonRaphson.enforce_bus. destruct (c_type (ctl st b)) eqn:Ty; try (intros H; injection H as <-; auto).
  destruct (c_has_limits (ctl st b)); [|intros H; injection H as <-; auto]. destruct (forallb _ _); [|discriminate].
  destruct (violated_limit _ _ _ _ _ _ _); intros H; injection H as <-; auto; intros i; cbn [ctl]; destruct (i =? b); auto; cbn [c_type]; discriminate.
Qed.
Lemma enforce_type : forall bs st st', enforce bs st = Some st' -> forall i, c_type (ctl st' i) = pv -> c_type (ctl st i) = pv.
Proof.
  induction bs as [|b bs IH]; intros st st'; cbn [NewtonRaphson.enforce]; [intros H; injection H as <-; auto|].
  destruct (enforce_bus st b) as [st1|] eqn:E; [|discriminate]. intros H i Hi. exact (enforce_bus_type st st1 b E i (IH st1 st' H i Hi)).
Qed.
(** the state between two iterations *)
Definition ready (st : state) : Prop := forall b, b < n -> (same_control st b \/ at_limit st b) /\ c_recalc (ctl st b) = false.
Lemma prepare_spec u st st1 : ready st -> prepare u st = Some st1 ->
  ready st1 /\ x st1 = x st /\
  (forall b, b < n -> rows st1 b = match c_type (ctl st1 b) with pv => pv_row o (pb (x st b)) b (build_row (x st) (clamped st1) u b) | _ => build_row (x st) (clamped st1) u b end) /\
  (forall b, b < n -> c_type (ctl st1 b) = pv -> c_type (ctl st b) = pv).
Proof.
  intros Hr. unfold NewtonRaphson.prepare.
  set (st1' := build false u st). set (st2 := mkState (x st1') (rows st1') (ctl st1') (clamped st1') (count (countdown st1'))).
  assert (M2 : mid (x st) u st2).
  { split; [reflexivity|]. intros b Hb. destruct (Hr b Hb) as [K Kr]. split.
    - destruct K as [K|K]; [left; split; [exact K|exact Kr]|right; exact K].
    - intros _. reflexivity. }
  assert (Main : forall st3, mid (x st) u st3 -> (forall b, b < n -> c_type (ctl st3 b) = pv -> c_type (ctl st b) = pv) ->
    let st4 := apply_pv_constraints o (if switched n st3 then build true u st3 else st3) in
    ready st4 /\ x st4 = x st /\
    (forall b, b < n -> rows st4 b = match c_type (ctl st4 b) with pv => pv_row o (pb (x st b)) b (build_row (x st) (clamped st4) u b) | _ => build_row (x st) (clamped st4) u b end) /\
    (forall b, b < n -> c_type (ctl st4 b) = pv -> c_type (ctl st b) = pv)).
  { intros st3 [Hx M3] Ty st4. unfold st4. destruct (switched n st3) eqn:Sw.
    - refine (conj _ (conj _ (conj _ _))).
      + intros b Hb. destruct (M3 b Hb) as [K Kr]. cbn. split; [|reflexivity].
        destruct K as [[K _]|K]; [left|right]; exact K.
      + exact Hx.
      + intros b Hb. destruct (M3 b Hb) as [K Kr]. cbn [apply_pv_constraints NewtonRaphson.build x rows ctl clamped andb]. cbn [clear_recalc c_type].
        rewrite Hx. destruct (c_recalc (ctl st3 b)) eqn:E; cbn [negb]; [reflexivity|]. rewrite (Kr eq_refl). reflexivity.
      + intros b Hb. cbn. apply Ty. exact Hb.
    - assert (Nr : forall b, b < n -> c_recalc (ctl st3 b) = false).
      { intros b Hb. destruct (c_recalc (ctl st3 b)) eqn:E; [|reflexivity]. assert (T : switched n st3 = true); [|congruence].
        apply existsb_exists. exists b. split; [apply in_seq; lia|exact E]. }
      refine (conj _ (conj _ (conj _ _))).
      + intros b Hb. destruct (M3 b Hb) as [K Kr]. split; [|exact (Nr b Hb)].
        destruct K as [[K _]|K]; [left|right]; exact K.
      + exact Hx.
      + intros b Hb. destruct (M3 b Hb) as [K Kr]. cbn [apply_pv_constraints x rows ctl clamped]. rewrite Hx, (Kr (Nr b Hb)). reflexivity.
      + intros b Hb. cbn. apply Ty. exact Hb. }
  destruct (countdown st2 =? 0)%Z.
  - destruct (enforce (seq 0 n) st2) as [st3|] eqn:E; [|discriminate]. intros H. injection H as <-.
    assert (M3 := enforce_mid (x st) u (seq 0 n) st2 st3 (fun b H => proj2 (proj1 (in_seq n 0 b) H)) M2 E). apply Main; [exact M3|].
    intros b Hb T3. exact (enforce_type _ _ _ E b T3).
  - intros H. injection H as <-. apply Main; [exact M2|]. intros b Hb T. exact T.
Qed.

(** ** The voltages of a run *)
Hypothesis circle : forall t, rcos t * rcos t + rsin t * rsin t = one.
Hypothesis polar_form : forall z : cx, (cabs z * rcos (arg z), cabs z * rsin (arg z)) = z.
Hypothesis above_zero : forall t, gtb t zero = true -> t <> zero.
Local Notation start_u := (NewtonRaphson.start_u o cabs gtb sources loads status regulators_of regs).
Local Notation phase_shift := (NewtonRaphson.phase_shift o cabs gtb).
Local Notation phasors := (NewtonRaphson.phasors o rcos rsin).
Local Notation moved := (NewtonRaphson.moved o).
Local Notation reached := (NewtonRaphson.reached o cabs arg rcos rsin gtb rabs tol np n ybus sources loads source_y source_u type s status regulators_of regs).
Local Notation solution := (NewtonRaphson.solution o np n).
Lemma norm_polar v t : norm2 o (v * rcos t, v * rsin t) = v * v.
Proof. unfold norm2. cbn [re im fst snd]. transitivity (v * v * (rcos t * rcos t + rsin t * rsin t)); [ring|]. rewrite circle. ring. Qed.
Lemma abs_norm z : cabs z * cabs z = norm2 o z.
Proof. rewrite <- (norm_polar (cabs z) (arg z)), polar_form. reflexivity. Qed.
Lemma phase_norm z : norm2 o (phase_shift z) = one.
Proof.
  unfold NewtonRaphson.phase_shift. destruct (gtb (cabs z) zero) eqn:E.
  - apply above_zero in E. unfold norm2. cbn [re im fst snd]. transitivity (norm2 o z / (cabs z * cabs z)).
    + unfold norm2. field. exact E.
    + rewrite <- abs_norm. field. exact E.
  - unfold norm2. cbn [re im fst snd]. ring.
Qed.
Lemma sum_at (f : nat -> R) i : forall l, NoDup l -> In i l -> (forall j, In j l -> j <> i -> f j = zero) -> nsum o (map f l) = f i.
Proof.
  induction l as [|j l IH]; intros Nd Hi H; [contradiction|]. inversion Nd as [|? ? N1 N2]; subst. unfold nsum. cbn [map fold_right]. fold (nsum o (map f l)).
  destruct (Nat.eq_dec j i) as [->|E].
  - rewrite (nsum_zero o L); [ring|]. intros k Hk. apply H; [right; exact Hk|]. intros ->. contradiction.
  - rewrite IH; [rewrite (H j) by (try (left; reflexivity); assumption); ring|exact N2|destruct Hi as [Hi|Hi]; [contradiction|exact Hi]|intros k Hk; apply H; right; exact Hk].
Qed.
(** a voltage controlled bus keeps its magnitude *)
Lemma pv_solution st1 d xs u cl b p : solution (rows st1) d -> b < n -> p < np -> rows st1 b = pv_row o (pb (xs b)) b (build_row xs cl u b) ->
  pb (xs b) p * pb (d b) p = zero.
Proof.
  intros H Hb Hp E. destruct (H b p Hb Hp) as [_ H2]. rewrite E in H2. cbn [pv_row r_jac r_del bm bl pb v0] in H2. unfold v0 in H2. rewrite <- H2. symmetry.
  rewrite (sum_at _ b); [|apply seq_NoDup|apply in_seq; lia|].
  - rewrite (sum_at _ p); [|apply seq_NoDup|apply in_seq; lia|].
    + rewrite !Nat.eqb_refl. ring.
    + intros q _ Hq. rewrite Nat.eqb_refl. rewrite (proj2 (Nat.eqb_neq p q)) by congruence. ring.
  - intros j _ Hj. apply (nsum_zero o L). intros q _. rewrite (proj2 (Nat.eqb_neq b j)) by congruence. ring.
Qed.
Lemma reached_inv st u : reached st u ->
  ready st /\ (forall b p, u b p = phasors (x st) b p) /\
  (forall b p, b < n -> p < np -> c_type (ctl st b) = pv -> pb (x st b) p * pb (x st b) p = norm2 o (c_u_ref (bus_control b))).
Proof.
  induction 1 as [d Hd|st u st1 d c' Hre IH Hp Hd Hc].
  - refine (conj _ (conj _ _)).
    + intros b Hb. destruct (bus_control_spec b) as (H1 & H2 & _ & _). cbn [start_state ctl]. split; [|exact H2]. left.
      refine (conj eq_refl (conj eq_refl (conj eq_refl (conj eq_refl (conj H1 _))))). reflexivity.
    + intros b p. cbn [start_state x]. unfold NewtonRaphson.phasors. cbn [pa pb]. rewrite polar_form. reflexivity.
    + intros b p Hb Hp. cbn [start_state ctl x pb]. intros T. rewrite abs_norm. unfold NewtonRaphson.start_u. rewrite T.
      rewrite (norm2_mul o L). rewrite phase_norm. ring.
  - destruct IH as (I1 & I2 & I3). destruct (prepare_spec u st st1 I1 Hp) as (P1 & P2 & P3 & P4). refine (conj _ (conj _ _)).
    + intros b Hb. destruct (P1 b Hb) as [K Kr]. split; [|exact Kr]. destruct K as [K|K]; [left|right]; exact K.
    + intros b p. reflexivity.
    + intros b p Hb Hpp T. cbn [move ctl x] in *. unfold NewtonRaphson.moved. cbn [pb]. unfold vplus, vtimes.
      assert (R1 := P3 b Hb). rewrite T in R1.
      rewrite P2. rewrite (pv_solution st1 d (x st) u (clamped st1) b p Hd Hb Hpp R1). rewrite <- (I3 b p Hb Hpp (P4 b Hb T)). ring.
Qed.
End Run.
