(** The matrix of an iteration is the derivative of the imbalance: the algebraic part. *)
From Coq Require Import Field.
From Verif Require Import Common Numbers NumbersPair ShortCircuit PowerFlow PowerFlowSpec PowerFlowFacts NewtonRaphson NewtonSpec NewtonFacts.

Section Jacobian.
Context {R : Type} (o : num_ops R).
Hypothesis L : num_laws o.
Add Field NumFieldNj : (nl_field o L).
Local Notation "a + b" := (n_add o a b) : num_scope. Local Notation "a * b" := (n_mul o a b) : num_scope. Local Notation "a - b" := (n_sub o a b) : num_scope.
Local Notation "- a" := (n_opp o a) : num_scope.
Local Notation zero := (n_zero o). Local Notation one := (n_one o). Local Notation two := (n_add o one one).
Local Open Scope num_scope.
Local Notation cxo := (pair_num o). Local Notation conj := (cconj o).
Local Notation cmul := (NumbersPair.cmul o). Local Notation cadd := (NumbersPair.cadd o). Local Notation csub := (NumbersPair.csub o). Local Notation copp := (NumbersPair.copp o).
Local Notation block := (NewtonRaphson.block (R := R)). Local Notation polar := (NewtonRaphson.polar (R := R)).
Variables (np n : nat).
Local Notation dot := (ShortCircuit.dot cxo np).

(** what a block makes of a pair of vectors *)
Definition blk (k : block) (v : nat -> R * R) (p : nat) : R * R :=
  (nsum o (map (fun q => bh k p q * fst (v q) + bn k p q * snd (v q)) (seq 0 np)),
   nsum o (map (fun q => bm k p q * fst (v q) + bl k p q * snd (v q)) (seq 0 np))).
Lemma blk_add k k' v p : blk (block_add o k k') v p = cadd (blk k v p) (blk k' v p).
Proof.
  unfold blk, NumbersPair.cadd, re, im. cbn [fst snd bh bn bm bl block_add]. rewrite <- !(nsum_add o L). f_equal; apply nsum_ext; intros q _; unfold tplus; ring.
Qed.
Lemma diag_sum (t t' : nat -> nat -> R) (z z' : nat -> R) (v : nat -> R * R) p : p < np ->
  nsum o (map (fun q => add_diag o t z p q * fst (v q) + add_diag o t' z' p q * snd (v q)) (seq 0 np)) =
  nsum o (map (fun q => t p q * fst (v q) + t' p q * snd (v q)) (seq 0 np)) + (z p * fst (v p) + z' p * snd (v p)).
Proof.
  intros Hp. rewrite (nsum_ext o _ (fun q => (t p q * fst (v q) + t' p q * snd (v q)) + (if p =? q then z p * fst (v p) + z' p * snd (v p) else zero))).
  - rewrite (nsum_add o L). f_equal. rewrite (sum_at o L _ p); [rewrite Nat.eqb_refl; reflexivity|apply seq_NoDup|apply in_seq; lia|].
    intros j _ Hj. destruct (p =? j) eqn:E; [apply Nat.eqb_eq in E; congruence|reflexivity].
  - intros q _. unfold add_diag. destruct (p =? q) eqn:E; [apply Nat.eqb_eq in E; subst q|]; ring.
Qed.
Lemma blk_diag k z1 z2 z3 z4 v p : p < np ->
  blk (mkBlock (add_diag o (bh k) z1) (add_diag o (bn k) z2) (add_diag o (bm k) z3) (add_diag o (bl k) z4)) v p =
  cadd (blk k v p) (z1 p * fst (v p) + z2 p * snd (v p), z3 p * fst (v p) + z4 p * snd (v p)).
Proof. intros Hp. unfold blk. cbn [bh bn bm bl]. rewrite !diag_sum by exact Hp. reflexivity. Qed.
Lemma blk_diag_right k z2 z4 v p : p < np ->
  blk (mkBlock (bh k) (add_diag o (bn k) z2) (bm k) (add_diag o (bl k) z4)) v p = cadd (blk k v p) (z2 p * snd (v p), z4 p * snd (v p)).
Proof.
  intros Hp. assert (E : forall t t' z', nsum o (map (fun q => t p q * fst (v q) + add_diag o t' z' p q * snd (v q)) (seq 0 np)) =
    nsum o (map (fun q => t p q * fst (v q) + t' p q * snd (v q)) (seq 0 np)) + z' p * snd (v p)).
  { intros t t' z'. transitivity (nsum o (map (fun q => t p q * fst (v q) + t' p q * snd (v q)) (seq 0 np)) + (zero * fst (v p) + z' p * snd (v p))); [|ring].
    rewrite <- (diag_sum t t' (fun _ => zero) z' v p Hp). apply nsum_ext. intros q _. unfold add_diag. destruct (p =? q); ring. }
  unfold blk. cbn [bh bn bm bl]. rewrite !E. reflexivity.
Qed.
(** The change of the voltages for the correction [v], angle and relative magnitude: u (dv + i dtheta). *)
Definition change (u v : nat -> R * R) (q : nat) : R * R := cmul (u q) (snd (v q), fst (v q)).
Lemma blk_hnml y ui uj v p : blk (calculate_hnml o y ui uj) v p = cmul (ui p) (conj (dot y (change uj v) p)).
Proof.
  assert (E : cmul (ui p) (conj (dot y (change uj v) p)) = nsum cxo (map (fun q => cmul (ui p) (conj (cmul (y p q) (change uj v q)))) (seq 0 np))).
  { unfold ShortCircuit.dot. rewrite (conj_sum o L), (mul_sum o L). reflexivity. }
  rewrite E. unfold blk. apply pair_eq; [rewrite (re_sum o)|rewrite (im_sum o)]; cbn [re im fst snd]; apply nsum_ext; intros q _; unfold change; cbn; unfold re, im; cbn; ring.
Qed.
Lemma sum_cons' (z : R * R) l : nsum cxo (z :: l) = cadd z (nsum cxo l). Proof. reflexivity. Qed.
Lemma pair_swap (x e y : R * R) : cadd (cadd x e) y = cadd (cadd x y) e. Proof. apply pair_eq; cbn; ring. Qed.
Lemma pair_assoc (x y e : R * R) : cadd x (cadd y e) = cadd (cadd x y) e. Proof. apply pair_eq; cbn; ring. Qed.
Lemma conj_add' z w : conj (cadd z w) = cadd (conj z) (conj w). Proof. apply pair_eq; cbn; ring. Qed.

Variables (ybus : nat -> nat -> nat -> nat -> R * R).
Variables (sources loads : nat -> list nat) (source_y : nat -> nat -> nat -> R * R) (source_u : nat -> nat -> R * R).
Variables (type : nat -> load_type) (s : nat -> nat -> R * R).
Local Notation network := (network_current cxo np n ybus).
Local Notation source_at := (NewtonFacts.source_at o np source_y source_u).
Local Notation load_at := (NewtonFacts.load_at o type s).
Local Notation nrow := (network_row o np n ybus).
Local Notation changes u v := (fun j => change (u j) (v j)).

Lemma network_jac_entry u b j : j < n ->
  r_jac (nrow u b) j =
    let k := calculate_hnml o (ybus b j) (u b) (u j) in
    if j =? b then mkBlock (add_diag o (bh k) (pb (r_del (nrow u b)))) (add_diag o (bn k) (vneg o (pa (r_del (nrow u b))))) (add_diag o (bm k) (vneg o (pa (r_del (nrow u b)))))
      (add_diag o (bl k) (vneg o (pb (r_del (nrow u b))))) else k.
Proof.
  intros Hj. unfold network_row. cbn [r_jac r_del]. set (f := fun (r : row) (j : nat) => _).
  assert (F : forall l r i, r_jac (fold_left f l r) i = if existsb (Nat.eqb i) l then calculate_hnml o (ybus b i) (u b) (u i) else r_jac r i).
  { induction l as [|c l IH]; intros r i; [reflexivity|]. cbn [fold_left existsb]. rewrite IH. unfold f. cbn [r_jac]. unfold set_entry.
    destruct (existsb (Nat.eqb i) l); [rewrite orb_true_r; reflexivity|]. destruct (i =? c) eqn:E; [apply Nat.eqb_eq in E; subst c|]; reflexivity. }
  assert (T : forall i, i < n -> existsb (Nat.eqb i) (seq 0 n) = true) by (intros i Hi; apply existsb_exists; exists i; split; [apply in_seq; lia|apply Nat.eqb_refl]).
  unfold set_entry. destruct (j =? b) eqn:E.
  - apply Nat.eqb_eq in E. subst j. rewrite !F, !T by assumption. reflexivity.
  - rewrite F, T by exact Hj. reflexivity.
Qed.
Lemma diag_power (A v : R * R) : cadd A (- im A * fst v + re A * snd v, re A * fst v + im A * snd v) = cadd A (cmul A (snd v, fst v)).
Proof. destruct A, v. apply pair_eq; cbn; ring. Qed.
Lemma sum_replace (f g : nat -> R * R) b e l : NoDup l -> In b l -> (forall j, In j l -> j <> b -> f j = g j) -> f b = cadd (g b) e ->
  nsum cxo (map f l) = cadd (nsum cxo (map g l)) e.
Proof.
  induction l as [|j l IH]; intros N I H E; [contradiction|]. inversion N as [|? ? N1 N2]; subst. cbn [map]. rewrite !sum_cons'.
  destruct (Nat.eq_dec j b) as [->|Ne].
  - rewrite E. rewrite (nsum_ext cxo f g) by (intros j Hj; apply H; [right; exact Hj|intros ->; contradiction]). apply pair_swap.
  - rewrite (H j) by (try (left; reflexivity); exact Ne). destruct I as [I|I]; [contradiction|]. rewrite (IH N2 I) by (try exact E; intros k Hk; apply H; right; exact Hk).
    apply pair_assoc.
Qed.
(** the row of the network is the derivative of the power that the network takes *)
Lemma network_jac u v b p : b < n -> p < np ->
  nsum cxo (map (fun j => blk (r_jac (nrow u b) j) (v j) p) (seq 0 n)) =
  cadd (cmul (u b p) (conj (network (changes u v) b p))) (cmul (change (u b) (v b) p) (conj (network u b p))).
Proof.
  intros Hb Hp. destruct (network_del o L np n ybus u b p) as [D1 D2].
  rewrite (sum_replace _ (fun j => cmul (u b p) (conj (dot (ybus b j) (change (u j) (v j)) p))) b (cmul (change (u b) (v b) p) (conj (network u b p)))).
  - f_equal. unfold network_current. rewrite (conj_sum o L), (mul_sum o L). reflexivity.
  - apply seq_NoDup.
  - apply in_seq; lia.
  - intros j Hj Ne. apply in_seq in Hj. rewrite network_jac_entry by lia. rewrite (proj2 (Nat.eqb_neq j b) Ne). cbn zeta. apply blk_hnml.
  - rewrite network_jac_entry by exact Hb. rewrite Nat.eqb_refl. cbn zeta. rewrite blk_diag by exact Hp. rewrite blk_hnml. unfold vneg. rewrite D1, D2. f_equal.
    unfold change. generalize (u b p) (conj (network u b p)) (v b p). intros [] [] []. apply pair_eq; cbn; ring.
Qed.
(** the derivative of the power of a load *)
Definition load_change (clamped : nat -> option (nat -> R)) (V : nat -> R) (v : nat -> R * R) (l p : nat) : R * R :=
  match clamped l with
  | Some _ => (zero, zero)
  | None => match type l with
            | const_pq => (zero, zero)
            | const_y => (two * (re (s l p) * V p * V p) * snd (v p), two * (im (s l p) * V p * V p) * snd (v p))
            | const_i => (re (s l p) * V p * snd (v p), im (s l p) * V p * snd (v p))
            end
  end.
Lemma load_jac clamped V v p : p < np -> forall ls kd,
  blk (fst (fold_left (add_load o type s clamped V) ls kd)) v p = csub (blk (fst kd) v p) (nsum cxo (map (fun l => load_change clamped V v l p) ls)).
Proof.
  intros Hp. induction ls as [|l ls IH]; intros [k d]; cbn [fold_left map].
  - cbn [fst]. generalize (blk k v p). intros []. apply pair_eq; cbn; ring.
  - rewrite IH, sum_cons'. generalize (nsum cxo (map (fun l => load_change clamped V v l p) ls)). intros z. unfold add_load, load_change. cbn [fst].
    destruct (clamped l); [|destruct (type l)]; cbn [fst]; rewrite ?blk_diag_right by exact Hp; generalize (blk k v p); destruct z; intros []; apply pair_eq; cbn; unfold re, im; ring.
Qed.
(** the derivative of the power of a source *)
Definition source_change (u v : nat -> R * R) (i p : nat) : R * R :=
  csub (cmul (change u v p) (conj (source_at u i p))) (cmul (u p) (conj (dot (source_y i) (change u v) p))).
Lemma source_jac u v p : p < np -> forall ls kd,
  blk (fst (fold_left (add_source o np source_y source_u u) ls kd)) v p = csub (blk (fst kd) v p) (nsum cxo (map (fun i => source_change u v i p) ls)).
Proof.
  intros Hp. induction ls as [|i ls IH]; intros [k d]; cbn [fold_left map].
  - cbn [fst]. generalize (blk k v p). intros []. apply pair_eq; cbn; ring.
  - rewrite IH, sum_cons'. generalize (nsum cxo (map (fun i => source_change u v i p) ls)). intros z. unfold add_source. cbn [fst].
    rewrite blk_add, blk_diag, blk_hnml by exact Hp. unfold vneg. rewrite !(sum_row_add o L).
    destruct (hnml_row o L np (source_y i) u u p) as [M1 M2]. destruct (hnml_row o L np (fun p q => copp (source_y i p q)) u (source_u i) p) as [S1 S2].
    rewrite M1, M2, S1, S2, (dot_opp o L). unfold source_change, NewtonFacts.source_at. unfold change at 2.
    generalize (blk k v p) (dot (source_y i) (change u v) p) (dot (source_y i) u p) (dot (source_y i) (source_u i) p) (u p) (v p). destruct z.
    intros [] [] [] [] [] []. apply pair_eq; cbn; ring.
Qed.
(** the derivative of the imbalance *)
Definition imbalance_change (clamped : nat -> option (nat -> R)) (V : nat -> R) (u v : nat -> nat -> R * R) (b p : nat) : R * R :=
  csub (cadd (nsum cxo (map (fun l => load_change clamped V (v b) l p) (loads b))) (nsum cxo (map (fun i => source_change (u b) (v b) i p) (sources b))))
    (cadd (cmul (u b p) (conj (network (changes u v) b p))) (cmul (change (u b) (v b) p) (conj (network u b p)))).
Lemma build_jac xs clamped u v b p : b < n -> p < np ->
  nsum cxo (map (fun j => blk (r_jac (build_row o np n ybus sources loads source_y source_u type s xs clamped u b) j) (v j) p) (seq 0 n)) =
  copp (imbalance_change clamped (pb (xs b)) u v b p).
Proof.
  intros Hb Hp. unfold build_row.
  pose proof (source_jac (u b) (v b) p Hp (sources b) (fold_left (add_load o type s clamped (pb (xs b))) (loads b) (r_jac (nrow u b) b, r_del (nrow u b)))) as H.
  rewrite (load_jac clamped (pb (xs b)) (v b) p Hp) in H. cbn [fst] in H.
  destruct (fold_left (add_source o np source_y source_u (u b)) (sources b) _) as [k d]. cbn [fst] in H. cbn [r_jac].
  rewrite (sum_replace _ (fun j => blk (r_jac (nrow u b) j) (v j) p) b
    (copp (cadd (nsum cxo (map (fun l => load_change clamped (pb (xs b)) (v b) l p) (loads b))) (nsum cxo (map (fun i => source_change (u b) (v b) i p) (sources b)))))).
  - rewrite network_jac by assumption. unfold imbalance_change. generalize (nsum cxo (map (fun i => source_change (u b) (v b) i p) (sources b))).
    generalize (nsum cxo (map (fun l => load_change clamped (pb (xs b)) (v b) l p) (loads b))) (cmul (u b p) (conj (network (changes u v) b p))) (cmul (change (u b) (v b) p) (conj (network u b p))).
    intros [] [] [] []. apply pair_eq; cbn; ring.
  - apply seq_NoDup.
  - apply in_seq; lia.
  - intros j _ Ne. unfold set_entry. rewrite (proj2 (Nat.eqb_neq j b) Ne). reflexivity.
  - unfold set_entry. rewrite Nat.eqb_refl, H. clear H. generalize (nsum cxo (map (fun i => source_change (u b) (v b) i p) (sources b))).
    generalize (nsum cxo (map (fun l => load_change clamped (pb (xs b)) (v b) l p) (loads b))) (blk (r_jac (nrow u b) b) (v b) p).
    intros [] [] []. apply pair_eq; cbn; ring.
Qed.
(** a solution of the equations of a row, as the equation of its complex imbalance *)
Lemma row_equation (rs : nat -> row) (d : nat -> polar) b p : solution o np n rs d -> b < n -> p < np ->
  nsum cxo (map (fun j => blk (r_jac (rs b) j) (fun q => (pa (d j) q, pb (d j) q)) p) (seq 0 n)) = (pa (r_del (rs b)) p, pb (r_del (rs b)) p).
Proof.
  intros H Hb Hp. destruct (H b p Hb Hp) as [H1 H2]. apply pair_eq; [rewrite (re_sum o)|rewrite (im_sum o)]; [exact H1|exact H2].
Qed.
End Jacobian.
