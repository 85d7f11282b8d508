(** Proofs about the power flow. *)
From Coq Require Import Field.
From Verif Require Import Common Numbers ShortCircuit ShortCircuitFacts PowerFlow PowerFlowSpec.

Section Facts.
Context {C : Type} (o : num_ops C) (cj cabs : C -> C) (a : C) (P : pf_laws o cj cabs a).
Local Notation L := (pf_num o cj cabs a P).
Add Field NumFieldPf : (nl_field o (pf_num o cj cabs a P)).
Local Notation "a + b" := (n_add o a b) : num_scope. Local Notation "a * b" := (n_mul o a b) : num_scope. Local Notation "a - b" := (n_sub o a b) : num_scope.
Local Notation "a / b" := (n_div o a b) : num_scope. Local Notation "- a" := (n_opp o a) : num_scope.
Local Notation zero := (n_zero o). Local Notation one := (n_one o). Local Notation three := (n_add o (n_add o one one) one).
Local Open Scope num_scope.

(** ** Numbers *)
Lemma eq_sub x y : x - y = zero -> x = y. Proof. intros H. replace x with (x - y + y) by ring. rewrite H. ring. Qed.
Lemma conj_zero : cj zero = zero.
Proof. apply eq_sub. assert (H : cj zero = cj zero + cj zero) by (rewrite <- (pf_conj_add _ _ _ _ P); f_equal; ring). replace (cj zero - zero) with (cj zero + cj zero - cj zero) by ring. rewrite <- H. ring. Qed.
Lemma conj_nz x : x <> zero -> cj x <> zero.
Proof. intros H E. apply H. rewrite <- (pf_conj_conj _ _ _ _ P x), E. apply conj_zero. Qed.
Lemma conj_one : cj one = one.
Proof. assert (H : cj one = cj one * cj one) by (rewrite <- (pf_conj_mul _ _ _ _ P); f_equal; ring).
  assert (N : cj one <> zero) by (apply conj_nz; exact (F_1_neq_0 (nl_field o L))). replace (cj one) with (cj one * cj one / cj one) at 1 by (field; exact N). rewrite <- H. field. exact N. Qed.
Lemma conj_div x y : y <> zero -> cj (x / y) = cj x / cj y.
Proof. intros H. assert (E : cj x = cj (x / y) * cj y) by (rewrite <- (pf_conj_mul _ _ _ _ P); f_equal; field; exact H). rewrite E. field. apply conj_nz. exact H. Qed.
Lemma conj_opp x : cj (- x) = - cj x.
Proof. apply eq_sub. replace (cj (- x) - - cj x) with (cj (- x) + cj x) by ring. rewrite <- (pf_conj_add _ _ _ _ P). replace (- x + x) with zero by ring. apply conj_zero. Qed.
Lemma a_cube : a * a * a = one.
Proof. apply eq_sub. replace (a * a * a - one) with ((a - one) * (one + a + a * a)) by ring. rewrite (pf_root _ _ _ _ P). ring. Qed.
Lemma a_square : a * a = - one - a.
Proof. apply eq_sub. replace (a * a - (- one - a)) with (one + a + a * a) by ring. apply (pf_root _ _ _ _ P). Qed.

(** ** The prepared equations *)
Variable np : nat.
Variable n : nat.
Variable ybus : nat -> nat -> tensor (C := C).
Variables (sources_per_bus loads_per_bus : nat -> list nat).
Variables (y1 y0 u_source : nat -> C).
Variable s_injection : nat -> vec (C := C).
Local Notation dot := (dot o np).
Local Notation source_y := (source_y o np y1 y0).
Local Notation source_u := (source_u o a u_source).
Local Notation network_current := (network_current o np n ybus).

Lemma nsum_change (f g : nat -> C) b : forall l, NoDup l -> In b l -> (forall j, j <> b -> f j = g j) -> nsum o (map f l) = nsum o (map g l) + (f b - g b).
Proof.
  unfold nsum. induction l as [|j l IH]; intros N I H; [destruct I|]. inversion_clear N as [|? ? Nj Nl]. cbn [map fold_right]. destruct (Nat.eq_dec j b) as [->|Ne].
  - replace (map f l) with (map g l); [ring|]. apply map_ext_in. intros k Hk. symmetry. apply H. intros ->. contradiction.
  - destruct I as [I|I]; [congruence|]. rewrite (IH Nl I H), (H j Ne). ring.
Qed.
(** left minus right hand side of the equation of bus [b] and phase [p] *)
Definition residual (e : equations (C := C)) (x : nat -> vec (C := C)) (b p : nat) : C :=
  nsum o (map (fun j => dot (e_mat e b j) (x j) p) (seq 0 n)) - e_rhs e b p.
Lemma residual_block e x b t r p : b < n ->
  residual (mkEq (set_block (e_mat e) b b t) r (e_bolted e)) x b p = residual e x b p + (dot t (x b) p - dot (e_mat e b b) (x b) p) - (r b p - e_rhs e b p).
Proof.
  intros Hb. unfold residual. cbn [e_mat e_rhs].
  rewrite (nsum_change (fun j => dot (set_block (e_mat e) b b t b j) (x j) p) (fun j => dot (e_mat e b j) (x j) p) b); [|apply seq_NoDup|apply in_seq; lia|intros j Hj; now rewrite set_block_off].
  rewrite set_block_at. ring.
Qed.
Lemma residual_other e x b b' t r p : b' <> b -> r b' = e_rhs e b' -> residual (mkEq (set_block (e_mat e) b b t) r (e_bolted e)) x b' p = residual e x b' p.
Proof.
  intros Hb Hr. unfold residual. cbn [e_mat e_rhs]. rewrite Hr. f_equal. apply nsum_ext. intros j _. now rewrite set_block_row.
Qed.
Lemma sources_residual x b p : b < n -> forall e, residual (add_sources o np sources_per_bus source_y source_u b e) x b p =
  residual e x b p + nsum o (map (fun s => dot (source_y s) (x b) p - dot (source_y s) (source_u s) p) (sources_per_bus b)).
Proof.
  intros Hb. unfold add_sources. generalize (sources_per_bus b) as l. induction l as [|s l IH]; intros e; cbn [fold_left map]; [unfold nsum; cbn; ring|].
  rewrite IH, residual_block by exact Hb. rewrite set_rhs_at. unfold ShortCircuitFacts.same_on. rewrite (dot_add o L). unfold vadd, nsum. cbn [fold_right]. ring.
Qed.
Lemma sources_other x b b' p : b' <> b -> forall e, residual (add_sources o np sources_per_bus source_y source_u b e) x b' p = residual e x b' p.
Proof.
  intros Hb. unfold add_sources. generalize (sources_per_bus b) as l. induction l as [|s l IH]; intros e; cbn [fold_left]; [reflexivity|].
  rewrite IH. apply residual_other; [exact Hb|]. now apply set_rhs_off.
Qed.
Local Notation add_linear_loads := (add_linear_loads o cj loads_per_bus s_injection).
Lemma dot_add_diag t d v p : p < np -> dot (fun p q => if p =? q then t p q + d p else t p q) v p = dot t v p + d p * v p.
Proof.
  intros Hp. unfold ShortCircuit.dot. rewrite (nsum_change _ (fun q => t p q * v q) p); [|apply seq_NoDup|apply in_seq; lia|].
  - rewrite Nat.eqb_refl. ring.
  - intros q Hq. replace (p =? q) with false by (symmetry; apply Nat.eqb_neq; auto). reflexivity.
Qed.
Lemma loads_residual x b p : b < n -> p < np -> forall e, residual (add_linear_loads b e) x b p = residual e x b p - nsum o (map (fun l => cj (s_injection l p) * x b p) (loads_per_bus b)).
Proof.
  intros Hb Hp. unfold PowerFlow.add_linear_loads. generalize (loads_per_bus b) as l. induction l as [|s l IH]; intros e; cbn [fold_left map]; [unfold nsum; cbn; ring|].
  rewrite IH, residual_block by exact Hb. rewrite (dot_add_diag (e_mat e b b) (fun p => - cj (s_injection s p)) (x b) p Hp). unfold nsum. cbn [fold_right]. ring.
Qed.
Lemma loads_other x b b' p : b' <> b -> forall e, residual (add_linear_loads b e) x b' p = residual e x b' p.
Proof.
  intros Hb. unfold PowerFlow.add_linear_loads. generalize (loads_per_bus b) as l. induction l as [|s l IH]; intros e; cbn [fold_left]; [reflexivity|].
  rewrite IH. apply residual_other; [exact Hb|reflexivity].
Qed.
Local Notation inject x b p := (nsum o (map (fun s => dot (source_y s) (source_u s) p - dot (source_y s) (x b) p) (sources_per_bus b))).
Lemma neg_sum {A} (f g : A -> C) l : nsum o (map (fun s => f s - g s) l) = zero - nsum o (map (fun s => g s - f s) l).
Proof. unfold nsum. induction l as [|s l IH]; cbn [map fold_right]; [ring|]. rewrite IH. ring. Qed.
Lemma prepare_residual x b p : b < n -> p < np ->
  residual (prepare_linear o cj a np n ybus sources_per_bus loads_per_bus y1 y0 u_source s_injection) x b p =
  network_current x b p - nsum o (map (fun l => cj (s_injection l p) * x b p) (loads_per_bus b)) - inject x b p.
Proof.
  intros Hb Hp. unfold prepare_linear.
  assert (G : forall l e, NoDup l -> residual (fold_left (fun e b => add_sources o np sources_per_bus source_y source_u b (add_linear_loads b e)) l e) x b p =
    residual e x b p - (if existsb (Nat.eqb b) l then nsum o (map (fun l => cj (s_injection l p) * x b p) (loads_per_bus b)) + inject x b p else zero)).
  { induction l as [|c l IH]; intros e N; cbn [fold_left existsb]; [ring|]. inversion_clear N as [|? ? Nc Nl]. rewrite (IH _ Nl). destruct (b =? c) eqn:E; cbn [orb].
    - apply Nat.eqb_eq in E. subst c. replace (existsb (Nat.eqb b) l) with false.
      + rewrite sources_residual, loads_residual by assumption. rewrite neg_sum. ring.
      + symmetry. apply not_true_is_false. intros H. apply existsb_exists in H. destruct H as (k & Hk & Ek). apply Nat.eqb_eq in Ek. subst k. contradiction.
    - apply Nat.eqb_neq in E. rewrite sources_other, loads_other by exact E. reflexivity. }
  rewrite G by apply seq_NoDup. replace (existsb (Nat.eqb b) (seq 0 n)) with true by (symmetry; apply existsb_exists; exists b; split; [apply in_seq; lia|apply Nat.eqb_refl]).
  unfold residual. cbn [e_mat e_rhs]. unfold PowerFlow.network_current, vzero. ring.
Qed.

(** ** Iterative current *)
Variable load_gen_type : nat -> load_type.
Local Notation load_current := (load_current o cj cabs s_injection).
Lemma iterative_matrix_row x b p : b < n -> p < np ->
  nsum o (map (fun j => dot (iterative_matrix o np n ybus sources_per_bus y1 y0 b j) (x j) p) (seq 0 n)) =
  network_current x b p + nsum o (map (fun s => dot (source_y s) (x b) p) (sources_per_bus b)).
Proof.
  intros Hb Hp. unfold iterative_matrix. set (row m := nsum o (map (fun j => dot (m b j) (x j) p) (seq 0 n))).
  set (one_bus := fun m c => fold_left (fun m s => set_block m c c (tadd o (m c c) (source_y s))) (sources_per_bus c) m).
  assert (G1 : forall l m, row (fold_left (fun m s => set_block m b b (tadd o (m b b) (source_y s))) l m) = row m + nsum o (map (fun s => dot (source_y s) (x b) p) l)).
  { induction l as [|s l IH]; intros m; cbn [fold_left map]; [unfold nsum; cbn; ring|]. rewrite IH. unfold row at 1.
    rewrite (nsum_change _ (fun j => dot (m b j) (x j) p) b); [|apply seq_NoDup|apply in_seq; lia|intros j Hj; now rewrite set_block_off]. rewrite set_block_at, (dot_add o L). unfold row, nsum. cbn [fold_right]. ring. }
  assert (G2 : forall c l m, c <> b -> row (fold_left (fun m s => set_block m c c (tadd o (m c c) (source_y s))) l m) = row m).
  { intros c l. induction l as [|s l IH]; intros m Hc; cbn [fold_left]; [reflexivity|]. rewrite IH by exact Hc. unfold row. apply nsum_ext. intros j _. now rewrite set_block_row by auto. }
  assert (G : forall l m, NoDup l -> row (fold_left one_bus l m) = row m + (if existsb (Nat.eqb b) l then nsum o (map (fun s => dot (source_y s) (x b) p) (sources_per_bus b)) else zero)).
  { induction l as [|c l IH]; intros m N; cbn [fold_left existsb]; [ring|]. inversion_clear N as [|? ? Nc Nl]. rewrite (IH _ Nl). destruct (b =? c) eqn:E; cbn [orb].
    - apply Nat.eqb_eq in E. subst c. replace (existsb (Nat.eqb b) l) with false; [unfold one_bus; rewrite G1; ring|].
      symmetry. apply not_true_is_false. intros H. apply existsb_exists in H. destruct H as (k & Hk & Ek). apply Nat.eqb_eq in Ek. subst k. contradiction.
    - apply Nat.eqb_neq in E. unfold one_bus. rewrite G2 by auto. reflexivity. }
  fold (row (fold_left one_bus (seq 0 n) ybus)). rewrite G by apply seq_NoDup.
  replace (existsb (Nat.eqb b) (seq 0 n)) with true by (symmetry; apply existsb_exists; exists b; split; [apply in_seq; lia|apply Nat.eqb_refl]). reflexivity.
Qed.
Lemma iteration_balance u u' b p : iteration o cj cabs a np n ybus sources_per_bus loads_per_bus y1 y0 u_source s_injection load_gen_type u u' -> b < n -> p < np ->
  network_current u' b p = inject u' b p + nsum o (map (fun l => load_current (load_gen_type l) l (u b) p) (loads_per_bus b)).
Proof.
  intros H Hb Hp. specialize (H b p Hb Hp). cbn [e_mat e_rhs] in H. rewrite iterative_matrix_row in H by assumption. unfold iterative_rhs in H.
  rewrite !(fold_vadd o L) in H. unfold vzero in H. rewrite (nsum_sub o L). apply eq_sub. transitivity (network_current u' b p + nsum o (map (fun s => dot (source_y s) (u' b) p) (sources_per_bus b)) -
    (zero + nsum o (map (fun s => load_current (load_gen_type s) s (u b) p) (loads_per_bus b)) + nsum o (map (fun s => dot (source_y s) (source_u s) p) (sources_per_bus b)))); [ring|].
  rewrite H. ring.
Qed.

Lemma balance_iteration u u' : (forall b p, b < n -> p < np ->
    network_current u' b p = inject u' b p + nsum o (map (fun l => load_current (load_gen_type l) l (u b) p) (loads_per_bus b))) ->
  iteration o cj cabs a np n ybus sources_per_bus loads_per_bus y1 y0 u_source s_injection load_gen_type u u'.
Proof.
  intros H b p Hb Hp. specialize (H b p Hb Hp). cbn [e_mat e_rhs]. rewrite iterative_matrix_row by assumption. unfold iterative_rhs.
  rewrite !(fold_vadd o L). unfold vzero. rewrite (nsum_sub o L) in H. rewrite H. ring.
Qed.

(** ** Results *)
Variable result_type : nat -> load_type.
Local Notation load_gen_i := (load_gen_i o cj cabs s_injection result_type).
Local Notation load_gen_s := (load_gen_s o cj cabs s_injection result_type).
Local Notation i_inj_t := (i_inj_t o cj cabs np n ybus loads_per_bus s_injection result_type).
Lemma load_i_current u b l p : u b p <> zero -> load_gen_i u b l p = load_current (result_type l) l (u b) p.
Proof.
  intros Hu. unfold PowerFlow.load_gen_i, PowerFlow.load_gen_s, PowerFlow.load_current. destruct (result_type l); try reflexivity.
  rewrite conj_div by exact Hu. rewrite !(pf_conj_mul _ _ _ _ P), (pf_conj_conj _ _ _ _ P). field. apply conj_nz. exact Hu.
Qed.
Lemma inj_t_network u b p : u b p <> zero -> i_inj_t u b p = network_current u b p - nsum o (map (fun l => load_gen_i u b l p) (loads_per_bus b)).
Proof.
  intros Hu. unfold PowerFlow.i_inj_t, bus_injection, i_load_gen_bus. f_equal. rewrite conj_div by exact Hu. rewrite (pf_conj_mul _ _ _ _ P), (pf_conj_conj _ _ _ _ P). field. apply conj_nz. exact Hu.
Qed.

(** ** Sources *)
Local Notation sequence := (sequence o a).
Local Notation sym_matrix := (sym_matrix o a).
Local Notation sym_matrix_inv := (sym_matrix_inv o a).
Lemma three_nz : one + (one + one) <> zero.
Proof. intros E. apply (pf_three _ _ _ _ P). rewrite <- E. ring. Qed.
Ltac nz := first [exact three_nz | exact (pf_three _ _ _ _ P)].
Ltac f3 := field [a_square]; nz.
Ltac calc := unfold PowerFlowSpec.sequence, ShortCircuit.dot, nsum, PowerFlow.sym_matrix, PowerFlow.sym_matrix_inv, y_ref, phasor; cbn [seq map fold_right Nat.eqb].
Lemma sequence_dot_sym x k : k < 3 -> sequence k (ShortCircuit.dot o 3 sym_matrix x) = x k.
Proof. intros H. calc. destruct k as [|[|[|k]]]; [f3|f3|f3|lia]. Qed.
Lemma dot_sym_inv x p : p < 3 -> ShortCircuit.dot o 3 sym_matrix (ShortCircuit.dot o 3 sym_matrix_inv x) p = x p.
Proof. intros H. calc. destruct p as [|[|[|p]]]; [f3|f3|f3|lia]. Qed.
Lemma inv_sequence x k : k < 3 -> ShortCircuit.dot o 3 sym_matrix_inv x k = sequence k x.
Proof. intros H. calc. destruct k as [|[|[|k]]]; [f3|f3|f3|lia]. Qed.
Lemma sequence_ext k x y : (forall p, p < 3 -> x p = y p) -> sequence k x = sequence k y.
Proof. intros H. unfold PowerFlowSpec.sequence. rewrite !H by lia. reflexivity. Qed.
Lemma sequence_sub k x y : sequence k (fun p => x p - y p) = sequence k x - sequence k y.
Proof. unfold PowerFlowSpec.sequence. destruct k as [|[|k]]; field; nz. Qed.
Lemma sequence_sum {A} k (f : A -> nat -> C) l : sequence k (fun p => nsum o (map (fun s => f s p) l)) = nsum o (map (fun s => sequence k (f s)) l).
Proof.
  induction l as [|s l IH]; cbn [map].
  - unfold PowerFlowSpec.sequence, nsum. cbn [fold_right]. destruct k as [|[|k]]; field; nz.
  - change (nsum o (sequence k (f s) :: map (fun s0 => sequence k (f s0)) l)) with (sequence k (f s) + nsum o (map (fun s0 => sequence k (f s0)) l)). rewrite <- IH.
    unfold PowerFlowSpec.sequence, nsum. cbn [fold_right]. destruct k as [|[|k]]; field; nz.
Qed.
Lemma sequence_phasor x : sequence 0 (phasor o a x) = zero /\ sequence 1 (phasor o a x) = x /\ sequence 2 (phasor o a x) = zero.
Proof. calc. refine (conj _ (conj _ _)); f3. Qed.
Lemma sequence_y_ref k w1 w0 v : k < 3 -> sequence k (ShortCircuit.dot o 3 (y_ref o 3 w1 w0) v) = match k with 0 => w0 | _ => w1 end * sequence k v.
Proof. intros H. calc. destruct k as [|[|[|k]]]; [f3|f3|f3|lia]. Qed.

(** a source that takes its voltage drop through its admittance *)
Lemma ohm_law s u i : np = 1 \/ np = 3 -> (forall p, p < np -> i p = dot (source_y s) (source_u s) p - dot (source_y s) u p) -> source_law o a np (y1 s) (y0 s) (u_source s) u i.
Proof.
  intros Hnp H. unfold source_law. unfold PowerFlow.source_y, PowerFlow.source_u in H. destruct Hnp as [E|E]; rewrite E in *; cbn [Nat.eqb].
  - rewrite H by lia. calc. ring.
  - assert (G : forall k, k < 3 -> sequence k i = match k with 0 => y0 s | _ => y1 s end * (sequence k (phasor o a (u_source s)) - sequence k u)).
    { intros k Hk. rewrite (sequence_ext k i _ H), sequence_sub, !sequence_y_ref by exact Hk. ring. }
    destruct (sequence_phasor (u_source s)) as (P0 & P1 & P2). refine (conj _ (conj _ _)); rewrite G by lia; congruence.
Qed.

Variables (u : nat -> vec (C := C)) (b : nat).
Local Notation source_i := (source_i o cj cabs a np n ybus sources_per_bus loads_per_bus y1 y0 u_source s_injection result_type u).
Local Notation Y1 := (nsum o (map y1 (sources_per_bus b))). Local Notation Y0 := (nsum o (map y0 (sources_per_bus b))).
Definition regular : Prop := length (sources_per_bus b) = 1 \/ (Y1 <> zero /\ (np = 3 -> Y0 <> zero)).
Lemma nsum_scale_r {A} (f : A -> C) k l : nsum o (map (fun x => f x * k) l) = nsum o (map f l) * k.
Proof. unfold nsum. induction l as [|s l IH]; cbn [map fold_right]; [ring|]. rewrite IH. ring. Qed.
(** The sources together give what is left for them. *)
Lemma sources_total : np = 1 \/ np = 3 -> regular -> forall p, p < np -> nsum o (map (fun s => source_i b s p) (sources_per_bus b)) = i_inj_t u b p.
Proof.
  intros Hnp R p Hp. unfold PowerFlow.source_i. destruct (length (sources_per_bus b) =? 1) eqn:E1.
  - apply Nat.eqb_eq in E1. destruct (sources_per_bus b) as [|s [|? ?]]; try discriminate. unfold nsum. cbn. ring.
  - apply Nat.eqb_neq in E1. destruct R as [R|[R1 R0]]; [contradiction|]. destruct Hnp as [E|E].
    + replace (np =? 1) with true by (rewrite E; reflexivity). assert (p = 0) by lia. subst p. unfold multiple_source_sym. set (it := i_inj_t u b 0).
      rewrite (nsum_ext o _ (fun s => (u_source s * y1 s) + y1 s * ((it - nsum o (map (fun s => u_source s * y1 s) (sources_per_bus b))) / Y1))).
      * rewrite (nsum_add o L), nsum_scale_r. field. exact R1.
      * intros s _. field. exact R1.
    + replace (np =? 1) with false by (rewrite E; reflexivity). specialize (R0 E). rewrite <- (dot_sym_inv (i_inj_t u b) p) by lia. unfold multiple_source_asym. unfold ShortCircuit.dot at 1. rewrite (nsum_swap o L).
      unfold ShortCircuit.dot at 4. apply nsum_ext. intros k Hk. apply in_seq in Hk. rewrite (nsum_scale o L). f_equal. set (it := ShortCircuit.dot o 3 sym_matrix_inv (i_inj_t u b)).
      destruct k as [|[|[|k]]]; [| | |lia].
      * rewrite (nsum_ext o _ (fun s => y0 s * (it 0 / Y0))); [rewrite nsum_scale_r; field; exact R0|]. intros s _. field. exact R0.
      * rewrite (nsum_ext o _ (fun s => (u_source s * y1 s) + y1 s * ((it 1 - nsum o (map (fun s => u_source s * y1 s) (sources_per_bus b))) / Y1))).
        -- rewrite (nsum_add o L), nsum_scale_r. field. exact R1.
        -- intros s _. field. exact R1.
      * rewrite (nsum_ext o _ (fun s => y1 s * (it 2 / Y1))); [rewrite nsum_scale_r; field; exact R1|]. intros s _. field. exact R1.
Qed.
(** If what is left is what the sources give at the voltages of the bus, then each of them gives what is due to it. *)
Lemma sources_ohm : np = 1 \/ np = 3 -> regular -> (forall p, p < np -> i_inj_t u b p = inject u b p) ->
  forall s, In s (sources_per_bus b) -> source_law o a np (y1 s) (y0 s) (u_source s) (u b) (source_i b s).
Proof.
  intros Hnp R H s Hs. unfold PowerFlow.source_i. destruct (length (sources_per_bus b) =? 1) eqn:E1.
  - apply Nat.eqb_eq in E1. destruct (sources_per_bus b) as [|s' [|? ?]]; try discriminate. destruct Hs as [<-|[]]. apply ohm_law; [exact Hnp|]. intros p Hp. rewrite (H p Hp). unfold nsum. cbn. ring.
  - apply Nat.eqb_neq in E1. destruct R as [R|[R1 R0]]; [contradiction|]. unfold source_law. unfold PowerFlow.source_y, PowerFlow.source_u in H. destruct Hnp as [E|E].
    + replace (np =? 1) with true by (rewrite E; reflexivity). unfold multiple_source_sym. rewrite (H 0) by lia. rewrite E.
      rewrite (nsum_ext o (fun s => ShortCircuit.dot o 1 (y_ref o 1 (y1 s) (y0 s)) (phasor o a (u_source s)) 0 - ShortCircuit.dot o 1 (y_ref o 1 (y1 s) (y0 s)) (u b) 0) (fun s => u_source s * y1 s - y1 s * u b 0)) by (intros x _; calc; ring).
      rewrite (nsum_sub o L), nsum_scale_r. field. exact R1.
    + replace (np =? 1) with false by (rewrite E; reflexivity). specialize (R0 E). unfold multiple_source_asym. rewrite !sequence_dot_sym by lia. rewrite !inv_sequence by lia.
      assert (H' : forall p, p < 3 -> i_inj_t u b p = nsum o (map (fun s => ShortCircuit.dot o 3 (y_ref o 3 (y1 s) (y0 s)) (phasor o a (u_source s)) p - ShortCircuit.dot o 3 (y_ref o 3 (y1 s) (y0 s)) (u b) p) (sources_per_bus b)))
        by (intros p Hp; rewrite H by lia; rewrite E; reflexivity).
      assert (G : forall k, k < 3 -> sequence k (i_inj_t u b) =
        nsum o (map (fun s => match k with 0 => y0 s | _ => y1 s end * (sequence k (phasor o a (u_source s)) - sequence k (u b))) (sources_per_bus b))).
      { intros k Hk. rewrite (sequence_ext k _ _ H'). rewrite (sequence_sum k (fun s p => ShortCircuit.dot o 3 (y_ref o 3 (y1 s) (y0 s)) (phasor o a (u_source s)) p - ShortCircuit.dot o 3 (y_ref o 3 (y1 s) (y0 s)) (u b) p)).
        apply nsum_ext. intros x _. rewrite sequence_sub, !sequence_y_ref by exact Hk. ring. }
      rewrite !G by lia. refine (conj _ (conj _ _)).
      * rewrite (nsum_ext o (fun s => y0 s * (sequence 0 (phasor o a (u_source s)) - sequence 0 (u b))) (fun s => y0 s * (zero - sequence 0 (u b)))) by (intros x _; destruct (sequence_phasor (u_source x)) as (-> & _ & _); reflexivity). rewrite nsum_scale_r. field. exact R0.
      * rewrite (nsum_ext o (fun s => y1 s * (sequence 1 (phasor o a (u_source s)) - sequence 1 (u b))) (fun s => u_source s * y1 s - y1 s * sequence 1 (u b))) by (intros x _; destruct (sequence_phasor (u_source x)) as (_ & -> & _); ring).
        rewrite (nsum_sub o L), nsum_scale_r. field. exact R1.
      * rewrite (nsum_ext o (fun s => y1 s * (sequence 2 (phasor o a (u_source s)) - sequence 2 (u b))) (fun s => y1 s * (zero - sequence 2 (u b)))) by (intros x _; destruct (sequence_phasor (u_source x)) as (_ & _ & ->); reflexivity). rewrite nsum_scale_r. field. exact R1.
Qed.
End Facts.
