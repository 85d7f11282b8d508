(** Proofs for C64: active power decides that the equations have at most one solution. *)
From Coq Require Import Reals Lra Field.
From Verif Require Import Common NatMap GroupedIdx Numbers ShortCircuit ShortCircuitFacts PowerFlow PowerFlowSpec PowerFlowFacts BalancedSpec BalancedFacts BalancedGrid YBus YBusSpec SquareSystem Units UnitsFacts Ratings RatingsFacts SolvableSpec.
From Verif Require TwoPort TwoPortSpec.
Local Open Scope R_scope.

(** ** Sums of real numbers *)
Definition rnum : num_ops R := mkNum 0 1 Rplus Rmult Rminus Ropp Rdiv Rinv.
Lemma rnum_laws : num_laws rnum. Proof. constructor. exact Rfield. Qed.
Notation rsum := (nsum rnum).
Lemma rsum_nn {A} (f : A -> R) l : (forall x, In x l -> 0 <= f x) -> 0 <= rsum (map f l).
Proof. unfold nsum. induction l as [|a l IH]; intros H; cbn; [lra|]. pose proof (H a (or_introl eq_refl)). assert (0 <= fold_right Rplus 0 (map f l)) by (apply IH; intros; apply H; right; assumption). lra. Qed.
Lemma rsum_0 {A} (f : A -> R) l : (forall x, In x l -> 0 <= f x) -> rsum (map f l) <= 0 -> forall x, In x l -> f x = 0.
Proof.
  induction l as [|a l IH]; intros H S x I; [destruct I|]. rewrite nsum_cons in S. cbn [rnum n_add] in S.
  pose proof (H a (or_introl eq_refl)) as Ha. assert (Hl : forall x, In x l -> 0 <= f x) by (intros; apply H; right; assumption). pose proof (rsum_nn f l Hl) as Hs.
  destruct I as [<-|I]; [lra|]. apply IH; auto. lra.
Qed.
Lemma rsum_delta (f : nat -> R) k n : (k < n)%nat -> rsum (map (fun i => if k =? i then f i else 0) (seq 0 n)) = f k.
Proof.
  intros H. assert (G : forall a m, rsum (map (fun i => if k =? i then f i else 0) (seq a m)) = if (a <=? k) && (k <? a + m) then f k else 0).
  { intros a m. revert a. induction m as [|m IH]; intros a; cbn [seq].
    - replace (a + 0)%nat with a by lia. destruct (a <=? k)%nat eqn:E, (k <? a)%nat eqn:F; cbn [andb]; auto. lia.
    - rewrite nsum_cons, IH. cbn [rnum n_add]. destruct (Nat.eqb_spec k a) as [->|Hn].
      + replace (S a <=? a)%nat with false by lia. cbn [andb]. replace (a <=? a)%nat with true by lia. replace (a <? a + S m)%nat with true by lia. cbn [andb]. ring.
      + destruct (a <=? k)%nat eqn:E, (S a <=? k)%nat eqn:F; try lia; cbn [andb]; try ring. replace (k <? a + S m)%nat with (k <? S a + m)%nat by (f_equal; lia). ring. }
  rewrite G. replace (0 <=? k)%nat with true by lia. replace (k <? 0 + n)%nat with true by lia. reflexivity.
Qed.
Lemma rsum_plus {A} (f g : A -> R) l : rsum (map (fun x => f x + g x) l) = rsum (map f l) + rsum (map g l).
Proof. apply (nsum_add rnum rnum_laws). Qed.
Lemma rsum_swap3 {A} (F : nat -> nat -> A -> R) l l' k : rsum (map (fun i => rsum (map (fun j => rsum (map (F i j) k)) l')) l) = rsum (map (fun x => rsum (map (fun i => rsum (map (fun j => F i j x) l')) l)) k).
Proof.
  rewrite (nsum_swap rnum rnum_laws (fun x i => rsum (map (fun j => F i j x) l')) k l). apply nsum_ext. intros i _. apply (nsum_swap rnum rnum_laws (F i)).
Qed.
Lemma rsum_flat {A B} (g : B -> R) (h : A -> list B) l : rsum (map g (flat_map h l)) = rsum (map (fun x => rsum (map g (h x))) l).
Proof.
  induction l as [|x l IH]; [reflexivity|]. cbn [flat_map]. rewrite map_app, (nsum_app rnum rnum_laws), IH. reflexivity.
Qed.

(** ** Complex numbers as the numbers of PowerFlow.v *)
Definition cnum : num_ops C := num_of complex_ops.
Lemma abs_square_c x : TwoPort.c_mul complex_ops (TwoPort.c_abs complex_ops x) (TwoPort.c_abs complex_ops x) = TwoPort.c_mul complex_ops x (TwoPort.c_conj complex_ops x).
Proof.
  cbn [complex_ops TwoPort.c_abs TwoPort.c_mul TwoPort.c_conj]. assert (S : cabs x * cabs x = norm2 x).
  { unfold cabs. apply sqrt_sqrt. unfold norm2. pose proof (Rle_0_sqr (re x)). pose proof (Rle_0_sqr (im x)). unfold Rsqr in *. lra. }
  unfold norm2 in S. apply c_eq; unfold cmul, conj, re, im in *; cbn [fst snd]; [rewrite Rmult_0_r, Rminus_0_r, S; ring|ring].
Qed.
Lemma abs_rot_c x : TwoPort.c_abs complex_ops (TwoPort.c_mul complex_ops x (a120 complex_ops)) = TwoPort.c_abs complex_ops x.
Proof.
  cbn [complex_ops TwoPort.c_abs TwoPort.c_mul]. f_equal. unfold a120. cbn [complex_ops TwoPort.c_rot]. unfold cabs. f_equal. unfold norm2, cmul, cexp, re, im. cbn [fst snd].
  generalize (sin2_cos2 (IZR 4 * (PI / 6))). unfold Rsqr. generalize (cos (IZR 4 * (PI / 6))) as c, (sin (IZR 4 * (PI / 6))) as s. destruct x as [x y]. cbn [fst snd]. intros c s H.
  transitivity ((x * x + y * y) * (s * s + c * c)); [ring|rewrite H; ring].
Qed.
Definition clabs : balanced_laws cnum conj (TwoPort.c_abs complex_ops) (a120 complex_ops) := grid_laws complex_ops complex_laws complex_rots abs_square_c abs_rot_c.
Definition cpf : pf_laws cnum conj (TwoPort.c_abs complex_ops) (a120 complex_ops) := ba_pf _ _ _ _ clabs.
Definition cl : num_laws cnum := pf_num _ _ _ _ cpf.
Lemma c_dec (a b : C) : {a = b} + {a <> b}.
Proof. destruct a as [a a'], b as [b b']. destruct (Req_EM_T a b) as [->|H]; [|right; congruence]. destruct (Req_EM_T a' b') as [->|H]; [left; reflexivity|right; congruence]. Qed.

Section Energy.
Variable np : nat.
Notation power := (power np).
Notation dot := (dot cnum np).
Lemma power_sum u i : power u i = rsum (map (fun p => re (cmul (u p) (conj (i p)))) (seq 0 np)). Proof. reflexivity. Qed.
Lemma power_ext u i i' : (forall p, (p < np)%nat -> i p = i' p) -> power u i = power u i'.
Proof. intros H. rewrite !power_sum. apply nsum_ext. intros p Hp. apply in_seq in Hp. rewrite H by lia. reflexivity. Qed.
Lemma power_add u i i' : power u (vadd cnum i i') = power u i + power u i'.
Proof.
  rewrite !power_sum, <- (nsum_add rnum rnum_laws). apply nsum_ext. intros p _. unfold vadd. cbn. unfold re, im. destruct (u p), (i p), (i' p). cbn. ring.
Qed.
Lemma power_0 u : power u (fun _ => (0, 0)) = 0.
Proof. rewrite power_sum. apply (nsum_zero rnum rnum_laws). intros p _. cbn. unfold re. cbn. ring. Qed.
Lemma power_nsum {A} u (f : A -> nat -> C) l : power u (fun p => nsum cnum (map (fun x => f x p) l)) = rsum (map (fun x => power u (f x)) l).
Proof.
  induction l as [|x l IH]; [apply power_0|]. rewrite nsum_cons, <- IH. cbn [rnum n_add]. rewrite <- power_add. reflexivity.
Qed.
Lemma power_ext_u u u' i : (forall p, (p < np)%nat -> u p = u' p) -> power u i = power u' i.
Proof. intros H. rewrite !power_sum. apply nsum_ext. intros p Hp. apply in_seq in Hp. rewrite H by lia. reflexivity. Qed.
Lemma dot_ext_v y v v' p : (forall q, (q < np)%nat -> v q = v' q) -> dot y v p = dot y v' p.
Proof. intros H. unfold ShortCircuit.dot. apply nsum_ext. intros q Hq. apply in_seq in Hq. rewrite H by lia. reflexivity. Qed.
Lemma dot_0 y v p : (forall q, (q < np)%nat -> v q = (0, 0)) -> dot y v p = (0, 0).
Proof. intros H. unfold ShortCircuit.dot. apply (nsum_zero cnum cl). intros q Hq. apply in_seq in Hq. rewrite H by lia. cbn. unfold cmul, re, im. cbn. f_equal; ring. Qed.

Context {Y S' : Type} (ten : Y -> nat -> nat -> C) (yadd : Y -> Y -> Y) (yzero : Y).
Hypothesis ten_add : forall a b p q, ten (yadd a b) p q = cadd (ten a p q) (ten b p q).
Hypothesis ten_0 : forall p q, ten yzero p q = (0, 0).
Variable t : math_topo.
Variable prm : @model_param Y S'.
Definition ybus (i j : nat) : nat -> nat -> C := ten (fold_left yadd (entry_terms t prm i j) yzero).
Lemma dot_terms l v p : dot (ten (fold_left yadd l yzero)) v p = nsum cnum (map (fun a => dot (ten a) v p) l).
Proof.
  assert (G : forall l z, dot (ten (fold_left yadd l z)) v p = cadd (dot (ten z) v p) (nsum cnum (map (fun a => dot (ten a) v p) l))).
  { induction l0 as [|a l0 IH]; intros z; cbn [fold_left].
    - unfold nsum. cbn [fold_right map]. generalize (dot (ten z) v p). intros w. cbn. creal; ring.
    - rewrite IH, nsum_cons. assert (E : dot (ten (yadd z a)) v p = cadd (dot (ten z) v p) (dot (ten a) v p)).
      { unfold ShortCircuit.dot. change cadd with (n_add cnum). rewrite <- (nsum_add cnum cl). apply nsum_ext. intros q _. rewrite ten_add. generalize (ten z p q), (ten a p q), (v q). intros w w' x. cbn. creal; ring. }
      rewrite E. generalize (dot (ten z) v p), (dot (ten a) v p), (nsum cnum (map (fun a => dot (ten a) v p) l0)). intros w w' w''. cbn. creal; ring. }
  rewrite G. replace (dot (ten yzero) v p) with ((0, 0) : C); [generalize (nsum cnum (map (fun a => dot (ten a) v p) l)); intros w; creal; ring|].
  symmetry. unfold ShortCircuit.dot. apply (nsum_zero cnum cl). intros q _. rewrite ten_0. cbn. unfold cmul, re, im. cbn. f_equal; ring.
Qed.
Variable n : nat.
Hypothesis in_range : forall f b, In (f, b) (mt_branch t) -> (forall i, f = Some i -> (i < n)%nat) /\ (forall i, b = Some i -> (i < n)%nat).
Hypothesis shunt_range : forall b, In b (d_vec (mt_shunt t)) -> (b < n)%nat.
Variable u : nat -> nat -> C.
(** the voltage at one end; an open end has none *)
Definition at_end (b : option nat) : nat -> C := match b with Some i => u i | None => fun _ => (0, 0) end.
Notation branches := (combine (mt_branch t) (p_branch prm)).
Notation shunts := (combine (d_vec (mt_shunt t)) (p_shunt prm)).
Notation takes := (takes cnum np ten).
Lemma power_at u' y v : power u' (dot (ten y) v) = power u' (fun p => dot (ten y) v p). Proof. reflexivity. Qed.
Lemma one_entry (f b : option nat) (g : nat -> nat -> R) : (forall i, f = Some i -> (i < n)%nat) -> (forall i, b = Some i -> (i < n)%nat) ->
  rsum (map (fun i => rsum (map (fun j => if match f, b with Some a, Some c => (a =? i) && (c =? j) | _, _ => false end then g i j else 0) (seq 0 n))) (seq 0 n)) =
  match f, b with Some a, Some c => g a c | _, _ => 0 end.
Proof.
  intros Hf Hb. destruct f as [a|]; [destruct b as [c|]|].
  - transitivity (rsum (map (fun i => if a =? i then g i c else 0) (seq 0 n))); [|apply (rsum_delta (fun i => g i c)); auto].
    apply nsum_ext. intros i _. destruct (a =? i); cbn [andb]; [apply (rsum_delta (g i)); auto|]. apply (nsum_zero rnum rnum_laws). auto.
  - apply (nsum_zero rnum rnum_laws). intros i _. apply (nsum_zero rnum rnum_laws). auto.
  - apply (nsum_zero rnum rnum_laws). intros i _. apply (nsum_zero rnum rnum_laws). auto.
Qed.
Lemma end_none y b p : b = None -> dot y (at_end b) p = (0, 0). Proof. intros ->. apply dot_0. reflexivity. Qed.
Lemma power_open i : power (at_end None) i = 0.
Proof. rewrite power_sum. apply (nsum_zero rnum rnum_laws). intros p _. cbn. unfold re, im. cbn. ring. Qed.
Lemma open_none v y : power v (dot y (at_end None)) = 0.
Proof. rewrite (power_ext _ _ (fun _ => (0, 0))); [apply power_0|]. intros p _. now apply end_none. Qed.
(** what flows into the network at the buses is what the branches and the shunts take *)
Lemma energy : rsum (map (fun i => power (u i) (fun p => nsum cnum (map (fun j => dot (ybus i j) (u j) p) (seq 0 n)))) (seq 0 n)) =
  rsum (map (fun x => takes (snd x) (at_end (fst (fst x))) (at_end (snd (fst x)))) branches) + rsum (map (fun x => power (u (fst x)) (dot (ten (snd x)) (u (fst x)))) shunts).
Proof.
  set (g := fun i j a => power (u i) (dot (ten a) (u j))).
  assert (E : rsum (map (fun i => power (u i) (fun p => nsum cnum (map (fun j => dot (ybus i j) (u j) p) (seq 0 n)))) (seq 0 n)) =
    rsum (map (fun i => rsum (map (fun j => rsum (map (g i j) (entry_terms t prm i j))) (seq 0 n))) (seq 0 n))).
  { apply nsum_ext. intros i _. rewrite power_nsum. apply nsum_ext. intros j _. unfold g. rewrite <- power_nsum. apply power_ext. intros p _. unfold ybus. apply dot_terms. }
  rewrite E. clear E.
  assert (E : forall i j, rsum (map (g i j) (entry_terms t prm i j)) =
    rsum (map (fun x : (option nat * option nat) * branch_param =>
       let here (a b : option nat) := match a, b with Some a, Some b => (a =? i) && (b =? j) | _, _ => false end in
       (if here (fst (fst x)) (fst (fst x)) then g i j (yff (snd x)) else 0) + (if here (fst (fst x)) (snd (fst x)) then g i j (yft (snd x)) else 0) +
       (if here (snd (fst x)) (fst (fst x)) then g i j (ytf (snd x)) else 0) + (if here (snd (fst x)) (snd (fst x)) then g i j (ytt (snd x)) else 0)) branches) +
    rsum (map (fun x => if (i =? j) && (fst x =? i) then g i j (snd x) else 0) shunts)).
  { intros i j. unfold entry_terms. rewrite map_app, (nsum_app rnum rnum_laws), !rsum_flat. cbn [rnum n_add]. f_equal.
    - apply nsum_ext. intros [[f b] q] _. cbn [fst snd]. cbv zeta. rewrite !map_app, !(nsum_app rnum rnum_laws).
      assert (Z : forall (c : bool) y, rsum (map (g i j) (if c then [y] else [])) = if c then g i j y else 0) by (intros [] y; unfold nsum; cbn; ring).
      rewrite !Z. cbn [rnum n_add]. ring.
    - apply nsum_ext. intros [b y] _. cbn [fst snd]. destruct ((i =? j) && (b =? i)); unfold nsum; cbn; ring. }
  transitivity (rsum (map (fun i => rsum (map (fun j => rsum (map (fun x : (option nat * option nat) * branch_param =>
       let here (a b : option nat) := match a, b with Some a, Some b => (a =? i) && (b =? j) | _, _ => false end in
       (if here (fst (fst x)) (fst (fst x)) then g i j (yff (snd x)) else 0) + (if here (fst (fst x)) (snd (fst x)) then g i j (yft (snd x)) else 0) +
       (if here (snd (fst x)) (fst (fst x)) then g i j (ytf (snd x)) else 0) + (if here (snd (fst x)) (snd (fst x)) then g i j (ytt (snd x)) else 0)) branches)) (seq 0 n))) (seq 0 n)) +
    rsum (map (fun i => rsum (map (fun j => rsum (map (fun x => if (i =? j) && (fst x =? i) then g i j (snd x) else 0) shunts)) (seq 0 n))) (seq 0 n))).
  { rewrite <- rsum_plus. apply nsum_ext. intros i _. rewrite <- rsum_plus. apply nsum_ext. intros j _. apply E. }
  clear E. f_equal.
  - transitivity (rsum (map (fun x : (option nat * option nat) * branch_param => rsum (map (fun i => rsum (map (fun j =>
       let here (a b : option nat) := match a, b with Some a, Some b => (a =? i) && (b =? j) | _, _ => false end in
       (if here (fst (fst x)) (fst (fst x)) then g i j (yff (snd x)) else 0) + (if here (fst (fst x)) (snd (fst x)) then g i j (yft (snd x)) else 0) +
       (if here (snd (fst x)) (fst (fst x)) then g i j (ytf (snd x)) else 0) + (if here (snd (fst x)) (snd (fst x)) then g i j (ytt (snd x)) else 0)) (seq 0 n))) (seq 0 n))) branches)).
    { apply rsum_swap3. }
    apply nsum_ext. intros [[f b] q] Hin. cbn [fst snd]. cbv zeta. apply in_combine_l in Hin. destruct (in_range f b Hin) as [Hf Hb].
    assert (A4 : forall (a b c d : nat -> nat -> R), rsum (map (fun i => rsum (map (fun j => a i j + b i j + c i j + d i j) (seq 0 n))) (seq 0 n)) =
       rsum (map (fun i => rsum (map (a i) (seq 0 n))) (seq 0 n)) + rsum (map (fun i => rsum (map (b i) (seq 0 n))) (seq 0 n)) + rsum (map (fun i => rsum (map (c i) (seq 0 n))) (seq 0 n)) + rsum (map (fun i => rsum (map (d i) (seq 0 n))) (seq 0 n))).
    { intros a b' c d. rewrite <- !rsum_plus. apply nsum_ext. intros i _. rewrite !rsum_plus. reflexivity. }
    rewrite A4. rewrite !(one_entry _ _ (fun i j => g i j _)) by auto. unfold SolvableSpec.takes. rewrite !power_add. unfold g.
    destruct f as [f|], b as [b|]; rewrite ?power_open, ?open_none; cbn [at_end]; ring.
  - transitivity (rsum (map (fun x => rsum (map (fun i => rsum (map (fun j => if (i =? j) && (fst x =? i) then g i j (snd x) else 0) (seq 0 n))) (seq 0 n))) shunts)).
    { apply rsum_swap3. }
    apply nsum_ext. intros [b y] Hin. cbn [fst snd]. apply in_combine_l in Hin. specialize (shunt_range b Hin).
    transitivity (rsum (map (fun i => if b =? i then g i i y else 0) (seq 0 n))); [|apply (rsum_delta (fun i => g i i y)); auto].
    apply nsum_ext. intros i Hi. apply in_seq in Hi. destruct (b =? i); [|apply (nsum_zero rnum rnum_laws); intros j _; now rewrite andb_false_r].
    rewrite (nsum_ext rnum _ (fun j => if i =? j then g i j y else 0)) by (intros j _; now rewrite andb_true_r). apply (rsum_delta (fun j => g i j y)). lia.
Qed.
End Energy.
