(** C22: the factors multiply to the matrix, and the solution solves the system. *)
From Coq Require Import Sorting.Sorted.
From Verif Require Import Common YBus YBusSpec YBusProps YBusFlow SparseLU SparseLUSpec SparseLUFacts.

(** ** sums *)
Section Sums.
Context {X : Type} (add : X -> X -> X) (zero : X).
Hypothesis comm : forall x y, add x y = add y x.
Hypothesis assoc : forall x y z, add x (add y z) = add (add x y) z.
Hypothesis zr : forall x, add x zero = x.
Notation sum := (sum_n add zero).
Lemma sum_ext n f g : (forall k, k < n -> f k = g k) -> sum n f = sum n g.
Proof. intros H. induction n as [|n IH]; cbn [sum_n]; auto. rewrite IH, H; auto. Qed.
Lemma sum_0 n f : (forall k, k < n -> f k = zero) -> sum n f = zero.
Proof. intros H. induction n as [|n IH]; cbn [sum_n]; auto. rewrite IH, H; auto. Qed.
Lemma sum_hom {Y} (add' : Y -> Y -> Y) (zero' : Y) (h : X -> Y) n f : (forall x y, h (add x y) = add' (h x) (h y)) -> h zero = zero' ->
  h (sum n f) = sum_n add' zero' n (fun k => h (f k)).
Proof. intros H H0. induction n as [|n IH]; cbn [sum_n]; auto. now rewrite H, IH. Qed.
Lemma sum_add n f g : sum n (fun k => add (f k) (g k)) = add (sum n f) (sum n g).
Proof.
  induction n as [|n IH]; cbn [sum_n]; [now rewrite zr|]. rewrite IH, !assoc. f_equal. rewrite <- !assoc. f_equal. apply comm.
Qed.
Lemma sum_swap n m f : sum n (fun i => sum m (fun j => f i j)) = sum m (fun j => sum n (fun i => f i j)).
Proof.
  induction n as [|n IH]; cbn [sum_n].
  - symmetry. now apply sum_0.
  - now rewrite IH, <- sum_add.
Qed.
(** sums that differ at one index *)
Lemma sum_one n f g j z : j < n -> g j = add (f j) z -> (forall k, k < n -> k <> j -> g k = f k) -> sum n g = add (sum n f) z.
Proof.
  intros Hj Ej H. induction n as [|n IH]; [lia|]. cbn [sum_n]. destruct (Nat.eq_dec j n) as [->|Hn].
  - rewrite Ej, (sum_ext n g f); [now rewrite assoc|]. intros k Hk. apply H; lia.
  - rewrite IH, (H n) by (try lia; intros; apply H; lia). rewrite <- !assoc. f_equal. apply comm.
Qed.
End Sums.

Section Props.
Context {T V Q : Type} (o : block_ops T V Q) (a : block_algebra T V Q) (law : block_laws o a).
Notation add := (a_add a). Notation zero := (a_0 a). Notation opp := (a_opp a). Notation mul := (b_mul o).
Notation vadd := (a_vadd a). Notation vzero := (a_v0 a). Notation act := (b_act o). Notation pm := (a_pm a).

(** ** algebra *)
Lemma add_cancel x y z : add x z = add y z -> x = y.
Proof.
  intros H. assert (E : add (add x z) (opp z) = add (add y z) (opp z)) by now rewrite H.
  now rewrite <- !(bl_assoc o a law), !(bl_opp o a law), !(bl_zero o a law) in E.
Qed.
Lemma zero_l x : add zero x = x. Proof. now rewrite (bl_comm o a law), (bl_zero o a law). Qed.
Lemma mul_0 x : mul x zero = zero.
Proof. apply (add_cancel _ _ (mul x zero)). now rewrite <- (bl_mul_add o a law), !zero_l. Qed.
Lemma mul_0_l x : mul zero x = zero.
Proof. apply (add_cancel _ _ (mul zero x)). now rewrite <- (bl_add_mul o a law), !zero_l. Qed.
Lemma sub_add x y : add y (b_sub o x y) = x.
Proof. rewrite (bl_sub o a law), (bl_comm o a law x), (bl_assoc o a law), (bl_opp o a law). apply zero_l. Qed.
Lemma sub_0 : b_sub o zero zero = zero.
Proof. rewrite (bl_sub o a law). apply (bl_opp o a law). Qed.
Lemma vadd_cancel x y z : vadd x z = vadd y z -> x = y.
Proof.
  intros H. assert (E : vadd (vadd x z) (a_vopp a z) = vadd (vadd y z) (a_vopp a z)) by now rewrite H.
  now rewrite <- !(bl_vassoc o a law), !(bl_vopp o a law), !(bl_vzero o a law) in E.
Qed.
Lemma vzero_l x : vadd vzero x = x. Proof. now rewrite (bl_vcomm o a law), (bl_vzero o a law). Qed.
Lemma act_v0 x : act x vzero = vzero.
Proof. apply (vadd_cancel _ _ (act x vzero)). now rewrite <- (bl_act_add o a law), !vzero_l. Qed.
Lemma act_0 v : act zero v = vzero.
Proof. apply (vadd_cancel _ _ (act zero v)). now rewrite <- (bl_add_act o a law), zero_l, vzero_l. Qed.
Lemma vsub_add x y : vadd y (b_vsub o x y) = x.
Proof. rewrite (bl_vsub o a law), (bl_vcomm o a law x), (bl_vassoc o a law), (bl_vopp o a law). apply vzero_l. Qed.
Notation sumT := (sum_n add zero). Notation sumV := (sum_n vadd vzero).

Variables (n : nat) (pt : pattern).
Hypothesis ok : pattern_ok n pt.
Notation at_ := (csr_at (indptr pt) (cols pt)).
Notation has i j := (exists e, at_ e i j).
Local Notation C := (pk_csr _ _ ok).

(** ** one pivot *)
Definition next (p : nat) (lu : T) (P Q' : Q) (F : nat -> nat -> T) (i j : nat) : T :=
  if i =? p then (if j =? p then lu else if j <? p then mul (pm P) (F p j) else b_solve_lower o lu (mul (pm P) (F p j)))
  else if j =? p then (if i <? p then mul (F i p) (pm Q') else b_solve_right_upper o lu (mul (F i p) (pm Q')))
  else if (p <? i) && (p <? j) then b_sub o (F i j) (mul (b_solve_right_upper o lu (mul (F i p) (pm Q'))) (b_solve_lower o lu (mul (pm P) (F p j))))
  else F i j.

Definition zero_outside (F : nat -> nat -> T) : Prop := forall i j, ~ has i j -> F i j = zero.
Definition lu_inv (p : nat) (s : lu_state T Q) (F : nat -> nat -> T) : Prop :=
  holds pt (lu_data s) F /\ pos_is n pt (fun _ => p) (lu_pos s) /\ length (lu_perm s) = n /\ zero_outside F.

Lemma next_outside p lu P Q' F x b : b_factor o x = Some (lu, P, Q', b) -> p < n -> zero_outside F -> zero_outside (next p lu P Q' F).
Proof.
  intros HF Hp H0 i j Hn. unfold next.
  destruct (Nat.eqb_spec i p) as [->|Hi], (Nat.eqb_spec j p) as [->|Hj].
  - exfalso. apply Hn. destruct (diag_at n pt ok p Hp) as (e & _ & He). eauto.
  - rewrite (H0 p j Hn), mul_0. destruct (j <? p); auto. exact (bl_solve_lower_0 o a law _ _ _ _ _ HF).
  - rewrite (H0 i p Hn), mul_0_l. destruct (i <? p); auto. exact (bl_solve_right_upper_0 o a law _ _ _ _ _ HF).
  - rewrite (H0 i j Hn). destruct (Nat.ltb_spec p i), (Nat.ltb_spec p j); cbn [andb]; auto.
    assert (HD : F i p = zero \/ F p j = zero).
    { destruct (nth_error (indptr pt) p) as [lo|] eqn:El; [destruct (nth_error (indptr pt) (S p)) as [hi|] eqn:Eh|].
      - destruct (in_dec Nat.eq_dec j (firstn (hi - lo) (skipn lo (cols pt)))) as [Hin|Hout].
        + left. apply H0. intros [e He]. apply Hn. apply In_nth_error in Hin as [q Hq].
          assert (q < hi - lo) by ((assert (q < length (firstn (hi - lo) (skipn lo (cols pt)))) by (apply nth_error_Some; congruence); rewrite firstn_length in *; lia)).
          rewrite nth_firstn_lt, nth_skipn in Hq by auto.
          apply (pk_closed _ _ ok p i j); auto.
          * exact (pk_sym _ _ ok _ _ _ He).
          * exists (lo + q). split; auto. exists lo, hi. split; auto. split; auto. lia.
        + right. apply H0. intros [e He]. apply Hout. destruct He as (Hc & lo' & hi' & Hl & Hh & Hr).
          assert (lo' = lo) by congruence. assert (hi' = hi) by congruence. subst. apply (nth_error_In _ (e - lo)).
          rewrite nth_firstn_lt, nth_skipn by lia. now replace (lo + (e - lo)) with e by lia.
      - exfalso. apply nth_error_None in Eh. rewrite (csr_length _ _ _ C) in Eh. lia.
      - exfalso. apply nth_error_None in El. rewrite (csr_length _ _ _ C) in El. lia. }
    destruct HD as [E|E]; rewrite E.
    + rewrite mul_0_l, (bl_solve_right_upper_0 o a law _ _ _ _ _ HF), mul_0_l. apply sub_0.
    + rewrite mul_0, (bl_solve_lower_0 o a law _ _ _ _ _ HF), mul_0. apply sub_0.
Qed.

Lemma pivot_step_spec p s F : p < n -> lu_inv p s F ->
  (b_factor o (F p p) = None /\ pivot_step o pt p s = Singular) \/
  exists lu P Q' b s', b_factor o (F p p) = Some (lu, P, Q', b) /\ pivot_step o pt p s = Done s' /\ lu_perm s' = upd p (P, Q') (lu_perm s) /\
    lu_perturbed s' = lu_perturbed s || b /\ lu_inv (S p) s' (next p lu P Q' F).
Proof.
  intros Hp (HF & HP & Hperm & H0). destruct (diag_at n pt ok p Hp) as (d & Hd & Hat).
  unfold pivot_step. rewrite (get_Some _ _ _ Hd). cbn [bind]. rewrite (holds_get _ _ _ _ _ _ HF Hat). cbn [bind].
  destruct (b_factor o (F p p)) as [[[[lu P] Q'] b]|] eqn:Ef; [right|left; auto].
  destruct (holds_put n pt ok _ _ d p p lu HF Hat) as (d1 & -> & Hd1). cbn [bind]. rewrite put_lt by lia. cbn [bind].
  destruct (ip_get _ _ _ C p) as [lo Hlo]; [lia|]. destruct (ip_get _ _ _ C (S p)) as [hi Hhi]; [lia|].
  rewrite (get_Some _ _ _ Hlo), (get_Some _ _ _ Hhi). cbn [bind].
  pose proof (row_p_range pt p lo hi Hlo Hhi d p Hat) as Hr.
  destruct (left_loop o n pt ok p Hp lo d hi Hlo Hhi Hat P Q' _ d1 (lu_pos s) Hd1 HP) as (d2 & pos2 & -> & Hd2 & HP2). cbn [bind fst snd].
  destruct (right_loop o n pt ok p Hp lo d hi Hlo Hhi Hat lu P _ d2 Hd2) as (d3 & -> & Hd3). cbn [bind].
  match type of Hd3 with holds _ _ ?G => set (F3 := G) in * end.
  destruct (elim_loop o n pt ok p Hp lo d hi Hlo Hhi Hat lu Q' F3 (left_c pt p lo d)) with (data := d3) (pos := pos2) as (d4 & pos4 & -> & Hd4 & HP4); auto.
  { intros i Hi. unfold left_c. destruct (Nat.ltb_spec i p); [lia|reflexivity]. }
  cbn [bind fst snd].
  assert (Hcp : elim_c pt p d (left_c pt p lo d) hi p = p).
  { unfold elim_c, left_c. now rewrite Nat.ltb_irrefl. }
  assert (Hat' : at_ d p (elim_c pt p d (left_c pt p lo d) hi p)) by now rewrite Hcp.
  rewrite (pos_get n pt ok _ _ _ _ HP4 Hat'). cbn [bind]. destruct (pos_put n pt ok _ _ _ _ HP4 Hat') as (pos5 & -> & HP5). cbn [bind].
  exists lu, P, Q', b. eexists. refine (conj eq_refl (conj eq_refl (conj eq_refl (conj eq_refl _)))).
  unfold lu_inv. cbn [lu_data lu_pos lu_perm].
  assert (AL : forall j, has p j -> j < p -> among pt lo d j = true).
  { intros j [e He] Hj. apply (among_at pt lo d p j e He). pose proof (row_p_range pt p lo hi Hlo Hhi e j He).
    apply (left_at n pt ok p d Hat e j He) in Hj. lia. }
  assert (AR : forall j, has p j -> p < j -> among pt (S d) hi j = true).
  { intros j [e He] Hj. apply (among_at pt (S d) hi p j e He). pose proof (row_p_range pt p lo hi Hlo Hhi e j He).
    apply (right_at n pt ok p d Hat e j He) in Hj. lia. }
  assert (AR0 : forall j, p < j -> among pt (S d) hi j = true -> has p j).
  { intros j Hj HA. apply among_iff in HA as (e & He & E). destruct (row_p n pt ok p lo hi Hlo Hhi e) as (j' & Hat2 & Hj2); [lia|].
    rewrite (nth_error_nth _ _ 0 Hj2) in E. subst. eauto. }
  assert (SY : forall i j, has i j -> has j i) by (intros i j [e He]; exact (pk_sym _ _ ok _ _ _ He)).
  refine (conj _ (conj _ (conj _ _))).
  - revert Hd4. apply holds_ext. intros i j Hij. unfold elim_F, schur_F, new_l, next.
    assert (E3 : forall i j, has i j \/ j = p \/ i = p -> F3 i j = if i =? p then (if j =? p then lu else if j <? p then (if among pt lo d j then mul (pm P) (F p j) else F p j)
        else (if among pt (S d) hi j then b_solve_lower o lu (mul (pm P) (F p j)) else F p j))
      else if (j =? p) && (i <? p) && among pt lo d i then mul (F i p) (pm Q') else F i j).
    { clear i j Hij. intros i j _. unfold F3, right_F, left_F, set2. rewrite !(bl_perm_left o a law), !(bl_perm_right o a law).
      destruct (Nat.eqb_spec i p) as [->|Hi]; cbn [andb].
      - destruct (Nat.eqb_spec j p) as [->|Hj]; cbn [andb].
        + rewrite Nat.ltb_irrefl. reflexivity.
        + destruct (Nat.ltb_spec j p), (Nat.ltb_spec p j); try lia; cbn [andb]; reflexivity.
      - destruct (Nat.eqb_spec j p) as [->|Hj]; cbn [andb]; reflexivity. }
    rewrite !(bl_perm_right o a law).
    destruct (Nat.eqb_spec i p) as [->|Hi].
    + rewrite Nat.ltb_irrefl. cbn [andb]. rewrite E3 by auto. rewrite Nat.eqb_refl.
      destruct (Nat.eqb_spec j p) as [->|Hj]; [reflexivity|]. destruct (Nat.ltb_spec j p).
      * now rewrite AL.
      * rewrite AR; [reflexivity|auto|lia].
    + rewrite Nat.eqb_refl. destruct (Nat.eqb_spec j p) as [->|Hj].
      * rewrite !E3 by auto. rewrite Nat.eqb_refl. destruct (Nat.eqb_spec i p); [lia|].
        destruct (Nat.ltb_spec p i), (Nat.ltb_spec i p); try lia; cbn [andb].
        { rewrite AR; [|apply SY; auto|lia]. reflexivity. }
        { rewrite AL; [|apply SY; auto|lia]. reflexivity. }
      * destruct (Nat.ltb_spec p i) as [Hpi|Hpi]; cbn [andb].
        { rewrite !E3 by auto. rewrite Nat.eqb_refl. destruct (Nat.eqb_spec i p); [lia|]. destruct (Nat.eqb_spec j p); [lia|]. cbn [andb].
          destruct (Nat.ltb_spec i p); [lia|]. cbn [andb]. destruct (Nat.ltb_spec p j) as [Hpj|Hpj]; cbn [andb].
          - destruct (Nat.ltb_spec j p); [lia|]. destruct (among pt (S d) hi i) eqn:Ai.
            + destruct (among pt (S d) hi j) eqn:Aj; [reflexivity|].
              assert (E0 : F p j = zero). { apply H0. intros Hh. rewrite (AR j Hh Hpj) in Aj. discriminate. }
              rewrite E0, mul_0, (bl_solve_lower_0 o a law _ _ _ _ _ Ef), mul_0, (bl_sub o a law).
              assert (Eo : opp zero = zero) by (rewrite <- (zero_l (opp zero)); apply (bl_opp o a law)). now rewrite Eo, (bl_zero o a law).
            + assert (E0 : F i p = zero). { apply H0. intros Hh. rewrite (AR i (SY _ _ Hh) Hpi) in Ai. discriminate. }
              rewrite E0, mul_0_l, (bl_solve_right_upper_0 o a law _ _ _ _ _ Ef), mul_0_l, (bl_sub o a law).
              assert (Eo : opp zero = zero) by (rewrite <- (zero_l (opp zero)); apply (bl_opp o a law)). now rewrite Eo, (bl_zero o a law).
          - destruct (among pt (S d) hi i); reflexivity. }
        { rewrite E3 by auto. destruct (Nat.eqb_spec i p); [lia|]. destruct (Nat.eqb_spec j p); [lia|]. reflexivity. }
  - revert HP5. apply pos_ext. intros i j Hij. rewrite Hcp. unfold elim_c, left_c.
    destruct (Nat.eqb_spec i p) as [->|Hi]; [tauto|]. destruct (Nat.eq_dec j p) as [->|Hj].
    + destruct (Nat.ltb_spec p i), (Nat.ltb_spec i p); try lia; cbn [andb].
      * rewrite AR; [tauto|auto|lia].
      * rewrite AL; [tauto|auto|lia].
    + destruct (Nat.ltb_spec p i), (Nat.ltb_spec i p); try lia; cbn [andb]; destruct (among _ _ _ _); lia.
  - now rewrite upd_length.
  - exact (next_outside p lu P Q' F (F p p) b Ef Hp H0).
Qed.

(** ** all pivots *)
Definition left_of (perm : list (Q * Q)) (p i : nat) (x : T) : T :=
  if i <? p then match nth_error perm i with Some pq => mul (pm (fst pq)) x | None => x end else x.
Definition right_of (perm : list (Q * Q)) (p j : nat) (x : T) : T :=
  if j <? p then match nth_error perm j with Some pq => mul x (pm (snd pq)) | None => x end else x.
Definition accepted (lu : T) : Prop := exists x p q b, b_factor o x = Some (lu, p, q, b).
Definition fact_inv (A : nat -> nat -> T) (p : nat) (s : lu_state T Q) : Prop := exists F, lu_inv p s F /\
  (forall i, i < p -> accepted (F i i)) /\ (lu_perturbed s = true -> exists x lu P Q', b_factor o x = Some (lu, P, Q', true)) /\
  (lu_perturbed s = false -> forall i j, i < n -> j < n ->
    left_of (lu_perm s) p i (right_of (lu_perm s) p j (A i j)) =
      add (sumT p (fun k => mul (lower a F i k) (upper a F k j))) (if (p <=? i) && (p <=? j) then F i j else zero)).

Lemma fact_step A p s : p < n -> fact_inv A p s -> pivot_step o pt p s = Singular \/ exists s', pivot_step o pt p s = Done s' /\ fact_inv A (S p) s'.
Proof.
  intros Hp (F & HI & Hacc & HT & HA). destruct (pivot_step_spec p s F Hp HI) as [[_ E]|(lu & P & Q' & b & s' & Ef & E & Hperm & Hpert & HI')]; [now left|right].
  exists s'. split; auto. exists (next p lu P Q' F). split; [exact HI'|].
  assert (Hlen : length (lu_perm s) = n) by apply HI.
  assert (Hpp : next p lu P Q' F p p = lu) by (unfold next; now rewrite Nat.eqb_refl). split; [|split].
  - intros i Hi. destruct (Nat.eq_dec i p) as [->|Hn]; [rewrite Hpp; exists (F p p), P, Q', b; exact Ef|].
    replace (next p lu P Q' F i i) with (F i i); [apply Hacc; lia|]. unfold next.
    destruct (Nat.eqb_spec i p); [lia|]. destruct (Nat.ltb_spec p i); [lia|]. reflexivity.
  - rewrite Hpert. intros Hb. apply orb_true_iff in Hb as [Hb| ->]; [auto|]. eauto.
  - rewrite Hpert. intros Hb. apply orb_false_iff in Hb as [Hb1 ->]. specialize (HA Hb1). intros i j Hi Hj. specialize (HA i j Hi Hj).
    set (F' := next p lu P Q' F) in *.
    set (pl := fun x => if i =? p then mul (pm P) x else x). set (pr := fun x => if j =? p then mul x (pm Q') else x).
    assert (EL : left_of (lu_perm s') (S p) i (right_of (lu_perm s') (S p) j (A i j)) = pl (pr (left_of (lu_perm s) p i (right_of (lu_perm s) p j (A i j))))).
    { unfold left_of, right_of, pl, pr. rewrite Hperm.
      assert (X : forall k, (k = p -> nth_error (upd p (P, Q') (lu_perm s)) k = Some (P, Q')) /\ (k <> p -> nth_error (upd p (P, Q') (lu_perm s)) k = nth_error (lu_perm s) k)).
      { intros k. split; [intros ->; apply nth_error_upd_eq; lia|intros Hn; apply nth_error_upd_neq; auto]. }
      destruct (Nat.eq_dec i p) as [->|Hip].
      - rewrite (proj1 (X p) eq_refl). destruct (Nat.ltb_spec p (S p)); [|lia]. rewrite !Nat.ltb_irrefl, !Nat.eqb_refl. cbn [fst]. destruct (Nat.eq_dec j p) as [->|Hjp].
        + rewrite (proj1 (X p) eq_refl). rewrite !Nat.ltb_irrefl, !Nat.eqb_refl. destruct (Nat.ltb_spec p (S p)); [|lia]. reflexivity.
        + rewrite (proj2 (X j) Hjp). destruct (Nat.eqb_spec j p); [lia|]. destruct (Nat.ltb_spec j (S p)), (Nat.ltb_spec j p); try lia; reflexivity.
      - rewrite (proj2 (X i) Hip). destruct (Nat.eqb_spec i p); [lia|].
        assert (Ei : (i <? S p) = (i <? p)) by (destruct (Nat.ltb_spec i (S p)), (Nat.ltb_spec i p); auto; lia). rewrite Ei.
        destruct (Nat.eq_dec j p) as [->|Hjp].
        + rewrite (proj1 (X p) eq_refl). rewrite !Nat.ltb_irrefl, !Nat.eqb_refl. destruct (Nat.ltb_spec p (S p)); [|lia]. cbn [snd].
          destruct (i <? p); [|reflexivity]. destruct (nth_error (lu_perm s) i); [|reflexivity]. apply (bl_mul_assoc o a law).
        + rewrite (proj2 (X j) Hjp). destruct (Nat.eqb_spec j p); [lia|].
          assert (Ej : (j <? S p) = (j <? p)) by (destruct (Nat.ltb_spec j (S p)), (Nat.ltb_spec j p); auto; lia). now rewrite Ej. }
    rewrite EL, HA. clear EL HA.
    assert (Hpr : forall x y, pr (add x y) = add (pr x) (pr y)) by (intros x y; unfold pr; destruct (j =? p); auto; apply (bl_add_mul o a law)).
    assert (Hpl : forall x y, pl (add x y) = add (pl x) (pl y)) by (intros x y; unfold pl; destruct (i =? p); auto; apply (bl_mul_add o a law)).
    assert (Hpr0 : pr zero = zero) by (unfold pr; destruct (j =? p); auto; apply mul_0_l).
    assert (Hpl0 : pl zero = zero) by (unfold pl; destruct (i =? p); auto; apply mul_0).
    rewrite Hpr, Hpl. cbn [sum_n]. rewrite <- (bl_assoc o a law). f_equal.
    + rewrite (sum_hom add zero add zero pr) by auto. rewrite (sum_hom add zero add zero pl) by auto. apply sum_ext. intros k Hk.
      assert (ELk : lower a F' i k = pl (lower a F i k)).
      { unfold lower, pl, F', next. destruct (Nat.eqb_spec i p) as [->|Hip].
        - destruct (Nat.ltb_spec k p); [|lia]. destruct (Nat.eqb_spec k p); [lia|]. reflexivity.
        - destruct (Nat.ltb_spec k i).
          + destruct (Nat.eqb_spec k p); [lia|]. destruct (Nat.ltb_spec p k); [lia|]. now rewrite andb_false_r.
          + destruct (Nat.eqb_spec k i) as [->|]; [|reflexivity]. destruct (Nat.ltb_spec p i); [lia|]. reflexivity. }
      assert (EUk : upper a F' k j = pr (upper a F k j)).
      { unfold upper, pr, F', next. destruct (Nat.eqb_spec k p); [lia|]. destruct (Nat.eqb_spec j p) as [->|Hjp].
        - destruct (Nat.ltb_spec k p); [|lia]. reflexivity.
        - destruct (Nat.ltb_spec p k); [lia|]. cbn [andb]. destruct (Nat.ltb_spec k j); auto. destruct (Nat.eqb_spec k j) as [->|]; auto.
          destruct (Nat.ltb_spec p j); [lia|]. reflexivity. }
      rewrite ELk, EUk. unfold pl, pr. destruct (i =? p), (j =? p); rewrite ?(bl_mul_assoc o a law); auto.
    + unfold lower, upper.
      assert (NX : F' i j = next p lu P Q' F i j) by reflexivity. unfold pl, pr.
      destruct (Nat.lt_trichotomy i p) as [Hip|[->|Hip]].
      * destruct (Nat.leb_spec p i); [lia|]. destruct (Nat.leb_spec (S p) i); [lia|]. cbn [andb].
        destruct (Nat.ltb_spec p i); [lia|]. destruct (Nat.eqb_spec p i); [lia|]. destruct (Nat.eqb_spec i p); [lia|].
        transitivity (a_0 a); [destruct (j =? p); auto using mul_0_l|now rewrite mul_0_l, zero_l].
      * rewrite Nat.leb_refl, Nat.ltb_irrefl, !Nat.eqb_refl. destruct (Nat.leb_spec (S p) p); [lia|]. cbn [andb]. rewrite Hpp, (bl_zero o a law).
        destruct (Nat.lt_trichotomy j p) as [Hjp|[->|Hjp]].
        { destruct (Nat.leb_spec p j); [lia|]. destruct (Nat.ltb_spec p j); [lia|]. destruct (Nat.eqb_spec p j); [lia|]. destruct (Nat.eqb_spec j p); [lia|]. now rewrite !mul_0. }
        { rewrite Nat.leb_refl, Nat.ltb_irrefl, !Nat.eqb_refl. rewrite Hpp, (bl_mul_assoc o a law). exact (bl_factor o a law _ _ _ _ Ef). }
        { destruct (Nat.leb_spec p j); [|lia]. destruct (Nat.ltb_spec p j); [|lia]. destruct (Nat.eqb_spec j p); [lia|].
          unfold F', next. rewrite Nat.eqb_refl. destruct (Nat.eqb_spec j p); [lia|]. destruct (Nat.ltb_spec j p); [lia|].
          symmetry. exact (bl_solve_lower o a law _ _ _ _ _ Ef _). }
      * destruct (Nat.leb_spec p i); [|lia]. destruct (Nat.leb_spec (S p) i); [|lia]. destruct (Nat.ltb_spec p i); [|lia]. destruct (Nat.eqb_spec i p); [lia|]. cbn [andb].
        destruct (Nat.lt_trichotomy j p) as [Hjp|[->|Hjp]].
        { destruct (Nat.leb_spec p j); [lia|]. destruct (Nat.leb_spec (S p) j); [lia|]. destruct (Nat.ltb_spec p j); [lia|]. destruct (Nat.eqb_spec p j); [lia|].
          destruct (Nat.eqb_spec j p); [lia|]. now rewrite mul_0, zero_l. }
        { rewrite Nat.leb_refl, Nat.ltb_irrefl, !Nat.eqb_refl. destruct (Nat.leb_spec (S p) p); [lia|]. rewrite Hpp, (bl_zero o a law).
          unfold F', next. rewrite Nat.eqb_refl. destruct (Nat.eqb_spec i p); [lia|]. destruct (Nat.ltb_spec i p); [lia|].
          symmetry. exact (bl_solve_right_upper o a law _ _ _ _ _ Ef _). }
        { destruct (Nat.leb_spec p j); [|lia]. destruct (Nat.leb_spec (S p) j); [|lia]. destruct (Nat.ltb_spec p j); [|lia]. destruct (Nat.eqb_spec j p); [lia|].
          unfold F', next. rewrite !Nat.eqb_refl. destruct (Nat.eqb_spec i p); [lia|]. destruct (Nat.eqb_spec j p); [lia|].
          destruct (Nat.ltb_spec i p); [lia|]. destruct (Nat.ltb_spec j p); [lia|]. destruct (Nat.ltb_spec p i); [|lia]. destruct (Nat.ltb_spec p j); [|lia]. cbn [andb].
          symmetry. apply sub_add. }
Qed.

Lemma fact_start data perm0 A : is_matrix pt zero data A -> length perm0 = n -> fact_inv A 0 (mkLu data perm0 (firstn n (indptr pt)) false).
Proof.
  intros (HL & HA & H0) Hperm. exists A. refine (conj _ (conj _ (conj _ _))).
  + unfold lu_inv. cbn [lu_data lu_pos lu_perm]. refine (conj (conj HL HA) (conj _ (conj Hperm H0))). split.
    * rewrite firstn_length, (csr_length _ _ _ C). lia.
    * intros i Hi. destruct (ip_get _ _ _ C i) as [lo Hlo]; [lia|]. destruct (ip_get _ _ _ C (S i)) as [hi Hhi]; [lia|].
      exists lo, lo, hi. rewrite nth_firstn_lt by auto. refine (conj Hlo (conj Hlo (conj Hhi (conj _ _)))).
      { pose proof (ip_sorted _ _ _ C i (S i) lo hi). split; auto. }
      intros e j (_ & lo' & hi' & Hl & _ & Hr). assert (lo' = lo) by congruence. subst. lia.
  + intros i Hi. lia.
  + discriminate.
  + intros _ i j Hi Hj. unfold left_of, right_of. cbn [sum_n Nat.ltb Nat.leb andb]. now rewrite zero_l.
Qed.
Lemma factorised data perm0 A : is_matrix pt zero data A -> length perm0 = n ->
  prefactorize o pt data perm0 = Singular \/ exists s, prefactorize o pt data perm0 = Done s /\ fact_inv A n s.
Proof.
  intros HA Hperm. unfold prefactorize. rewrite (size_n n pt ok).
  apply (for_range_inv_or (fun p s => fact_inv A p s)); [lia|now apply fact_start|].
  intros p s Hp HI. apply fact_step; [lia|auto].
Qed.
Lemma refused data perm0 A : is_matrix pt zero data A -> length perm0 = n -> (forall x lu P Q', b_factor o x <> Some (lu, P, Q', true)) ->
  prefactorize o pt data perm0 = Singular ->
  exists p perm F, p < n /\ length perm = n /\ b_factor o (F p p) = None /\ (forall i, i < p -> accepted (F i i)) /\
  (forall i j, i < n -> j < n -> left_of perm p i (right_of perm p j (A i j)) =
      add (sumT p (fun k => mul (lower a F i k) (upper a F k j))) (if (p <=? i) && (p <=? j) then F i j else zero)).
Proof.
  intros HA Hperm Hnt. unfold prefactorize. rewrite (size_n n pt ok). intros E.
  destruct (for_range_stop (fun p s => fact_inv A p s) 0 n (pivot_step o pt) (mkLu data perm0 (firstn n (indptr pt)) false)) as (p & s & Hp & (F & HI & Hacc & HT & HE) & Es);
    [lia|now apply fact_start| |exact E|].
  { intros p s Hp HI. apply fact_step; [lia|auto]. }
  exists p, (lu_perm s), F. refine (conj _ (conj _ (conj _ (conj Hacc _)))); [lia|apply HI| |].
  - destruct (pivot_step_spec p s F) as [[Hn _]|(lu & P & Q' & b & s' & _ & Ed & _)]; [lia|exact HI|exact Hn|]. congruence.
  - apply HE. destruct (lu_perturbed s); auto. destruct HT as (x & lu & P & Q' & Hx); auto. exfalso. exact (Hnt _ _ _ _ Hx).
Qed.

(** ** substitution *)
Lemma rev_range_inv {S} (I : nat -> S -> Prop) (body : nat -> S -> res S) m : forall s, I m s ->
  (forall i s, i < m -> I (Datatypes.S i) s -> exists s', body i s = Done s' /\ I i s') ->
  exists s', fold_left (fun r i => bind r (body i)) (rev (seq 0 m)) (Done s) = Done s' /\ I 0 s'.
Proof.
  induction m as [|m IH]; intros s H0 HS; [exists s; auto|]. rewrite seq_S, rev_app_distr. cbn [rev app plus fold_left bind].
  destruct (HS m s) as (s1 & E1 & H1); [lia|auto|]. rewrite E1. apply IH; auto.
Qed.

Notation val x k := (nth k x vzero).
Lemma get_val (x : list V) k : k < length x -> get x k = Done (val x k).
Proof. intros H. apply get_Some. destruct (nth_error x k) as [v|] eqn:E; [now rewrite (nth_error_nth _ _ _ E)|apply nth_error_None in E; lia]. Qed.
Lemma val_upd (x : list V) k v j : k < length x -> val (upd k v x) j = if j =? k then v else val x j.
Proof.
  intros H. destruct (Nat.eqb_spec j k) as [->|Hn].
  - apply nth_error_nth. now apply nth_error_upd_eq.
  - destruct (nth_error x j) as [w|] eqn:E.
    + rewrite (nth_error_nth x j vzero E). apply nth_error_nth. rewrite nth_error_upd_neq by auto. exact E.
    + rewrite !nth_overflow; auto; [apply nth_error_None; auto|rewrite upd_length; apply nth_error_None; auto].
Qed.

Definition row_body (data : list T) (c : nat -> bool) (x : list V) (e : nat) (v : V) : res V :=
  do j <- get (cols pt) e; do _ <- check (c j); do l <- get data e; do xc <- get x j; Done (b_vsub o v (b_act o l xc)).
Definition in_cols (l : list nat) (m : nat) : bool := existsb (fun e => nth e (cols pt) 0 =? m) l.
Lemma row_fold data F x row c : holds pt data F -> length x = n -> forall l v,
  (forall e, In e l -> exists j, at_ e row j /\ c j = true) -> NoDup l ->
  exists v', fold_left (fun r e => bind r (row_body data c x e)) l (Done v) = Done v' /\
    vadd (sumV n (fun m => if in_cols l m then act (F row m) (val x m) else vzero)) v' = v.
Proof.
  intros HF Hx. induction l as [|e l IH]; intros v Hl Hnd.
  - exists v. split; [reflexivity|]. rewrite (sum_0 vadd vzero (bl_vzero o a law)); [apply vzero_l|]. auto.
  - apply NoDup_cons_iff in Hnd as [Hni Hnd]. destruct (Hl e) as (j & Hat & Hc); [now left|].
    pose proof (at_col _ _ _ C _ _ _ Hat) as Hjn. pose proof Hat as (Hcol & _).
    cbn [fold_left bind]. unfold row_body at 2. rewrite (get_Some _ _ _ Hcol). cbn [bind]. rewrite Hc. cbn [check bind].
    rewrite (holds_get _ _ _ _ _ _ HF Hat). cbn [bind]. rewrite get_val by lia. cbn [bind].
    destruct (IH (b_vsub o v (act (F row j) (val x j)))) as (v' & Ev & Es); [intros e' He'; apply Hl; now right|auto|].
    exists v'. split; [exact Ev|].
    rewrite (sum_one vadd vzero (bl_vcomm o a law) (bl_vassoc o a law) (bl_vzero o a law) n
      (fun m => if in_cols l m then act (F row m) (val x m) else vzero) _ j (act (F row j) (val x j))).
    + rewrite <- (bl_vassoc o a law), (bl_vcomm o a law _ v'), (bl_vassoc o a law), Es, (bl_vcomm o a law). apply vsub_add.
    + auto.
    + unfold in_cols. cbn [existsb]. rewrite (nth_error_nth _ _ 0 Hcol), Nat.eqb_refl. cbn [orb].
      assert (E : in_cols l j = false).
      { unfold in_cols. destruct (existsb _ l) eqn:E; auto. exfalso. apply existsb_exists in E as (e' & He' & Hj). apply Nat.eqb_eq in Hj.
        destruct (Hl e') as (j' & Hat' & _); [now right|]. pose proof Hat' as (Hcol' & _). rewrite (nth_error_nth _ _ 0 Hcol') in Hj. subst j'.
        apply Hni. now rewrite (at_inj _ _ _ C _ _ _ _ Hat Hat'). }
      unfold in_cols in E. rewrite E. now rewrite vzero_l.
    + intros k Hk Hkj. unfold in_cols. cbn [existsb]. rewrite (nth_error_nth _ _ 0 Hcol). destruct (Nat.eqb_spec j k); [lia|]. reflexivity.
Qed.
Lemma row_sum data F x row c l v : holds pt data F -> zero_outside F -> length x = n -> NoDup l ->
  (forall e, In e l <-> exists j, at_ e row j /\ c j = true) ->
  exists v', fold_left (fun r e => bind r (row_body data c x e)) l (Done v) = Done v' /\
    vadd (sumV n (fun m => if c m then act (F row m) (val x m) else vzero)) v' = v.
Proof.
  intros HF H0 Hx Hnd Hl. destruct (row_fold data F x row c HF Hx l v) as (v' & Ev & Es); auto.
  { intros e He. now apply Hl. }
  exists v'. split; [exact Ev|]. rewrite <- Es. f_equal. apply sum_ext. intros m Hm.
  destruct (in_cols l m) eqn:Ei.
  - apply existsb_exists in Ei as (e & He & Hj). apply Nat.eqb_eq in Hj. apply Hl in He as (j & Hat & Hc). pose proof Hat as (Hcol & _).
    rewrite (nth_error_nth _ _ 0 Hcol) in Hj. subst. now rewrite Hc.
  - destruct (c m) eqn:Ec; [|reflexivity]. rewrite H0; [apply act_0|]. intros [e He].
    assert (HX : in_cols l m = true); [|congruence]. apply existsb_exists. exists e. split; [apply Hl; eauto|].
    pose proof He as (Hcol & _). rewrite (nth_error_nth _ _ 0 Hcol). apply Nat.eqb_refl.
Qed.

Section Solve.
Variables (data : list T) (perm : list (Q * Q)) (F : nat -> nat -> T) (rhs : list V).
Hypothesis HF : holds pt data F.
Hypothesis H0 : zero_outside F.
Hypothesis Hperm : length perm = n.
Hypothesis Hacc : forall i, i < n -> accepted (F i i).
Hypothesis Hrhs : length rhs = n.

(** the row of L times y, the row of U times z *)
Definition L_row (y : nat -> V) (i : nat) : V := vadd (sumV n (fun m => if m <? i then act (F i m) (y m) else vzero)) (act (a_lo a (F i i)) (y i)).
Definition U_row (z : nat -> V) (i : nat) : V := vadd (sumV n (fun m => if i <? m then act (F i m) (z m) else vzero)) (act (a_up a (F i i)) (z i)).
Definition perm_rhs (i : nat) : V := match nth_error perm i with Some pq => act (pm (fst pq)) (val rhs i) | None => vzero end.

Lemma forward_ok x0 : length x0 = n -> exists y, for_range 0 n (forward_row o pt data perm rhs) x0 = Done y /\ length y = n /\
  forall i, i < n -> L_row (fun k => val y k) i = perm_rhs i.
Proof.
  intros Hx0. destruct (for_range_inv (fun r x => length x = n /\ forall i, i < r -> L_row (fun k => val x k) i = perm_rhs i) 0 n (forward_row o pt data perm rhs) x0)
    as (y & E & Hl & HL); [lia| | |eauto].
  - split; [auto|]. intros i Hi. lia.
  - intros r x Hr (Hl & HL). destruct (diag_at n pt ok r) as (d & Hd & Hat); [lia|].
    destruct (nth_error perm r) as [pq|] eqn:Ep; [|apply nth_error_None in Ep; lia].
    destruct (ip_get _ _ _ C r) as [lo Hlo]; [lia|]. destruct (ip_get _ _ _ C (S r)) as [hi Hhi]; [lia|].
    unfold forward_row. rewrite (get_Some _ _ _ Ep). cbn [bind]. rewrite get_val by lia. cbn [bind].
    rewrite (get_Some _ _ _ Hlo), (get_Some _ _ _ Hd). cbn [bind].
    destruct (row_sum data F x r (fun m => m <? r) (seq lo (d - lo)) (b_perm_v o (fst pq) (val rhs r)) HF H0 Hl (seq_NoDup _ _)) as (v & Ev & Es).
    { intros e. rewrite in_seq. pose proof (row_p_range pt r lo hi Hlo Hhi d r Hat) as Hdr. split.
      - intros He. destruct (row_p n pt ok r lo hi Hlo Hhi e) as (j & Hat' & _); [lia|]. exists j. split; auto. apply Nat.ltb_lt.
        apply (left_at n pt ok r d Hat e j Hat'). lia.
      - intros (j & Hat' & Hj). apply Nat.ltb_lt in Hj. apply (left_at n pt ok r d Hat e j Hat') in Hj.
        pose proof (row_p_range pt r lo hi Hlo Hhi e j Hat'). lia. }
    change (for_range lo d _ (b_perm_v o (fst pq) (val rhs r))) with
      (fold_left (fun r0 e => bind r0 (row_body data (fun m => m <? r) x e)) (seq lo (d - lo)) (Done (b_perm_v o (fst pq) (val rhs r)))).
    rewrite Ev. cbn [bind]. rewrite (holds_get _ _ _ _ _ _ HF Hat). cbn [bind]. rewrite put_lt by lia. eexists. split; [reflexivity|].
    split; [now rewrite upd_length|]. intros i Hi. unfold L_row.
    rewrite (sum_ext vadd vzero n _ (fun m => if m <? i then act (F i m) (val x m) else vzero)).
    + rewrite val_upd by lia. destruct (Nat.eqb_spec i r) as [->|Hn].
      * destruct (Hacc r) as (xx & p & q & b & Ea); [lia|]. rewrite (bl_solve_lower_v o a law _ _ _ _ _ Ea). rewrite Es.
        unfold perm_rhs. rewrite Ep. apply (bl_perm_v o a law).
      * apply HL. lia.
    + intros m Hm. destruct (Nat.ltb_spec m i); [|reflexivity]. rewrite val_upd by lia. destruct (Nat.eqb_spec m r); [lia|]. reflexivity.
Qed.

Lemma backward_ok y : length y = n -> exists z, fold_left (fun r row => bind r (backward_row o pt data row)) (rev (seq 0 n)) (Done y) = Done z /\ length z = n /\
  forall i, i < n -> U_row (fun k => val z k) i = val y i.
Proof.
  intros Hy. destruct (rev_range_inv (fun r x => length x = n /\ (forall i, i < r -> val x i = val y i) /\ forall i, r <= i < n -> U_row (fun k => val x k) i = val y i)
    (backward_row o pt data) n y) as (z & E & Hl & _ & HU).
  - split; [auto|]. split; [auto|]. intros i Hi. lia.
  - intros r x Hr (Hl & Heq & HU). destruct (diag_at n pt ok r) as (d & Hd & Hat); [lia|].
    destruct (ip_get _ _ _ C r) as [lo Hlo]; [lia|]. destruct (ip_get _ _ _ C (S r)) as [hi Hhi]; [lia|].
    unfold backward_row. rewrite (get_Some _ _ _ Hd), (get_Some _ _ _ Hhi). cbn [bind]. rewrite get_val by lia. cbn [bind].
    destruct (row_sum data F x r (fun m => r <? m) (rev (seq (S d) (hi - S d))) (val x r) HF H0 Hl (NoDup_rev (seq_NoDup _ _))) as (v & Ev & Es).
    { intros e. rewrite <- in_rev, in_seq. pose proof (row_p_range pt r lo hi Hlo Hhi d r Hat) as Hdr. split.
      - intros He. destruct (row_p n pt ok r lo hi Hlo Hhi e) as (j & Hat' & _); [lia|]. exists j. split; auto. apply Nat.ltb_lt.
        apply (right_at n pt ok r d Hat e j Hat'). lia.
      - intros (j & Hat' & Hj). apply Nat.ltb_lt in Hj. apply (right_at n pt ok r d Hat e j Hat') in Hj.
        pose proof (row_p_range pt r lo hi Hlo Hhi e j Hat'). lia. }
    match goal with |- context [fold_left ?f (rev (seq (S d) (hi - S d))) (Done (val x r))] => 
      change (fold_left f (rev (seq (S d) (hi - S d))) (Done (val x r))) with
      (fold_left (fun r0 e => bind r0 (row_body data (fun m => r <? m) x e)) (rev (seq (S d) (hi - S d))) (Done (val x r))) end.
    rewrite Ev. cbn [bind]. rewrite (holds_get _ _ _ _ _ _ HF Hat). cbn [bind]. rewrite put_lt by lia. eexists. split; [reflexivity|].
    refine (conj _ (conj _ _)).
    + now rewrite upd_length.
    + intros i Hi. rewrite val_upd by lia. destruct (Nat.eqb_spec i r); [lia|]. apply Heq. lia.
    + intros i Hi. unfold U_row. rewrite (sum_ext vadd vzero n _ (fun m => if i <? m then act (F i m) (val x m) else vzero)).
      * rewrite val_upd by lia. destruct (Nat.eqb_spec i r) as [->|Hn].
        { destruct (Hacc r) as (xx & p & q & b & Ea); [lia|]. rewrite (bl_solve_upper_v o a law _ _ _ _ _ Ea). rewrite Es. apply Heq. lia. }
        { apply HU. lia. }
      * intros m Hm. destruct (Nat.ltb_spec i m); [|reflexivity]. rewrite val_upd by lia. destruct (Nat.eqb_spec m r); [lia|]. reflexivity.
  - exists z. split; [auto|]. split; [auto|]. intros i Hi. apply HU. lia.
Qed.

Lemma restore_ok z : length z = n -> exists x, for_range 0 n (restore_row o perm) z = Done x /\ length x = n /\
  forall i pq, nth_error perm i = Some pq -> val x i = act (pm (snd pq)) (val z i).
Proof.
  intros Hz. destruct (for_range_inv (fun r x => length x = n /\ forall i pq, nth_error perm i = Some pq ->
      val x i = if i <? r then act (pm (snd pq)) (val z i) else val z i) 0 n (restore_row o perm) z)
    as (x & E & Hl & HR); [lia| | |].
  - split; [auto|]. intros i pq Hi. reflexivity.
  - intros r x Hr (Hl & HR). destruct (nth_error perm r) as [pq|] eqn:Ep; [|apply nth_error_None in Ep; lia].
    unfold restore_row. rewrite (get_Some _ _ _ Ep). cbn [bind]. rewrite get_val by lia. cbn [bind]. rewrite put_lt by lia. eexists. split; [reflexivity|].
    split; [now rewrite upd_length|]. intros i pq' Hi. rewrite val_upd by lia. destruct (Nat.eqb_spec i r) as [->|Hn].
    + destruct (Nat.ltb_spec r (S r)); [|lia]. assert (pq' = pq) by congruence. subst. rewrite (bl_perm_v o a law), (HR r pq Ep), Nat.ltb_irrefl. reflexivity.
    + rewrite (HR i pq' Hi). destruct (Nat.ltb_spec i r), (Nat.ltb_spec i (S r)); try lia; reflexivity.
  - exists x. split; [auto|]. split; [auto|]. intros i pq Hi. rewrite (HR i pq Hi).
    assert (i < length perm) by (apply nth_error_Some; congruence). destruct (Nat.ltb_spec i n); [reflexivity|lia].
Qed.

Lemma L_row_sum y i : i < n -> L_row y i = sumV n (fun k => act (lower a F i k) (y k)).
Proof.
  intros Hi. unfold L_row. symmetry. apply (sum_one vadd vzero (bl_vcomm o a law) (bl_vassoc o a law) (bl_vzero o a law) n _ _ i).
  - auto.
  - unfold lower. rewrite Nat.ltb_irrefl, Nat.eqb_refl. now rewrite vzero_l.
  - intros k Hk Hn. unfold lower. destruct (k <? i); auto. destruct (Nat.eqb_spec k i); [lia|]. apply act_0.
Qed.
Lemma U_row_sum z i : i < n -> U_row z i = sumV n (fun k => act (upper a F i k) (z k)).
Proof.
  intros Hi. unfold U_row. symmetry. apply (sum_one vadd vzero (bl_vcomm o a law) (bl_vassoc o a law) (bl_vzero o a law) n _ _ i).
  - auto.
  - unfold upper. rewrite Nat.ltb_irrefl, Nat.eqb_refl. now rewrite vzero_l.
  - intros k Hk Hn. unfold upper. destruct (i <? k); auto. destruct (Nat.eqb_spec i k); [lia|]. apply act_0.
Qed.
Lemma act_sum x m f : act x (sumV m f) = sumV m (fun k => act x (f k)).
Proof. apply (sum_hom vadd vzero vadd vzero (act x)); [apply (bl_act_add o a law)|apply act_v0]. Qed.
Lemma sum_act v m f : act (sumT m f) v = sumV m (fun k => act (f k) v).
Proof. apply (sum_hom add zero vadd vzero (fun x => act x v)); [intros x y; apply (bl_add_act o a law)|apply act_0]. Qed.

Lemma solve_once_ok x0 : length x0 = n -> exists x, solve_once o pt data perm rhs x0 = Done x /\ length x = n /\
  forall A, (forall i j pi pj, nth_error perm i = Some pi -> nth_error perm j = Some pj ->
    mul (mul (pm (fst pi)) (A i j)) (pm (snd pj)) = sumT n (fun k => mul (lower a F i k) (upper a F k j))) ->
  forall i, i < n -> sumV n (fun j => act (A i j) (val x j)) = val rhs i.
Proof.
  intros Hx0. destruct (forward_ok x0 Hx0) as (y & Ey & Hy & HL). destruct (backward_ok y Hy) as (z & Ez & Hz & HU). destruct (restore_ok z Hz) as (x & Ex & Hx & HR).
  exists x. refine (conj _ (conj Hx _)).
  { unfold solve_once. rewrite (size_n n pt ok), Ey. cbn [bind]. rewrite Ez. cbn [bind]. exact Ex. }
  intros A HA i Hi. destruct (nth_error perm i) as [pi|] eqn:Ei; [|apply nth_error_None in Ei; lia].
  apply (bl_perm_cancel o a law (fst pi)). specialize (HL i Hi). unfold perm_rhs in HL. rewrite Ei in HL. rewrite <- HL. clear HL.
  rewrite L_row_sum by auto. rewrite act_sum.
  rewrite (sum_ext vadd vzero n _ (fun j => sumV n (fun k => act (lower a F i k) (act (upper a F k j) (val z j))))).
  - rewrite sum_swap by (apply law). apply sum_ext. intros k Hk. rewrite <- act_sum. f_equal. rewrite <- U_row_sum by auto. now apply HU.
  - intros j Hj. destruct (nth_error perm j) as [pj|] eqn:Ej; [|apply nth_error_None in Ej; lia].
    rewrite (HR j pj Ej), <- !(bl_act_mul o a law), (HA i j pi pj Ei Ej), sum_act. apply sum_ext. intros k _. apply (bl_act_mul o a law).
Qed.
End Solve.

(** ** the residual and refinement *)
Lemma residual_ok orig A rhs x r0 : is_matrix pt zero orig A -> length rhs = n -> length x = n -> length r0 = n ->
  exists r, residual o pt orig rhs x r0 = Done r /\ length r = n /\
    forall i, i < n -> vadd (sumV n (fun j => act (A i j) (val x j))) (val r i) = val rhs i.
Proof.
  intros (HL & HA & H0) Hrhs Hx Hr0. unfold residual. rewrite (size_n n pt ok).
  destruct (for_range_inv (fun k r => length r = n /\ forall i, i < k -> vadd (sumV n (fun j => act (A i j) (val x j))) (val r i) = val rhs i)
    0 n (residual_row o pt orig rhs x) r0) as (r & E & Hl & HR); [lia| | |eauto].
  - split; [auto|]. intros i Hi. lia.
  - intros k r Hk (Hl & HR). destruct (ip_get _ _ _ C k) as [lo Hlo]; [lia|]. destruct (ip_get _ _ _ C (S k)) as [hi Hhi]; [lia|].
    unfold residual_row. rewrite get_val by lia. cbn [bind]. rewrite (get_Some _ _ _ Hlo), (get_Some _ _ _ Hhi). cbn [bind].
    destruct (row_sum orig A x k (fun _ => true) (seq lo (hi - lo)) (val rhs k) (conj HL HA) H0 Hx (seq_NoDup _ _)) as (v & Ev & Es).
    { intros e. rewrite in_seq. pose proof (ip_sorted _ _ _ C k (S k) lo hi ltac:(lia) Hlo Hhi). split.
      - intros He. destruct (row_p n pt ok k lo hi Hlo Hhi e) as (j & Hat' & _); [lia|]. exists j. auto.
      - intros (j & Hat' & _). pose proof (row_p_range pt k lo hi Hlo Hhi e j Hat'). lia. }
    match goal with |- context [for_range lo hi ?f ?b] => change (for_range lo hi f b) with
      (fold_left (fun r0 e => bind r0 (row_body orig (fun _ => true) x e)) (seq lo (hi - lo)) (Done (val rhs k))) end.
    rewrite Ev. cbn [bind]. rewrite put_lt by lia. eexists. split; [reflexivity|]. split; [now rewrite upd_length|].
    intros i Hi. rewrite val_upd by lia. destruct (Nat.eqb_spec i k) as [->|Hn]; [exact Es|]. apply HR. lia.
Qed.

Section Ref.
Context {E : Type} (backward_error : list V -> list V -> E) (small : E -> bool).
Definition vector_sum (x dx : list V) : list V := map (fun ab => vadd (fst ab) (snd ab)) (combine x dx).
Lemma vector_sum_length x dx : length x = n -> length dx = n -> length (vector_sum x dx) = n.
Proof. intros H1 H2. unfold vector_sum. rewrite map_length, combine_length. lia. Qed.
Lemma refine_ok orig A data perm F rhs : is_matrix pt zero orig A -> holds pt data F -> zero_outside F -> length perm = n ->
  (forall i, i < n -> accepted (F i i)) -> length rhs = n -> forall m r dx x, length r = n -> length dx = n -> length x = n ->
  (forall i, i < n -> vadd (sumV n (fun j => act (A i j) (val x j))) (val r i) = val rhs i) ->
  refine o pt vadd backward_error small m orig data perm rhs r dx x = Singular \/
  exists x' dx' xp rp dx0, refine o pt vadd backward_error small m orig data perm rhs r dx x = Done x' /\ length x' = n /\ x' = vector_sum xp dx' /\
    solve_once o pt data perm rp dx0 = Done dx' /\ small (backward_error rp xp) = true /\
    (forall i, i < n -> vadd (sumV n (fun j => act (A i j) (val xp j))) (val rp i) = val rhs i).
Proof.
  intros HA HF H0 Hperm Hacc Hrhs. induction m as [|m IH]; intros r dx x Hr Hdx Hx HR; [now left|]. cbn [refine].
  destruct (solve_once_ok data perm F r HF H0 Hperm Hacc Hr dx Hdx) as (dx' & Edx & Hdx' & _). rewrite Edx. cbn [bind].
  fold (vector_sum x dx'). pose proof (vector_sum_length x dx' Hx Hdx') as Hx'.
  destruct (residual_ok orig A rhs (vector_sum x dx') r HA Hrhs Hx' Hr) as (r' & -> & Hr' & HR'). cbn [bind].
  destruct (small (backward_error r x)) eqn:Es.
  - right. exists (vector_sum x dx'), dx', x, r, dx. auto 10.
  - apply IH; auto.
Qed.
End Ref.
End Props.

(** ** C22 *)
Section C22.
Context {T V Q : Type} (o : block_ops T V Q) (a : block_algebra T V Q) (law : block_laws o a).
Variables (n : nat) (pt : pattern).
Hypothesis ok : pattern_ok n pt.

(** the factorisation never goes outside the pattern; without perturbation the factors multiply to the permuted matrix *)
Theorem C22_factors data perm0 A : is_matrix pt (a_0 a) data A -> length perm0 = n ->
  match prefactorize o pt data perm0 with
  | Ub => False
  | Singular => True
  | Done s => length (lu_perm s) = n /\ exists F, is_matrix pt (a_0 a) (lu_data s) F /\
      (lu_perturbed s = false -> forall i j pi pj, nth_error (lu_perm s) i = Some pi -> nth_error (lu_perm s) j = Some pj ->
        b_mul o (b_mul o (a_pm a (fst pi)) (A i j)) (a_pm a (snd pj)) =
        sum_n (a_add a) (a_0 a) n (fun k => b_mul o (lower a F i k) (upper a F k j)))
  end.
Proof.
  intros HA Hp. destruct (factorised o a law n pt ok data perm0 A HA Hp) as [->|(s & -> & F & ((HL & HF) & _ & HP & H0) & _ & _ & HE)]; [exact I|].
  split; [exact HP|]. exists F. split; [exact (conj HL (conj HF H0))|]. intros Hb i j pi pj Hi Hj.
  assert (i < n) by (rewrite <- HP; apply nth_error_Some; congruence). assert (j < n) by (rewrite <- HP; apply nth_error_Some; congruence).
  specialize (HE Hb i j H H1). unfold left_of, right_of in HE. rewrite Hi, Hj in HE.
  destruct (Nat.ltb_spec i n); [|lia]. destruct (Nat.ltb_spec j n); [|lia]. destruct (Nat.leb_spec n i); [lia|]. cbn [andb] in HE.
  rewrite (bl_zero o a law) in HE. rewrite <- HE. symmetry. apply (bl_mul_assoc o a law).
Qed.

(** a system that is solved without perturbation is solved exactly *)
Theorem C22_solves {E} (be : list V -> list V -> E) small data perm0 A rhs x0 : is_matrix pt (a_0 a) data A -> length perm0 = n -> length rhs = n -> length x0 = n ->
  match prefactorize_and_solve o pt (a_vadd a) (a_v0 a) be small data perm0 rhs x0 with
  | Ub => False
  | Singular => True
  | Done (s, x) => length x = n /\ (lu_perturbed s = false ->
      forall i, i < n -> sum_n (a_vadd a) (a_v0 a) n (fun j => b_act o (A i j) (nth j x (a_v0 a))) = nth i rhs (a_v0 a))
  end.
Proof.
  intros HA Hp Hrhs Hx0. unfold prefactorize_and_solve. pose proof (C22_factors data perm0 A HA Hp) as HC.
  destruct (factorised o a law n pt ok data perm0 A HA Hp) as [->|(s & Es & F & (HF & _ & HP & H0) & Hacc & _ & HE)]; [exact I|].
  rewrite Es in *. cbn [bind]. destruct HC as (_ & F2 & (HL2 & HF2 & H02) & HC). unfold solve_prefactorized. destruct (lu_perturbed s) eqn:Eb.
  - rewrite (size_n n pt ok).
    destruct (refine_ok o a law n pt ok be small data A (lu_data s) (lu_perm s) F rhs HA HF H0 HP Hacc Hrhs (S max_iterative_refinement) rhs (repeat (a_v0 a) n) (repeat (a_v0 a) n)) as [->|H]; auto using repeat_length.
    + intros i Hi. rewrite (sum_0 (a_vadd a) (a_v0 a) (bl_vzero o a law)); [apply (vzero_l o a law)|]. intros k _. rewrite nth_repeat. apply (act_v0 o a law).
    + exact I.
    + destruct H as (x' & dx' & xp & rp & dx0 & -> & Hx' & _). cbn [bind]. split; [exact Hx'|]. intros Hf. congruence.
  - destruct (solve_once_ok o a law n pt ok (lu_data s) (lu_perm s) F2 rhs (conj HL2 HF2) H02 HP) with (x0 := x0) as (x & -> & Hx & HS); auto.
    { intros i Hi. specialize (Hacc i Hi). replace (F2 i i) with (F i i); [exact Hacc|]. destruct (diag_at n pt ok i Hi) as (e & _ & He).
      destruct HF as [_ HF]. pose proof (HF e i i He). pose proof (HF2 e i i He). congruence. }
    cbn [bind]. split; [exact Hx|]. intros _. apply HS. intros i j pi pj. now apply HC.
Qed.

(** without perturbation a matrix is refused only at a block that the block operations refuse, and that block is what the
    elimination of the rows and columns before it leaves of the matrix: the permuted leading part is a product of factors whose last
    block is refused *)
Theorem C22_refused data perm0 A : is_matrix pt (a_0 a) data A -> length perm0 = n -> (forall x lu p q, b_factor o x <> Some (lu, p, q, true)) ->
  prefactorize o pt data perm0 = Singular ->
  exists p perm F, p < n /\ b_factor o (F p p) = None /\
    forall i j, i <= p -> j <= p -> exists P_i Q_j, (i < p -> exists r, nth_error perm i = Some r /\ P_i = (fun x => b_mul o (a_pm a (fst r)) x)) /\ (i = p -> P_i = fun x => x) /\
      (j < p -> exists r, nth_error perm j = Some r /\ Q_j = (fun x => b_mul o x (a_pm a (snd r)))) /\ (j = p -> Q_j = fun x => x) /\
      P_i (Q_j (A i j)) = a_add a (sum_n (a_add a) (a_0 a) p (fun k => b_mul o (lower a F i k) (upper a F k j))) (if (i =? p) && (j =? p) then F p p else a_0 a).
Proof.
  intros HA Hp Hnt E. destruct (refused o a law n pt ok data perm0 A HA Hp Hnt E) as (p & perm & F & Hpn & HL & Hf & _ & HE).
  exists p, perm, F. refine (conj Hpn (conj Hf _)). intros i j Hi Hj. exists (left_of o a perm p i), (right_of o a perm p j).
  assert (X : forall k, k < p -> exists r, nth_error perm k = Some r).
  { intros k Hk. destruct (nth_error perm k) as [r|] eqn:Er; [eauto|]. apply nth_error_None in Er. lia. }
  refine (conj _ (conj _ (conj _ (conj _ _)))).
  - intros Hl. destruct (X i Hl) as [r Hr]. exists r. split; [exact Hr|]. unfold left_of. destruct (Nat.ltb_spec i p); [|lia]. now rewrite Hr.
  - intros ->. unfold left_of. now rewrite Nat.ltb_irrefl.
  - intros Hl. destruct (X j Hl) as [r Hr]. exists r. split; [exact Hr|]. unfold right_of. destruct (Nat.ltb_spec j p); [|lia]. now rewrite Hr.
  - intros ->. unfold right_of. now rewrite Nat.ltb_irrefl.
  - rewrite (HE i j) by lia. f_equal. destruct (Nat.eqb_spec i p) as [->|Hn].
    + rewrite Nat.leb_refl. destruct (Nat.eqb_spec j p) as [->|Hn]; [now rewrite Nat.leb_refl|]. destruct (Nat.leb_spec p j); [lia|]. reflexivity.
    + destruct (Nat.leb_spec p i); [lia|]. reflexivity.
Qed.

(** a solution after a perturbed factorisation: its predecessor had a small backward error, measured with its exact residual *)
Theorem C22_refined {E} (be : list V -> list V -> E) small data perm0 A rhs x0 s x : is_matrix pt (a_0 a) data A -> length perm0 = n -> length rhs = n ->
  prefactorize_and_solve o pt (a_vadd a) (a_v0 a) be small data perm0 rhs x0 = Done (s, x) -> lu_perturbed s = true ->
  exists x_previous r dx, small (be r x_previous) = true /\
    (forall i, i < n -> a_vadd a (sum_n (a_vadd a) (a_v0 a) n (fun j => b_act o (A i j) (nth j x_previous (a_v0 a)))) (nth i r (a_v0 a)) = nth i rhs (a_v0 a)) /\
    x = vector_sum a x_previous dx /\ exists dx0, solve_once o pt (lu_data s) (lu_perm s) r dx0 = Done dx.
Proof.
  intros HA Hp Hrhs. unfold prefactorize_and_solve.
  destruct (factorised o a law n pt ok data perm0 A HA Hp) as [->|(s' & Es & F & (HF & _ & HP & H0) & Hacc & _ & HE)]; [discriminate|].
  rewrite Es. cbn [bind]. unfold solve_prefactorized. destruct (lu_perturbed s') eqn:Eb.
  - rewrite (size_n n pt ok).
    destruct (refine_ok o a law n pt ok be small data A (lu_data s') (lu_perm s') F rhs HA HF H0 HP Hacc Hrhs (S max_iterative_refinement) rhs (repeat (a_v0 a) n) (repeat (a_v0 a) n)) as [->|H]; auto using repeat_length.
    + intros i Hi. rewrite (sum_0 (a_vadd a) (a_v0 a) (bl_vzero o a law)); [apply (vzero_l o a law)|]. intros k _. rewrite nth_repeat. apply (act_v0 o a law).
    + discriminate.
    + destruct H as (x' & dx' & xp & rp & dx0 & -> & Hx' & Ex & Eo & Hsm & HR). cbn [bind]. intros Heq. injection Heq as <- <-. intros _.
      exists xp, rp, dx'. eauto 10.
  - destruct (solve_once _ _ _ _ _ _); cbn [bind]; try discriminate. intros Heq. injection Heq as <- <-. congruence.
Qed.
End C22.
