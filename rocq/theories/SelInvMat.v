(** Products and inverses of block matrices, as functions; the recurrence of the selective inverse. *)
From Verif Require Import Common YBusSpec SparseLU SparseLUSpec SparseLUFacts SparseLUProps SelInv SelInvSpec.

Section Mat.
Context {T V Q : Type} (o : block_ops T V Q) (a : block_algebra T V Q) (law : block_laws o a).
Context (v : inv_ops T) (one : T) (il : inv_laws o a v one).
Variable n : nat.
Notation add := (a_add a). Notation zero := (a_0 a). Notation opp := (a_opp a). Notation mul := (b_mul o).
Notation sumT := (sum_n add zero).
Notation mat := (nat -> nat -> T).

Lemma opp_unique x y : add x y = zero -> y = opp x.
Proof. intros H. apply (add_cancel o a law _ _ x). now rewrite (bl_comm o a law y), H, (bl_comm o a law), (bl_opp o a law). Qed.
Lemma mul_opp_l x y : mul (opp x) y = opp (mul x y).
Proof. apply opp_unique. now rewrite <- (bl_add_mul o a law), (bl_opp o a law), (mul_0_l o a law). Qed.
Lemma mul_opp_r x y : mul x (opp y) = opp (mul x y).
Proof. apply opp_unique. now rewrite <- (bl_mul_add o a law), (bl_opp o a law), (mul_0 o a law). Qed.
Lemma opp_add x y : opp (add x y) = add (opp x) (opp y).
Proof.
  symmetry. apply opp_unique. rewrite (bl_comm o a law (opp x)), (bl_assoc o a law), <- (bl_assoc o a law x), (bl_opp o a law), (bl_zero o a law). apply (bl_opp o a law).
Qed.
Lemma opp_0 : opp zero = zero. Proof. symmetry. apply opp_unique. apply (bl_zero o a law). Qed.
Lemma add_opp_l x : add (opp x) x = zero. Proof. rewrite (bl_comm o a law). apply (bl_opp o a law). Qed.
Lemma inv_unique x y z : mul x y = one -> mul y z = one -> x = z.
Proof. intros H1 H2. now rewrite <- (il_one_r _ _ _ _ il x), <- H2, (bl_mul_assoc o a law), H1, (il_one_l _ _ _ _ il). Qed.
Lemma sum_mul_r m f x : mul (sumT m f) x = sumT m (fun k => mul (f k) x).
Proof. apply (sum_hom add zero add zero (fun y => mul y x)); [intros; apply (bl_add_mul o a law)|apply (mul_0_l o a law)]. Qed.
Lemma sum_mul_l m f x : mul x (sumT m f) = sumT m (fun k => mul x (f k)).
Proof. apply (sum_hom add zero add zero (mul x)); [intros; apply (bl_mul_add o a law)|apply (mul_0 o a law)]. Qed.
Lemma sum_opp m f : opp (sumT m f) = sumT m (fun k => opp (f k)).
Proof. apply (sum_hom add zero add zero opp); [apply opp_add|apply opp_0]. Qed.
Lemma sum_single m f j : j < m -> (forall k, k < m -> k <> j -> f k = zero) -> sumT m f = f j.
Proof.
  intros Hj H. rewrite (sum_one add zero (bl_comm o a law) (bl_assoc o a law) (bl_zero o a law) m (fun _ => zero) f j (f j)); auto.
  - rewrite (sum_0 add zero (bl_zero o a law)) by auto. apply (zero_l o a law).
  - symmetry. apply (zero_l o a law).
Qed.

(** ** products *)
Definition Id : mat := fun i j => if i =? j then one else zero.
Definition mm (A B : mat) : mat := fun i j => sumT n (fun k => mul (A i k) (B k j)).
Definition eqm (A B : mat) : Prop := forall i j, i < n -> j < n -> A i j = B i j.
Definition inv (A B : mat) : Prop := eqm (mm A B) Id /\ eqm (mm B A) Id.
Lemma eqm_refl A : eqm A A. Proof. intros i j _ _. reflexivity. Qed.
Lemma eqm_sym A B : eqm A B -> eqm B A. Proof. intros H i j Hi Hj. symmetry. auto. Qed.
Lemma eqm_trans A B C : eqm A B -> eqm B C -> eqm A C. Proof. intros H1 H2 i j Hi Hj. rewrite H1; auto. Qed.
Lemma mm_ext A A' B B' : eqm A A' -> eqm B B' -> eqm (mm A B) (mm A' B').
Proof. intros HA HB i j Hi Hj. apply sum_ext. intros k Hk. rewrite HA, HB; auto. Qed.
Lemma mm_assoc A B C : eqm (mm (mm A B) C) (mm A (mm B C)).
Proof.
  intros i j Hi Hj. unfold mm. rewrite (sum_ext add zero n _ (fun k => sumT n (fun m => mul (A i m) (mul (B m k) (C k j))))).
  - rewrite sum_swap by (apply law). apply sum_ext. intros m Hm. symmetry. apply sum_mul_l.
  - intros k Hk. rewrite sum_mul_r. apply sum_ext. intros m Hm. symmetry. apply (bl_mul_assoc o a law).
Qed.
Lemma mm_id_l A : eqm (mm Id A) A.
Proof.
  intros i j Hi Hj. unfold mm, Id. rewrite (sum_single n _ i Hi).
  - rewrite Nat.eqb_refl. apply (il_one_l _ _ _ _ il).
  - intros k Hk Hn. destruct (Nat.eqb_spec i k); [lia|]. apply (mul_0_l o a law).
Qed.
Lemma mm_id_r A : eqm (mm A Id) A.
Proof.
  intros i j Hi Hj. unfold mm, Id. rewrite (sum_single n _ j Hj).
  - rewrite Nat.eqb_refl. apply (il_one_r _ _ _ _ il).
  - intros k Hk Hn. destruct (Nat.eqb_spec k j); [lia|]. apply (mul_0 o a law).
Qed.
Lemma inv_ext A A' B B' : eqm A A' -> eqm B B' -> inv A B -> inv A' B'.
Proof.
  intros HA HB [H1 H2]. split.
  - eapply eqm_trans; [|exact H1]. apply mm_ext; apply eqm_sym; auto.
  - eapply eqm_trans; [|exact H2]. apply mm_ext; apply eqm_sym; auto.
Qed.
Lemma inv_mm1 A A' B B' : eqm (mm A A') Id -> eqm (mm B B') Id -> eqm (mm (mm A B) (mm B' A')) Id.
Proof.
  intros HA HB. eapply eqm_trans; [apply mm_assoc|]. eapply eqm_trans; [|exact HA]. apply mm_ext; [apply eqm_refl|].
  eapply eqm_trans; [apply eqm_sym, mm_assoc|]. eapply eqm_trans; [|apply mm_id_l]. apply mm_ext; [exact HB|apply eqm_refl].
Qed.
Lemma inv_mm A A' B B' : inv A A' -> inv B B' -> inv (mm A B) (mm B' A').
Proof. intros [H1 H2] [H3 H4]. split; apply inv_mm1; auto. Qed.

(** ** the identity with one column or one row replaced from the diagonal on *)
Section Elementary.
Variable p : nat.
Hypothesis Hp : p < n.
Definition Col (c : nat -> T) : mat := fun i j => if j =? p then (if i <? p then zero else c i) else Id i j.
Definition Row (r : nat -> T) : mat := fun i j => if i =? p then (if j <? p then zero else r j) else Id i j.

Lemma col_mm c X i j : i < n -> j < n -> mm (Col c) X i j = if i <? p then X i j else if i =? p then mul (c p) (X p j) else add (X i j) (mul (c i) (X p j)).
Proof.
  intros Hi Hj. unfold mm. destruct (Nat.ltb_spec i p) as [Hip|Hip].
  - rewrite (sum_single n _ i Hi).
    + unfold Col, Id. destruct (Nat.eqb_spec i p); [lia|]. rewrite Nat.eqb_refl. apply (il_one_l _ _ _ _ il).
    + intros k Hk Hn. unfold Col, Id. destruct (Nat.eqb_spec k p); [destruct (Nat.ltb_spec i p); [|lia]|destruct (Nat.eqb_spec i k); [lia|]]; apply (mul_0_l o a law).
  - destruct (Nat.eqb_spec i p) as [->|Hn].
    + rewrite (sum_single n _ p Hi).
      * unfold Col. rewrite Nat.eqb_refl, Nat.ltb_irrefl. reflexivity.
      * intros k Hk Hn. unfold Col, Id. destruct (Nat.eqb_spec k p); [lia|]. destruct (Nat.eqb_spec p k); [lia|]. apply (mul_0_l o a law).
    + rewrite (sum_one add zero (bl_comm o a law) (bl_assoc o a law) (bl_zero o a law) n (fun k => mul (Id i k) (X k j)) _ p (mul (c i) (X p j))); auto.
      * f_equal. exact (mm_id_l X i j Hi Hj).
      * unfold Col, Id. rewrite Nat.eqb_refl. destruct (Nat.ltb_spec i p); [lia|]. destruct (Nat.eqb_spec i p); [lia|]. now rewrite (mul_0_l o a law), (zero_l o a law).
      * intros k Hk Hkp. unfold Col. destruct (Nat.eqb_spec k p); [lia|]. reflexivity.
Qed.
Lemma mm_row r X i j : i < n -> j < n -> mm X (Row r) i j = if j <? p then X i j else if j =? p then mul (X i p) (r p) else add (X i j) (mul (X i p) (r j)).
Proof.
  intros Hi Hj. unfold mm. destruct (Nat.ltb_spec j p) as [Hip|Hip].
  - rewrite (sum_single n _ j Hj).
    + unfold Row, Id. destruct (Nat.eqb_spec j p); [lia|]. rewrite Nat.eqb_refl. apply (il_one_r _ _ _ _ il).
    + intros k Hk Hn. unfold Row, Id. destruct (Nat.eqb_spec k p); [destruct (Nat.ltb_spec j p); [|lia]|destruct (Nat.eqb_spec k j); [lia|]]; apply (mul_0 o a law).
  - destruct (Nat.eqb_spec j p) as [->|Hn].
    + rewrite (sum_single n _ p Hj).
      * unfold Row. rewrite Nat.eqb_refl, Nat.ltb_irrefl. reflexivity.
      * intros k Hk Hn. unfold Row, Id. destruct (Nat.eqb_spec k p); [lia|]. apply (mul_0 o a law).
    + rewrite (sum_one add zero (bl_comm o a law) (bl_assoc o a law) (bl_zero o a law) n (fun k => mul (X i k) (Id k j)) _ p (mul (X i p) (r j))); auto.
      * f_equal. exact (mm_id_r X i j Hi Hj).
      * unfold Row, Id. rewrite Nat.eqb_refl. destruct (Nat.ltb_spec j p); [lia|]. destruct (Nat.eqb_spec p j); [lia|]. now rewrite (mul_0 o a law), (zero_l o a law).
      * intros k Hk Hkp. unfold Row. destruct (Nat.eqb_spec k p); [lia|]. reflexivity.
Qed.
Definition col_inv (x : T) (c : nat -> T) : nat -> T := fun i => if i =? p then x else opp (mul (c i) x).
Definition row_inv (x : T) (r : nat -> T) : nat -> T := fun j => if j =? p then x else opp (mul x (r j)).
Lemma inv_col x c : mul x (c p) = one -> mul (c p) x = one -> inv (Col c) (Col (col_inv x c)).
Proof.
  intros H1 H2. split; intros i j Hi Hj; rewrite col_mm by auto; unfold Col, col_inv, Id; rewrite Nat.eqb_refl, !Nat.ltb_irrefl.
  - destruct (Nat.ltb_spec i p), (Nat.eqb_spec i p), (Nat.eqb_spec j p), (Nat.eqb_spec i j), (Nat.eqb_spec p j); try lia; auto using (mul_0 o a law).
    + apply add_opp_l.
    + rewrite (mul_0 o a law). apply (bl_zero o a law).
    + rewrite (mul_0 o a law). apply (bl_zero o a law).
  - destruct (Nat.ltb_spec i p), (Nat.eqb_spec i p), (Nat.eqb_spec j p), (Nat.eqb_spec i j), (Nat.eqb_spec p j); try lia; auto using (mul_0 o a law).
    + rewrite mul_opp_l, <- (bl_mul_assoc o a law), H1, (il_one_r _ _ _ _ il). apply (bl_opp o a law).
    + rewrite (mul_0 o a law). apply (bl_zero o a law).
    + rewrite (mul_0 o a law). apply (bl_zero o a law).
Qed.
Lemma inv_row x r : mul x (r p) = one -> mul (r p) x = one -> inv (Row r) (Row (row_inv x r)).
Proof.
  intros H1 H2. split; intros i j Hi Hj; rewrite mm_row by auto; unfold Row, row_inv, Id; rewrite Nat.eqb_refl, !Nat.ltb_irrefl.
  - destruct (Nat.ltb_spec j p), (Nat.eqb_spec i p), (Nat.eqb_spec j p), (Nat.eqb_spec i j); try lia; auto using (mul_0_l o a law).
    + rewrite mul_opp_r, (bl_mul_assoc o a law), H2, (il_one_l _ _ _ _ il). apply (bl_opp o a law).
    + destruct (Nat.eqb_spec i p); [lia|]. rewrite (mul_0_l o a law). apply (bl_zero o a law).
    + destruct (Nat.eqb_spec i p); [lia|]. rewrite (mul_0_l o a law). apply (bl_zero o a law).
  - destruct (Nat.ltb_spec j p), (Nat.eqb_spec i p), (Nat.eqb_spec j p), (Nat.eqb_spec i j); try lia; auto using (mul_0_l o a law).
    + apply add_opp_l.
    + destruct (Nat.eqb_spec i p); [lia|]. rewrite (mul_0_l o a law). apply (bl_zero o a law).
    + destruct (Nat.eqb_spec i p); [lia|]. rewrite (mul_0_l o a law). apply (bl_zero o a law).
Qed.
End Elementary.

(** ** the trailing factors and their inverse *)
Section Trail.
Variable F : mat.
Hypothesis acc : forall i, i < n -> accepted o (F i i).
Definition Lp (p : nat) : mat := fun i k => if (i <? p) || (k <? p) then Id i k else lower a F i k.
Definition Up (p : nat) : mat := fun k j => if (k <? p) || (j <? p) then Id k j else upper a F k j.
Definition LUp (p : nat) : mat := mm (Lp p) (Up p).

Definition Li (p : nat) : T := i_lower_right v (F p p) one.
Definition Ui (p : nat) : T := i_upper_left v (F p p) one.
Lemma Li_inv p : p < n -> mul (Li p) (a_lo a (F p p)) = one /\ mul (a_lo a (F p p)) (Li p) = one.
Proof.
  intros Hp. destruct (acc p Hp) as (x & P & Q' & b & E). pose proof (il_lower_right _ _ _ _ il _ _ _ _ _ E one) as H. split; [exact H|].
  destruct (il_lower _ _ _ _ il _ _ _ _ _ E) as (y & Hy1 & Hy2). replace (Li p) with y; [exact Hy2|].
  symmetry. exact (inv_unique _ _ _ H Hy2).
Qed.
Lemma Ui_inv p : p < n -> mul (Ui p) (a_up a (F p p)) = one /\ mul (a_up a (F p p)) (Ui p) = one.
Proof.
  intros Hp. destruct (acc p Hp) as (x & P & Q' & b & E). pose proof (il_upper_left _ _ _ _ il _ _ _ _ _ E one) as H. split; [|exact H].
  destruct (il_upper _ _ _ _ il _ _ _ _ _ E) as (y & Hy1 & Hy2). replace (Ui p) with y; [exact Hy1|].
  exact (inv_unique _ _ _ Hy1 H).
Qed.
Lemma lower_right_eq p x : p < n -> i_lower_right v (F p p) x = mul x (Li p).
Proof.
  intros Hp. destruct (Li_inv p Hp) as [_ H2]. destruct (acc p Hp) as (z & P & Q' & b & E). pose proof (il_lower_right _ _ _ _ il _ _ _ _ _ E x) as H.
  rewrite <- H at 2. now rewrite <- (bl_mul_assoc o a law), H2, (il_one_r _ _ _ _ il).
Qed.
Lemma upper_left_eq p x : p < n -> i_upper_left v (F p p) x = mul (Ui p) x.
Proof.
  intros Hp. destruct (Ui_inv p Hp) as [H1 _]. destruct (acc p Hp) as (z & P & Q' & b & E). pose proof (il_upper_left _ _ _ _ il _ _ _ _ _ E x) as H.
  rewrite <- H at 2. now rewrite (bl_mul_assoc o a law), H1, (il_one_l _ _ _ _ il).
Qed.
Lemma inverse_lu_eq p : p < n -> i_inverse_lu v (F p p) = mul (Ui p) (Li p).
Proof.
  intros Hp. destruct (Ui_inv p Hp) as [H1 _]. destruct (Li_inv p Hp) as [H2 _]. destruct (acc p Hp) as (z & P & Q' & b & E). pose proof (il_inverse_lu _ _ _ _ il _ _ _ _ _ E) as H.
  rewrite <- (il_one_r _ _ _ _ il (mul (Ui p) (Li p))), <- H, !(bl_mul_assoc o a law), <- (bl_mul_assoc o a law (Ui p)), H2, (il_one_r _ _ _ _ il), H1.
  symmetry. apply (il_one_l _ _ _ _ il).
Qed.

Definition cL (p i : nat) : T := if i =? p then a_lo a (F p p) else F i p.
Definition rU (p j : nat) : T := if j =? p then a_up a (F p p) else F p j.
Ltac cases := repeat match goal with |- context [?x =? ?y] => destruct (Nat.eqb_spec x y) | |- context [?x <? ?y] => destruct (Nat.ltb_spec x y) end; cbn [orb]; subst; try lia.
Lemma Lp_step p : p < n -> eqm (Lp p) (mm (Col p (cL p)) (Lp (S p))).
Proof.
  intros Hp i j Hi Hj. rewrite col_mm by auto. unfold Lp, Id, lower, cL. rewrite Nat.eqb_refl.
  destruct (Nat.lt_trichotomy i p) as [Hip|[->|Hip]].
  - cases; auto.
  - cases; rewrite ?(mul_0 o a law), ?(il_one_r _ _ _ _ il); auto.
  - cases; rewrite ?(mul_0 o a law), ?(il_one_r _ _ _ _ il), ?(bl_zero o a law), ?(zero_l o a law); auto.
Qed.
Lemma Up_step p : p < n -> eqm (Up p) (mm (Up (S p)) (Row p (rU p))).
Proof.
  intros Hp i j Hi Hj. rewrite mm_row by auto. unfold Up, Id, upper, rU. rewrite Nat.eqb_refl.
  destruct (Nat.lt_trichotomy j p) as [Hip|[->|Hip]].
  - cases; auto.
  - cases; rewrite ?(mul_0_l o a law), ?(il_one_l _ _ _ _ il); auto.
  - cases; rewrite ?(mul_0_l o a law), ?(il_one_l _ _ _ _ il), ?(bl_zero o a law), ?(zero_l o a law); auto.
Qed.
Lemma LUp_step p : p < n -> eqm (LUp p) (mm (Col p (cL p)) (mm (LUp (S p)) (Row p (rU p)))).
Proof.
  intros Hp. eapply eqm_trans; [apply (mm_ext _ _ _ _ (Lp_step p Hp) (Up_step p Hp))|].
  eapply eqm_trans; [apply mm_assoc|]. apply mm_ext; [apply eqm_refl|]. apply eqm_sym. apply mm_assoc.
Qed.

(** ** the recurrence, as the code has it *)
Definition zcol (p : nat) (Z : mat) (k : nat) : T := i_opp v (i_lower_right v (F p p) (sumT n (fun m => if p <? m then mul (Z k m) (F m p) else zero))).
Definition zrow (p : nat) (Z : mat) (j : nat) : T := i_opp v (i_upper_left v (F p p) (sumT n (fun m => if p <? m then mul (F p m) (Z m j) else zero))).
Definition zdiag (p : nat) (Z : mat) : T :=
  b_sub o (i_inverse_lu v (F p p)) (i_upper_left v (F p p) (sumT n (fun m => if p <? m then mul (F p m) (zcol p Z m) else zero))).
Definition Znext (p : nat) (Z : mat) : mat := fun i j =>
  if i =? p then (if j =? p then zdiag p Z else if p <? j then zrow p Z j else Z i j)
  else if (j =? p) && (p <? i) then zcol p Z i else Z i j.
Definition Zinv (p : nat) (Z : mat) : Prop := inv (LUp p) Z /\ forall i j, i < p \/ j < p -> Z i j = Id i j.

Lemma Z_col p Z k : p < n -> k < n -> Zinv (S p) Z -> p < k -> mm Z (Col p (col_inv p (Li p) (cL p))) k p = zcol p Z k.
Proof.
  intros Hp Hk [_ HI] Hpk. unfold zcol. rewrite (il_opp _ _ _ _ il), lower_right_eq, sum_mul_r, sum_opp by auto. unfold mm. apply sum_ext. intros m Hm.
  unfold Col, col_inv, cL. rewrite Nat.eqb_refl. destruct (Nat.ltb_spec m p).
  - destruct (Nat.ltb_spec p m); [lia|]. now rewrite (mul_0 o a law), (mul_0_l o a law), opp_0.
  - destruct (Nat.eqb_spec m p) as [->|Hn].
    + rewrite Nat.ltb_irrefl, (HI k p) by lia. unfold Id. destruct (Nat.eqb_spec k p); [lia|]. now rewrite !(mul_0_l o a law), opp_0.
    + destruct (Nat.ltb_spec p m); [|lia]. now rewrite mul_opp_r, (bl_mul_assoc o a law).
Qed.
Lemma mm_col_other p c X i j : i < n -> j < n -> j <> p -> mm X (Col p c) i j = X i j.
Proof.
  intros Hi Hj Hn. unfold mm. rewrite (sum_single n _ j Hj).
  - unfold Col, Id. destruct (Nat.eqb_spec j p); [lia|]. rewrite Nat.eqb_refl. apply (il_one_r _ _ _ _ il).
  - intros k Hk Hkn. unfold Col, Id. destruct (Nat.eqb_spec j p); [lia|]. destruct (Nat.eqb_spec k j); [lia|]. apply (mul_0 o a law).
Qed.
Lemma mm_row_other p r X i j : i < n -> j < n -> i <> p -> mm (Row p r) X i j = X i j.
Proof.
  intros Hi Hj Hn. unfold mm. rewrite (sum_single n _ i Hi).
  - unfold Row, Id. destruct (Nat.eqb_spec i p); [lia|]. rewrite Nat.eqb_refl. apply (il_one_l _ _ _ _ il).
  - intros k Hk Hkn. unfold Row, Id. destruct (Nat.eqb_spec i p); [lia|]. destruct (Nat.eqb_spec i k); [lia|]. apply (mul_0_l o a law).
Qed.
Lemma Z_col_top p Z i : p < n -> i <= p -> Zinv (S p) Z -> mm Z (Col p (col_inv p (Li p) (cL p))) i p = if i =? p then Li p else zero.
Proof.
  intros Hp Hi [_ HI]. unfold mm. destruct (Nat.eqb_spec i p) as [->|Hn].
  - rewrite (sum_single n _ p Hp).
    + unfold Col, col_inv. rewrite !Nat.eqb_refl, Nat.ltb_irrefl, (HI p p) by lia. unfold Id. rewrite Nat.eqb_refl. apply (il_one_l _ _ _ _ il).
    + intros k Hk Hkn. rewrite (HI p k) by lia. unfold Id. destruct (Nat.eqb_spec p k); [lia|]. apply (mul_0_l o a law).
  - apply (sum_0 add zero (bl_zero o a law)). intros k Hk. rewrite (HI i k) by lia. unfold Id. destruct (Nat.eqb_spec i k) as [<-|]; [|apply (mul_0_l o a law)].
    unfold Col. rewrite Nat.eqb_refl. destruct (Nat.ltb_spec i p); [|lia]. apply (mul_0 o a law).
Qed.
Lemma Znext_eq p Z : p < n -> Zinv (S p) Z -> eqm (mm (Row p (row_inv p (Ui p) (rU p))) (mm Z (Col p (col_inv p (Li p) (cL p))))) (Znext p Z).
Proof.
  intros Hp HZ i j Hi Hj. pose proof HZ as [_ HI]. set (W := mm Z (Col p (col_inv p (Li p) (cL p)))).
  assert (HW : forall i j, i < n -> j < n -> W i j = if j =? p then (if p <? i then zcol p Z i else if i =? p then Li p else zero) else Z i j).
  { intros i' j' Hi' Hj'. destruct (Nat.eqb_spec j' p) as [->|Hn]; [|now apply mm_col_other]. destruct (Nat.ltb_spec p i'); [now apply Z_col|now apply Z_col_top]. }
  unfold Znext. destruct (Nat.eqb_spec i p) as [->|Hn].
  - unfold mm at 1. unfold Row at 1. rewrite Nat.eqb_refl.
    assert (ES : sumT n (fun k => mul (if k <? p then zero else row_inv p (Ui p) (rU p) k) (W k j)) =
      add (opp (mul (Ui p) (sumT n (fun m => if p <? m then mul (F p m) (W m j) else zero)))) (mul (Ui p) (W p j))).
    { rewrite sum_mul_l, sum_opp. apply (sum_one add zero (bl_comm o a law) (bl_assoc o a law) (bl_zero o a law) n _ _ p); auto.
      - rewrite Nat.ltb_irrefl. unfold row_inv. rewrite Nat.eqb_refl, (mul_0 o a law), opp_0. symmetry. apply (zero_l o a law).
      - intros k Hk Hkp. destruct (Nat.ltb_spec k p), (Nat.ltb_spec p k); try lia.
        + now rewrite (mul_0_l o a law), (mul_0 o a law), opp_0.
        + unfold row_inv, rU. destruct (Nat.eqb_spec k p); [lia|]. now rewrite mul_opp_l, (bl_mul_assoc o a law). }
    rewrite ES. clear ES. rewrite (HW p j) by auto. rewrite Nat.ltb_irrefl, Nat.eqb_refl. destruct (Nat.eqb_spec j p) as [->|Hjn].
    + unfold zdiag. rewrite inverse_lu_eq, upper_left_eq, (bl_sub o a law), (bl_comm o a law) by auto. f_equal. f_equal. f_equal. apply sum_ext. intros m Hm.
      destruct (Nat.ltb_spec p m) as [Hpm|]; [|reflexivity]. rewrite (HW m p) by auto. rewrite Nat.eqb_refl. destruct (Nat.ltb_spec p m); [reflexivity|lia].
    + rewrite (HI p j) by lia. unfold Id. destruct (Nat.eqb_spec p j); [lia|]. rewrite (mul_0 o a law), (bl_zero o a law). destruct (Nat.ltb_spec p j).
      * unfold zrow. rewrite (il_opp _ _ _ _ il), upper_left_eq by auto. f_equal. f_equal. apply sum_ext. intros m Hm. destruct (p <? m); [|reflexivity].
        rewrite HW by auto. destruct (Nat.eqb_spec j p); [lia|]. reflexivity.
      * rewrite (sum_0 add zero (bl_zero o a law)); [rewrite (mul_0 o a law); apply opp_0|].
        intros m Hm. destruct (Nat.ltb_spec p m); [|reflexivity]. rewrite HW by auto. destruct (Nat.eqb_spec j p); [lia|].
        rewrite (HI m j) by lia. unfold Id. destruct (Nat.eqb_spec m j); [lia|]. apply (mul_0 o a law).
  - rewrite mm_row_other by auto. rewrite HW by auto. destruct (Nat.eqb_spec j p) as [->|Hjn]; cbn [andb]; [|reflexivity].
    destruct (Nat.ltb_spec p i); [reflexivity|]. destruct (Nat.eqb_spec i p); [lia|]. rewrite (HI i p) by lia. unfold Id. destruct (Nat.eqb_spec i p); [lia|]. reflexivity.
Qed.
Lemma Z_step p Z : p < n -> Zinv (S p) Z -> Zinv p (Znext p Z).
Proof.
  intros Hp HZ. split.
  - eapply inv_ext; [apply eqm_sym, (LUp_step p Hp)|apply (Znext_eq p Z Hp HZ)|].
    destruct (Li_inv p Hp) as [HL1 HL2]. destruct (Ui_inv p Hp) as [HU1 HU2].
    assert (HC : inv (Col p (cL p)) (Col p (col_inv p (Li p) (cL p)))) by (apply inv_col; auto; unfold cL; now rewrite Nat.eqb_refl).
    assert (HR : inv (Row p (rU p)) (Row p (row_inv p (Ui p) (rU p)))) by (apply inv_row; auto; unfold rU; now rewrite Nat.eqb_refl).
    eapply inv_ext; [apply eqm_refl|apply mm_assoc|]. apply inv_mm; [exact HC|]. apply inv_mm; [apply HZ|exact HR].
  - intros i j Hij. unfold Znext. destruct HZ as [_ HI]. destruct (Nat.eqb_spec i p) as [->|].
    + destruct (Nat.eqb_spec j p); [lia|]. destruct (Nat.ltb_spec p j); [lia|]. apply HI. lia.
    + destruct (Nat.eqb_spec j p), (Nat.ltb_spec p i); cbn [andb]; try lia; apply HI; lia.
Qed.
Lemma Z_start : Zinv n Id.
Proof.
  split; [|reflexivity]. assert (E : eqm (LUp n) Id).
  { unfold LUp. eapply eqm_trans; [|apply mm_id_l]. apply mm_ext; intros i j Hi Hj; unfold Lp, Up; destruct (Nat.ltb_spec i n); try lia; reflexivity. }
  eapply inv_ext; [apply eqm_sym, E|apply eqm_refl|]. split; apply mm_id_l.
Qed.
End Trail.
End Mat.
