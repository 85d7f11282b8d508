(** Proofs about the division of reactive power. *)
From Coq Require Import QArith Qabs Lqa.
From Verif Require Import Common ReactivePower ReactivePowerSpec.
Close Scope Q_scope. Open Scope nat_scope.

(** ** Numbers *)
Lemma gtb_true a b : gtb a b = true -> (b < a)%Q.
Proof. unfold gtb. intros H. apply Qnot_le_lt. intros E. apply Qle_bool_iff in E. rewrite E in H. discriminate. Qed.
Lemma gtb_false a b : gtb a b = false -> (a <= b)%Q.
Proof. unfold gtb. intros H. apply Qle_bool_iff. destruct (Qle_bool a b); [reflexivity|discriminate]. Qed.
Lemma ltb_true a b : ltb a b = true -> (a < b)%Q. Proof. apply gtb_true. Qed.
Lemma ltb_false a b : ltb a b = false -> (b <= a)%Q. Proof. apply gtb_false. Qed.
Lemma gtb_intro a b : (b < a)%Q -> gtb a b = true.
Proof. intros H. destruct (gtb a b) eqn:E; [reflexivity|]. apply gtb_false in E. lra. Qed.
Lemma gtb_no a b : (a <= b)%Q -> gtb a b = false.
Proof. intros H. destruct (gtb a b) eqn:E; [|reflexivity]. apply gtb_true in E. lra. Qed.
Lemma abs_le a b : (Qabs a <= b)%Q <-> (a <= b /\ - a <= b)%Q.
Proof. rewrite Qabs_Qle_condition. split; intros [H1 H2]; split; lra. Qed.
Lemma qsum_cons x l : qsum (x :: l) = (x + qsum l)%Q. Proof. reflexivity. Qed.
Lemma qsum_nil : qsum [] = 0%Q. Proof. reflexivity. Qed.
Ltac sums := cbn [map app]; rewrite ?qsum_cons, ?qsum_nil.
Lemma qsum_app l l' : (qsum (l ++ l') == qsum l + qsum l')%Q.
Proof. induction l as [|x l IH]; sums; [lra|]. rewrite IH. lra. Qed.
Lemma qsum_plus {A} (f g : A -> Q) l : (qsum (map (fun x => f x + g x)%Q l) == qsum (map f l) + qsum (map g l))%Q.
Proof. induction l as [|x l IH]; sums; [lra|]. rewrite IH. lra. Qed.
Lemma qsum_eq {A} (f g : A -> Q) l : (forall x, In x l -> (f x == g x)%Q) -> (qsum (map f l) == qsum (map g l))%Q.
Proof. induction l as [|x l IH]; intros H; sums; [lra|]. rewrite IH by (intros y Hy; apply H; now right). rewrite (H x) by now left. lra. Qed.
Lemma qsum_nonneg {A} (f : A -> Q) l : (forall x, In x l -> (0 <= f x)%Q) -> (0 <= qsum (map f l))%Q.
Proof. induction l as [|x l IH]; intros H; sums; [lra|]. specialize (IH (fun y Hy => H y (or_intror Hy))). specialize (H x (or_introl eq_refl)). lra. Qed.

Global Instance amount_proper up : Proper (Qeq ==> Qeq) (amount up).
Proof. intros x y E. destruct up; cbn [amount]; rewrite E; reflexivity. Qed.
Lemma NoDup_map_eq {A B} (f : A -> B) l x y : NoDup (map f l) -> In x l -> In y l -> f x = f y -> x = y.
Proof.
  induction l as [|z l IH]; intros N Hx Hy E; [destruct Hx|]. cbn [map] in N. inversion_clear N as [|? ? Nz Nl].
  destruct Hx as [<-|Hx], Hy as [<-|Hy]; auto; exfalso; apply Nz; apply in_map_iff; eauto.
Qed.
(** sums of limits *)
Lemma sum_limits_from {A} (f : A -> option Q) : forall l a,
  fold_left (fun a b => match a, b with Some x, Some y => Some (x + y)%Q | _, _ => None end) (map f l) None = None /\
  match fold_left (fun a b => match a, b with Some x, Some y => Some (x + y)%Q | _, _ => None end) (map f l) (Some a) with
  | Some x => (forall r, In r l -> f r <> None) /\ (x == a + qsum (map (fun r => limit_or_zero (f r)) l))%Q
  | None => exists r, In r l /\ f r = None
  end.
Proof.
  induction l as [|r l IH]; intros a; cbn [map fold_left]; [split; [reflexivity|split; [intros r []|rewrite qsum_nil; lra]]|]. destruct (f r) as [y|] eqn:E.
  - destruct (IH (a + y)%Q) as [I1 I2]. split; [exact I1|]. destruct (fold_left _ _ (Some (a + y)%Q)) as [x|].
    + destruct I2 as [I2 I3]. split; [intros r' [<-|H]; [congruence|auto]|]. rewrite I3, qsum_cons. cbn [limit_or_zero]. lra.
    + destruct I2 as (r' & H & Er). exists r'. split; [now right|exact Er].
  - destruct (IH a) as [I1 _]. split; [exact I1|]. rewrite I1. exists r. split; [now left|exact E].
Qed.
Lemma sum_limits_spec {A} (f : A -> option Q) l :
  match sum_limits (map f l) with
  | Some x => (forall r, In r l -> f r <> None) /\ (x == qsum (map (fun r => limit_or_zero (f r)) l))%Q
  | None => exists r, In r l /\ f r = None
  end.
Proof. unfold sum_limits. destruct (sum_limits_from f l 0%Q) as [_ H]. destruct (fold_left _ _ _); [destruct H as [H1 H2]; split; [exact H1|lra]|exact H]. Qed.

Section Facts.
Variables (np : nat) (tol : Q).
Hypothesis phases : np = 1 \/ np = 3.
Hypothesis tol_nonneg : (0 <= tol)%Q.
Local Notation total := (total_q np).
Lemma total_all q : (total q == all_phases np q)%Q.
Proof. destruct phases as [-> | ->]; unfold total_q, all_phases; cbn; lra. Qed.
Lemma total_ext q q' : (forall p, p < np -> (q p == q' p)%Q) -> (total q == total q')%Q.
Proof. intros H. unfold total_q. destruct phases as [-> | ->]; cbn [Nat.eqb]; [apply H; lia|]. rewrite (H 0), (H 1), (H 2) by lia. lra. Qed.
Lemma total_plus q q' : (total (vplus q q') == total q + total q')%Q.
Proof. unfold total_q, vplus. destruct (np =? 1); lra. Qed.
Lemma total_minus q q' : (total (vminus q q') == total q - total q')%Q.
Proof. unfold total_q, vminus. destruct (np =? 1); lra. Qed.
Lemma total_zero : (total vzero == 0)%Q. Proof. unfold total_q, vzero. destruct (np =? 1); lra. Qed.
Lemma total_distribute m base : (total (distribute_q np tol m base) == m)%Q.
Proof.
  unfold distribute_q. destruct (np =? 1) eqn:E; [unfold total_q; rewrite E; lra|]. destruct (gtb _ tol) eqn:G.
  - apply gtb_true in G. assert (N : ~ (total base == 0)%Q). { intros Z. rewrite Z in G. cbn in G. lra. }
    unfold total_q in *. rewrite E in *. field. exact N.
  - unfold total_q. rewrite E. field.
Qed.
Lemma total_sum {A} (f : A -> value) l : (total (fun p => qsum (map (fun x => f x p) l)) == qsum (map (fun x => total (f x)) l))%Q.
Proof. unfold total_q. destruct (np =? 1); induction l as [|x l IH]; sums; lra. Qed.

(** ** A pass *)
Definition step (share : value) (s : q_state) : q_state := if st_free s then fst (fst (offer np tol share s)) else s.
Definition left_over (share : value) (s : q_state) : value := if st_free s then snd (fst (offer np tol share s)) else vzero.
Definition hits (share : value) (s : q_state) : bool := st_free s && snd (offer np tol share s).
Definition count (f : q_state -> bool) (l : list q_state) : nat := length (filter f l).
Lemma offer_miss share s : snd (offer np tol share s) = false -> snd (fst (offer np tol share s)) = vzero.
Proof. unfold offer. destruct (exceeds _ _ _); [discriminate|]. destruct (below _ _ _); [discriminate|]. reflexivity. Qed.
Lemma pass_spec share : forall sts u n, exists u', pass np tol share sts u n = (map (step share) sts, u', n - count (hits share) sts) /\
  forall p, (u' p == u p + qsum (map (fun s => left_over share s p) sts))%Q.
Proof.
  induction sts as [|s sts IH]; intros u n; [exists u; split; [cbn; f_equal; lia|intros p; sums; lra]|]. cbn [pass].
  assert (Es : map (step share) (s :: sts) = step share s :: map (step share) sts) by reflexivity. rewrite Es.
  assert (Ec : count (hits share) (s :: sts) = (if hits share s then 1 else 0) + count (hits share) sts) by (unfold count; cbn [filter]; destruct (hits share s); reflexivity). rewrite Ec.
  assert (Eq : forall p, qsum (map (fun s => left_over share s p) (s :: sts)) = (left_over share s p + qsum (map (fun s => left_over share s p) sts))%Q) by reflexivity.
  assert (Ep : step share s = if st_free s then fst (fst (offer np tol share s)) else s) by reflexivity.
  assert (El : left_over share s = if st_free s then snd (fst (offer np tol share s)) else vzero) by reflexivity.
  assert (Eh : hits share s = st_free s && snd (offer np tol share s)) by reflexivity. rewrite Ep, Eh.
  destruct (st_free s) eqn:F; cbn [andb].
  - pose proof (offer_miss share s) as M. destruct (offer np tol share s) as [[s' rest] hit] eqn:O. cbn [fst snd] in *.
    destruct (IH (if hit then vplus u rest else u) (if hit then n - 1 else n)) as (u' & E & U). rewrite E. exists u'. split.
    + f_equal. destruct hit; lia.
    + intros p. rewrite U, Eq, El. destruct hit; [unfold vplus; lra|]. rewrite (M eq_refl). unfold vzero. lra.
  - destruct (IH u n) as (u' & E & U). rewrite E. exists u'. split; [reflexivity|]. intros p. rewrite U, Eq, El. unfold vzero. lra.
Qed.
Lemma offer_keeps share s : st_load (fst (fst (offer np tol share s))) = st_load s /\ st_reg (fst (fst (offer np tol share s))) = st_reg s /\ st_free (fst (fst (offer np tol share s))) = negb (snd (offer np tol share s)).
Proof. unfold offer. destruct (exceeds _ _ _); [auto|]. destruct (below _ _ _); auto. Qed.
Lemma step_load share s : st_load (step share s) = st_load s. Proof. unfold step. destruct (st_free s); [apply offer_keeps|reflexivity]. Qed.
Lemma step_reg share s : st_reg (step share s) = st_reg s. Proof. unfold step. destruct (st_free s); [apply offer_keeps|reflexivity]. Qed.
Lemma step_free share s : st_free (step share s) = st_free s && negb (hits share s).
Proof. unfold step, hits. destruct (st_free s) eqn:F; cbn [andb]; [|exact F]. apply offer_keeps. Qed.
Lemma step_sum share s p : (st_q (step share s) p + left_over share s p == st_q s p + (if st_free s then share p else 0))%Q.
Proof.
  unfold step, left_over. destruct (st_free s); [|unfold vzero; lra]. unfold offer. destruct (exceeds _ _ _); [|destruct (below _ _ _)]; cbn [fst snd st_q]; unfold vminus, vplus, vzero; lra.
Qed.
Lemma count_free share sts : count st_free (map (step share) sts) = count st_free sts - count (hits share) sts.
Proof.
  assert (G : count st_free (map (step share) sts) + count (hits share) sts = count st_free sts); [|lia].
  unfold count. induction sts as [|s sts IH]; [reflexivity|]. cbn [map filter]. rewrite step_free. unfold hits in *.
  destruct (st_free s); cbn [andb]; [|exact IH]. destruct (snd (offer np tol share s)); cbn [negb length]; lia.
Qed.
Lemma count_hits share sts : count (hits share) sts <= count st_free sts.
Proof. unfold count. induction sts as [|s sts IH]; [reflexivity|]. cbn [filter]. unfold hits at 1. destruct (st_free s); cbn [andb]; [|exact IH]. destruct (snd (offer np tol share s)); cbn [length]; lia. Qed.
Lemma free_share (x : Q) sts : (qsum (map (fun s => if st_free s then x else 0) sts) == inject_Z (Z.of_nat (count st_free sts)) * x)%Q.
Proof.
  unfold count. induction sts as [|s sts IH]; [sums; change (inject_Z (Z.of_nat (length (filter st_free [])))) with 0%Q; lra|]. sums. cbn [filter]. rewrite IH. destruct (st_free s); cbn [length]; [|lra].
  rewrite Nat2Z.inj_succ. unfold Z.succ. rewrite inject_Z_plus. change (inject_Z 1) with 1%Q. lra.
Qed.
Lemma no_hits share sts p : count (hits share) sts = 0 -> (qsum (map (fun s => left_over share s p) sts) == 0)%Q.
Proof.
  unfold count. induction sts as [|s sts IH]; intros H; [sums; lra|]. sums. cbn [filter] in H. unfold hits at 1 in H. unfold left_over at 1. destruct (st_free s); cbn [andb] in H.
  - destruct (snd (offer np tol share s)) eqn:E; [discriminate|]. rewrite (offer_miss share s E), IH by exact H. unfold vzero. lra.
  - rewrite IH by exact H. unfold vzero. lra.
Qed.

(** ** The loop *)
Definition share_of (rem : value) (num : nat) : value := fun p => (rem p / inject_Z (Z.of_nat num))%Q.
Lemma distribute_stops fuel rem num sts : (Qabs (total rem) <= tol)%Q -> distribute np tol fuel rem num sts = Done sts rem num.
Proof. intros H. destruct fuel; cbn [distribute]; rewrite (gtb_no _ _ H); reflexivity. Qed.
Lemma distribute_ends : forall fuel rem num sts, num < fuel -> num = count st_free sts -> distribute np tol fuel rem num sts <> OutOfFuel.
Proof.
  induction fuel as [|fuel IH]; intros rem num sts Hn Hc; [lia|]. cbn [distribute]. destruct (gtb _ tol && (0 <? num)) eqn:G; [|discriminate].
  change (fun p => (rem p / inject_Z (Z.of_nat num))%Q) with (share_of rem num).
  destruct (pass_spec (share_of rem num) sts vzero num) as (u & E & U). rewrite E. destruct (ltb _ tol); [discriminate|].
  destruct (Nat.eq_dec (count (hits (share_of rem num)) sts) 0) as [Z|NZ].
  - rewrite distribute_stops; [discriminate|]. assert (T : (total u == 0)%Q).
    { rewrite <- total_zero. apply total_ext. intros p _. rewrite U, (no_hits _ _ p Z). unfold vzero. lra. }
    rewrite T. cbn. exact tol_nonneg.
  - apply IH.
    + apply andb_true_iff in G. destruct G as [_ G]. apply Nat.ltb_lt in G. lia.
    + rewrite count_free. lia.
Qed.
(** an invariant of the passes holds at the end *)
Lemma distribute_inv (I : value -> list q_state -> Prop) :
  (forall rem sts u, I rem sts -> 0 < count st_free sts -> (tol < Qabs (total rem))%Q -> let sh := share_of rem (count st_free sts) in
     (forall p, (u p == qsum (map (fun s => left_over sh s p) sts))%Q) -> I u (map (step sh) sts)) ->
  forall fuel rem num sts sts' rest num', num = count st_free sts -> I rem sts -> distribute np tol fuel rem num sts = Done sts' rest num' ->
  I rest sts' /\ num' = count st_free sts' /\ ((Qabs (total rest) <= tol)%Q \/ num' = 0).
Proof.
  intros St. induction fuel as [|fuel IH]; intros rem num sts sts' rest num' Hc HI H; cbn [distribute] in H.
  - destruct (gtb _ tol && (0 <? num)) eqn:G; [discriminate|]. inversion H; subst. split; [exact HI|split; [reflexivity|]]. apply andb_false_iff in G. destruct G as [G|G]; [left; now apply gtb_false|right; apply Nat.ltb_ge in G; lia].
  - destruct (gtb _ tol && (0 <? num)) eqn:G.
    + change (fun p => (rem p / inject_Z (Z.of_nat num))%Q) with (share_of rem num) in H.
      destruct (pass_spec (share_of rem num) sts vzero num) as (u & E & U). rewrite E in H. destruct (ltb _ tol); [discriminate|].
      apply andb_true_iff in G. destruct G as [G1 G2]. apply gtb_true in G1. apply Nat.ltb_lt in G2.
      eapply IH; [|..|exact H].
      * rewrite count_free. lia.
      * rewrite Hc. apply St; [exact HI|lia|exact G1|]. intros p. rewrite <- Hc. rewrite U. unfold vzero. lra.
    + inversion H; subst. split; [exact HI|split; [reflexivity|]]. apply andb_false_iff in G. destruct G as [G|G]; [left; now apply gtb_false|right; apply Nat.ltb_ge in G; lia].
Qed.

(** ** Balance and equal shares *)
Definition shape (sts : list q_state) : list (nat * regulator) := map (fun s => (st_load s, st_reg s)) sts.
Lemma step_shape share sts : shape (map (step share) sts) = shape sts.
Proof. unfold shape. rewrite map_map. apply map_ext. intros s. now rewrite step_load, step_reg. Qed.
Definition alloc_inv (req : value) (regs : list (nat * regulator)) (rem : value) (sts : list q_state) : Prop :=
  shape sts = regs /\ (forall p, (qsum (map (fun s => st_q s p) sts) + rem p == req p)%Q) /\
  exists level : value, forall s, In s sts -> if st_free s then forall p, (st_q s p == level p)%Q else at_limit (st_reg s) (total (st_q s)).
Lemma hit_limit share s : st_free s = true -> hits share s = true -> at_limit (st_reg s) (total (st_q (step share s))).
Proof.
  unfold hits, step. intros F. rewrite F. cbn [andb]. unfold offer. destruct (exceeds _ _ _) eqn:X.
  - intros _. cbn [fst st_q]. left. destruct (q_max (st_reg s)) as [m|]; [|discriminate X]. exists m. split; [reflexivity|apply total_distribute].
  - destruct (below _ _ _) eqn:B; [|discriminate]. intros _. cbn [fst st_q]. right. destruct (q_min (st_reg s)) as [m|]; [|discriminate B]. exists m. split; [reflexivity|apply total_distribute].
Qed.
Lemma miss_next share s p : st_free s = true -> hits share s = false -> (st_q (step share s) p == st_q s p + share p)%Q.
Proof.
  unfold hits, step. intros F. rewrite F. cbn [andb]. unfold offer. destruct (exceeds _ _ _); [discriminate|]. destruct (below _ _ _); [discriminate|]. intros _. cbn [fst st_q]. unfold vplus. lra.
Qed.
Lemma alloc_step req regs rem sts u : alloc_inv req regs rem sts -> 0 < count st_free sts -> let sh := share_of rem (count st_free sts) in
  (forall p, (u p == qsum (map (fun s => left_over sh s p) sts))%Q) -> alloc_inv req regs u (map (step sh) sts).
Proof.
  intros (Sh & Sm & level & Lv) Hc sh U. split; [|split].
  - rewrite step_shape. exact Sh.
  - intros p. rewrite U, map_map, <- qsum_plus. rewrite (qsum_eq _ (fun s => st_q s p + (if st_free s then sh p else 0))%Q); [|intros s _; apply step_sum].
    rewrite qsum_plus, free_share, <- Sm. unfold sh, share_of. field. intros Z. assert (N : (inject_Z (Z.of_nat 0) < inject_Z (Z.of_nat (count st_free sts)))%Q) by (rewrite <- Zlt_Qlt; lia). change (inject_Z (Z.of_nat 0)) with 0%Q in N. lra.
  - exists (vplus level sh). intros s Hs. apply in_map_iff in Hs. destruct Hs as (s0 & <- & Hs). specialize (Lv s0 Hs). rewrite step_free, step_reg.
    destruct (st_free s0) eqn:F; cbn [andb].
    + destruct (hits sh s0) eqn:Hh; cbn [negb]; [now apply hit_limit|]. intros p. rewrite (miss_next sh s0 p F Hh), (Lv p). reflexivity.
    + unfold step. rewrite F. exact Lv.
Qed.
Lemma init_inv req regs : alloc_inv req regs req (map (fun r => mkSt (fst r) (snd r) true vzero) regs).
Proof.
  split; [|split].
  - unfold shape. rewrite map_map. cbn. rewrite <- (map_id regs) at 2. apply map_ext. intros [l r]. reflexivity.
  - intros p. rewrite map_map. assert (Z : (qsum (map (fun _ : nat * regulator => vzero p) regs) == 0)%Q); [|cbn [st_q]; rewrite Z; lra]. induction regs as [|r regs' IH]; sums; [lra|]. rewrite IH. unfold vzero. lra.
  - exists vzero. intros s Hs. apply in_map_iff in Hs. destruct Hs as (r & <- & _). cbn. intros p. reflexivity.
Qed.
Lemma init_count (regs : list (nat * regulator)) : count st_free (map (fun r => mkSt (fst r) (snd r) true vzero) regs) = length regs.
Proof. unfold count. induction regs as [|r regs IH]; cbn; [reflexivity|]. now rewrite IH. Qed.
Theorem allocate_ends req regs : allocate_q_iterative_distribution np tol req regs <> OutOfFuel.
Proof. unfold allocate_q_iterative_distribution. apply distribute_ends; [lia|]. now rewrite init_count. Qed.
Theorem allocate_inv req regs sts rest num : allocate_q_iterative_distribution np tol req regs = Done sts rest num ->
  alloc_inv req regs rest sts /\ num = count st_free sts /\ ((Qabs (total rest) <= tol)%Q \/ num = 0).
Proof.
  unfold allocate_q_iterative_distribution. apply distribute_inv.
  - intros rem sts0 u I C _ sh U. now apply (alloc_step req regs rem).
  - now rewrite init_count.
  - apply init_inv.
Qed.
Lemma count_zero sts : count st_free sts = 0 -> forall s, In s sts -> st_free s = false.
Proof. unfold count. induction sts as [|s sts IH]; intros H x Hx; [destruct Hx|]. cbn [filter] in H. destruct (st_free s) eqn:F; [discriminate|]. destruct Hx as [<-|Hx]; auto. Qed.

(** ** Limits *)
Definition limit_inv (rem : value) (sts : list q_state) : Prop :=
  forall s, In s sts -> if st_free s then within tol (st_reg s) (total (st_q s)) else at_limit (st_reg s) (total (st_q s)).
Lemma miss_within share s : st_free s = true -> hits share s = false -> within tol (st_reg s) (total (st_q (step share s))).
Proof.
  unfold hits, step. intros F. rewrite F. cbn [andb]. unfold offer. destruct (exceeds _ _ _) eqn:X; [discriminate|]. destruct (below _ _ _) eqn:B; [discriminate|]. intros _. cbn [fst st_q]. split; intros m Em.
  - rewrite Em in X. cbn [exceeds] in X. now apply gtb_false in X.
  - rewrite Em in B. cbn [below] in B. now apply ltb_false in B.
Qed.
Lemma limit_step sh sts : (forall s, In s sts -> st_free s = false -> at_limit (st_reg s) (total (st_q s))) -> forall u, limit_inv u (map (step sh) sts).
Proof.
  intros H u s Hs. apply in_map_iff in Hs. destruct Hs as (s0 & <- & Hs). rewrite step_free, step_reg. destruct (st_free s0) eqn:F; cbn [andb].
  - destruct (hits sh s0) eqn:Hh; cbn [negb]; [now apply hit_limit|now apply miss_within].
  - unfold step. rewrite F. now apply H.
Qed.
Theorem allocate_limits req regs sts rest num : (tol < Qabs (total req))%Q -> allocate_q_iterative_distribution np tol req regs = Done sts rest num -> limit_inv rest sts.
Proof.
  intros Hr. unfold allocate_q_iterative_distribution. rewrite Nat.add_comm. cbn [Nat.add distribute]. rewrite (gtb_intro _ _ Hr). cbn [andb].
  destruct (0 <? length regs) eqn:L.
  - change (fun p => (req p / inject_Z (Z.of_nat (length regs)))%Q) with (share_of req (length regs)). set (st0 := map _ regs).
    destruct (pass_spec (share_of req (length regs)) st0 vzero (length regs)) as (u & E & U). rewrite E. destruct (ltb _ tol); [discriminate|]. intros H.
    eapply (distribute_inv limit_inv); [| | |exact H].
    + intros rem sts0 u0 I _ _ sh _. apply limit_step. intros s Hs F. specialize (I s Hs). rewrite F in I. exact I.
    + rewrite count_free. unfold st0. now rewrite init_count.
    + apply limit_step. intros s Hs F. unfold st0 in Hs. apply in_map_iff in Hs. destruct Hs as (r & <- & _). discriminate F.
  - intros H. apply Nat.ltb_ge in L. destruct regs; [|cbn in L; lia]. inversion H; subst. intros s [].
Qed.

(** ** The even division *)
Variable up : bool.
Definition even_inv (rem : value) (sts : list q_state) : Prop :=
  (0 <= amount up (total rem))%Q /\ exists level : value, (0 <= amount up (total level))%Q /\
  forall s, In s sts -> contains_zero (st_reg s) /\
    if st_free s then (forall p, (st_q s p == level p)%Q) /\ within tol (st_reg s) (total (st_q s))
    else exists m, bound up (st_reg s) = Some m /\ (total (st_q s) == m)%Q /\ (amount up m + tol < amount up (total level))%Q.
Lemma hit_bound sh s level : st_free s = true -> contains_zero (st_reg s) -> (forall p, (st_q s p == level p)%Q) -> (0 <= amount up (total (vplus level sh)))%Q -> hits sh s = true ->
  (exists m, bound up (st_reg s) = Some m /\ (total (st_q (step sh s)) == m)%Q /\ (amount up m + tol < amount up (total (vplus level sh)))%Q) /\
  (0 <= amount up (total (left_over sh s)))%Q.
Proof.
  intros F [Z1 Z2] Lv Pos. unfold hits, step, left_over. rewrite F. cbn [andb].
  assert (T : (total (vplus (st_q s) sh) == total (vplus level sh))%Q) by (apply total_ext; intros p _; unfold vplus; rewrite (Lv p); lra).
  unfold offer. destruct (exceeds _ _ _) eqn:X; [|destruct (below _ _ _) eqn:B; [|discriminate]]; intros _; cbn [fst snd st_q].
  - destruct (q_max (st_reg s)) as [m|] eqn:E; [|discriminate X]. cbn [exceeds] in X. apply gtb_true in X. rewrite T in X. specialize (Z1 m eq_refl). destruct up; cbn [amount bound] in *.
    + split; [exists m; repeat split; [exact E|apply total_distribute|exact X]|]. rewrite !total_minus, total_distribute. cbn [limit_or_zero]. rewrite <- T, total_plus in X. lra.
    + exfalso. lra.
  - destruct (q_min (st_reg s)) as [m|] eqn:E; [|discriminate B]. cbn [below] in B. apply ltb_true in B. rewrite T in B. specialize (Z2 m eq_refl). destruct up; cbn [amount bound] in *.
    + exfalso. lra.
    + split; [exists m; repeat split; [exact E|apply total_distribute|lra]|]. rewrite !total_minus, total_distribute. cbn [limit_or_zero]. rewrite <- T, total_plus in B. lra.
Qed.
Lemma share_amount rem n : 0 < n -> (0 <= amount up (total rem))%Q -> (0 <= amount up (total (share_of rem n)))%Q.
Proof.
  intros Hn H. assert (N : (0 < inject_Z (Z.of_nat n))%Q) by (change 0%Q with (inject_Z 0); rewrite <- Zlt_Qlt; lia).
  assert (E : (total (share_of rem n) == total rem * / inject_Z (Z.of_nat n))%Q) by (unfold total_q, share_of; destruct (np =? 1); field; lra).
  apply Qinv_lt_0_compat in N. destruct up; cbn [amount] in *; rewrite E; nra.
Qed.
Lemma amount_sum {A} (f : A -> Q) l : (amount up (qsum (map f l)) == qsum (map (fun x => amount up (f x)) l))%Q.
Proof. induction l as [|x l IH]; sums; [destruct up; cbn [amount]; lra|]. rewrite <- IH. destruct up; cbn [amount]; lra. Qed.
Lemma even_step rem sts u : even_inv rem sts -> 0 < count st_free sts -> let sh := share_of rem (count st_free sts) in
  (forall p, (u p == qsum (map (fun s => left_over sh s p) sts))%Q) -> even_inv u (map (step sh) sts).
Proof.
  intros (Rp & level & Lp & Lv) Hc sh U. pose proof (share_amount rem _ Hc Rp) as Sp. fold sh in Sp.
  assert (Pos : (0 <= amount up (total (vplus level sh)))%Q) by (destruct up; cbn [amount] in *; rewrite total_plus; lra).
  split; [|exists (vplus level sh); split; [exact Pos|]].
  - assert (E : (total u == qsum (map (fun s => total (left_over sh s)) sts))%Q) by (rewrite <- total_sum; apply total_ext; intros p _; apply U).
    assert (E2 : (amount up (total u) == qsum (map (fun s => amount up (total (left_over sh s))) sts))%Q).
    { rewrite <- amount_sum. destruct up; cbn [amount]; rewrite E; reflexivity. }
    rewrite E2. apply qsum_nonneg. intros s Hs. destruct (Lv s Hs) as [Z L]. destruct (st_free s) eqn:F.
    + destruct (hits sh s) eqn:Hh.
      * destruct L as [L _]. now apply (hit_bound sh s level).
      * unfold left_over. rewrite F. unfold hits in Hh. rewrite F in Hh. cbn [andb] in Hh. rewrite (offer_miss sh s Hh). destruct up; cbn [amount]; rewrite total_zero; lra.
    + unfold left_over. rewrite F. destruct up; cbn [amount]; rewrite total_zero; lra.
  - intros s Hs. apply in_map_iff in Hs. destruct Hs as (s0 & <- & Hs). destruct (Lv s0 Hs) as [Z L]. rewrite step_free, step_reg. split; [exact Z|].
    destruct (st_free s0) eqn:F; cbn [andb].
    + destruct (hits sh s0) eqn:Hh; cbn [negb]; destruct L as [L _]; [now apply (hit_bound sh s0 level)|]. split; [|now apply miss_within]. intros p. rewrite (miss_next sh s0 p F Hh), (L p). reflexivity.
    + destruct L as (m & E1 & E2 & E3). exists m. unfold step. rewrite F. repeat split; [exact E1|exact E2|]. destruct up; cbn [amount] in *; rewrite total_plus; lra.
Qed.
Theorem allocate_even req regs sts rest num : (0 <= amount up (total req))%Q -> (forall l r, In (l, r) regs -> contains_zero r) ->
  allocate_q_iterative_distribution np tol req regs = Done sts rest num -> even_inv rest sts.
Proof.
  intros Hr Hz. unfold allocate_q_iterative_distribution. intros H. eapply (distribute_inv even_inv); [| | |exact H].
  - intros rem sts0 u I C _ sh U. now apply (even_step rem).
  - now rewrite init_count.
  - split; [exact Hr|]. exists vzero. split; [destruct up; cbn [amount]; rewrite total_zero; lra|]. intros s Hs. apply in_map_iff in Hs. destruct Hs as ((l & r) & <- & Hs). cbn. split; [exact (Hz l r Hs)|]. split; [intros p; reflexivity|]. destruct (Hz l r Hs) as [Z1 Z2]. split; intros m Em; [specialize (Z1 m Em)|specialize (Z2 m Em)]; rewrite total_zero; lra.
Qed.
End Facts.
