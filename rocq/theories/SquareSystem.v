(** Linear equations over a field: fewer equations than unknowns have a solution that is not zero; so as many equations as unknowns that only zero
    solves when the right hand sides are zero have a solution for all right hand sides. *)
From Coq Require Import Field.
From Coq Require FinFun.
From Verif Require Import Common Numbers.

Section Square.
Context {C : Type} (o : num_ops C) (L : num_laws o).
Add Field NumFieldSq : (nl_field o L).
Local Notation "a + b" := (n_add o a b) : num_scope. Local Notation "a * b" := (n_mul o a b) : num_scope. Local Notation "a - b" := (n_sub o a b) : num_scope.
Local Notation "a / b" := (n_div o a b) : num_scope. Local Notation "- a" := (n_opp o a) : num_scope.
Local Notation zero := (n_zero o). Local Notation one := (n_one o).
Local Open Scope num_scope.
Hypothesis eqdec : forall a b : C, {a = b} + {a <> b}.
Context {A : Type} (A_dec : forall a b : A, {a = b} + {a <> b}).

Lemma nsum_cons {B} (f : B -> C) b l : nsum o (map f (b :: l)) = f b + nsum o (map f l). Proof. reflexivity. Qed.
Lemma nsum_out (f : A -> C) c l : NoDup l -> In c l -> nsum o (map f l) = f c + nsum o (map f (remove A_dec c l)).
Proof.
  induction l as [|b l IH]; intros N I; [destruct I|]. inversion_clear N as [|? ? Nb Nl]. rewrite nsum_cons. cbn [remove]. destruct (A_dec c b) as [<-|Hb].
  - rewrite notin_remove by exact Nb. reflexivity.
  - destruct I as [->|I]; [congruence|]. rewrite nsum_cons, (IH Nl I). ring.
Qed.
Lemma remove_NoDup c (l : list A) : NoDup l -> NoDup (remove A_dec c l).
Proof.
  induction 1 as [|b l Nb Nl IH]; cbn [remove]; [constructor|]. destruct (A_dec c b); [exact IH|]. constructor; [|exact IH]. intros H. apply in_remove in H. tauto.
Qed.
Lemma remove_length_in c (l : list A) : NoDup l -> In c l -> length l = S (length (remove A_dec c l)).
Proof.
  induction l as [|b l IH]; intros N I; [destruct I|]. inversion_clear N as [|? ? Nb Nl]. cbn [remove]. destruct (A_dec c b) as [<-|Hb].
  - now rewrite notin_remove.
  - destruct I as [->|I]; [congruence|]. cbn [length]. now rewrite <- IH.
Qed.
(** every equation is given by its coefficients *)
Lemma nontrivial (rows : list (A -> C)) : forall cols, NoDup cols -> length rows < length cols ->
  exists x : A -> C, (exists c, In c cols /\ x c <> zero) /\ forall r, In r rows -> nsum o (map (fun c => r c * x c) cols) = zero.
Proof.
  remember (length rows) as m eqn:Em. revert rows Em. induction m as [|m IH]; intros rows Em cols N H.
  - destruct rows; [|discriminate]. destruct cols as [|c cols]; [cbn in H; lia|]. exists (fun _ => one). split; [|intros r []].
    exists c. split; [left; reflexivity|]. exact (F_1_neq_0 (nl_field o L)).
  - destruct rows as [|r rows]; [discriminate|]. injection Em as Em. destruct (Exists_dec (fun c => r c <> zero) cols) as [X|X].
    { intros c. destruct (eqdec (r c) zero) as [E|E]; [right; congruence|left; exact E]. }
    + apply Exists_exists in X as (c & Hc & Rc). set (rows' := map (fun (r' : A -> C) j => r' j - r' c * r j / r c) rows).
      destruct (IH rows' ltac:(unfold rows'; now rewrite map_length) (remove A_dec c cols) (remove_NoDup _ _ N)) as (x & (d & Hd & Xd) & Hx).
      { pose proof (remove_length_in c cols N Hc). lia. }
      set (s := nsum o (map (fun j => r j * x j) (remove A_dec c cols))).
      exists (fun j => if A_dec j c then - s / r c else x j). split.
      { exists d. apply in_remove in Hd as [Hd Hn]. split; [exact Hd|]. destruct (A_dec d c); [congruence|exact Xd]. }
      assert (Ext : forall q : A -> C, nsum o (map (fun j => q j * (if A_dec j c then - s / r c else x j)) (remove A_dec c cols)) = nsum o (map (fun j => q j * x j) (remove A_dec c cols))).
      { intros q. apply nsum_ext. intros j Hj. apply in_remove in Hj as [_ Hj]. destruct (A_dec j c); [congruence|reflexivity]. }
      intros q [<-|Hq]; rewrite (nsum_out _ c cols N Hc), Ext; destruct (A_dec c c) as [_|]; try congruence.
      * fold s. field. exact Rc.
      * assert (Q := Hx (fun j => q j - q c * r j / r c) ltac:(unfold rows'; apply in_map_iff; now exists q)).
        rewrite (nsum_ext o _ (fun j => q j * x j - (q c / r c) * (r j * x j))) in Q by (intros; field; exact Rc).
        rewrite (nsum_sub o L), (nsum_scale o L) in Q. fold s in Q. rewrite <- Q. field. exact Rc.
    + assert (Z : forall c, In c cols -> r c = zero).
      { intros c Hc. destruct (eqdec (r c) zero) as [E|E]; [exact E|]. exfalso. apply X. apply Exists_exists. eauto. }
      destruct (IH rows Em cols N ltac:(lia)) as (x & Hn & Hx). exists x. split; [exact Hn|]. intros q [<-|Hq]; [|auto]. apply nsum_zero; [exact L|].
      intros c Hc. rewrite (Z c Hc). ring.
Qed.
End Square.

Section Solve.
Context {C : Type} (o : num_ops C) (L : num_laws o).
Add Field NumFieldSv : (nl_field o L).
Local Notation "a + b" := (n_add o a b) : num_scope. Local Notation "a * b" := (n_mul o a b) : num_scope. Local Notation "a / b" := (n_div o a b) : num_scope. Local Notation "- a" := (n_opp o a) : num_scope.
Local Notation zero := (n_zero o). Local Notation one := (n_one o).
Local Open Scope num_scope.
Hypothesis eqdec : forall a b : C, {a = b} + {a <> b}.
Context {A : Type} (A_dec : forall a b : A, {a = b} + {a <> b}).
Lemma solvable (cols : list A) (m : A -> A -> C) (b : A -> C) : NoDup cols ->
  (forall x, (forall i, In i cols -> nsum o (map (fun j => m i j * x j) cols) = zero) -> forall j, In j cols -> x j = zero) ->
  exists x, forall i, In i cols -> nsum o (map (fun j => m i j * x j) cols) = b i.
Proof.
  intros N K.
  assert (D : forall a c : option A, {a = c} + {a <> c}) by (intros [a|] [c|]; try (right; discriminate); [destruct (A_dec a c); [left; congruence|right; congruence]|left; reflexivity]).
  set (row i (c : option A) := match c with Some j => m i j | None => - b i end).
  destruct (nontrivial o L eqdec D (map row cols) (None :: map Some cols)) as (x & (c & Hc & Xc) & Hx).
  { constructor; [|apply FinFun.Injective_map_NoDup; [intros a a'; congruence|exact N]]. intros H. apply in_map_iff in H as (a & E & _). discriminate. }
  { cbn [length]. rewrite !map_length. lia. }
  assert (Hr : forall i, In i cols -> - b i * x None + nsum o (map (fun j => m i j * x (Some j)) cols) = zero).
  { intros i Hi. rewrite <- (Hx (row i)) by (apply in_map_iff; now exists i). rewrite nsum_cons. cbn [row]. rewrite map_map. reflexivity. }
  destruct (eqdec (x None) zero) as [E|E].
  - exfalso. apply Xc. destruct Hc as [<-|Hc]; [exact E|]. apply in_map_iff in Hc as (j & <- & Hj). apply (K (fun j => x (Some j))); [|exact Hj].
    intros i Hi. rewrite <- (Hr i Hi), E. ring.
  - exists (fun j => x (Some j) / x None). intros i Hi.
    rewrite (nsum_ext o _ (fun j => (one / x None) * (m i j * x (Some j)))) by (intros; field; exact E). rewrite (nsum_scale o L).
    assert (Q : nsum o (map (fun j => m i j * x (Some j)) cols) = b i * x None); [|rewrite Q; field; exact E].
    transitivity (zero + b i * x None); [rewrite <- (Hr i Hi); ring|ring].
Qed.
End Solve.
