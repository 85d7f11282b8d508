(** Facts about trees and numbers of linked buses for the observability check. *)
From Coq Require Import Relations.
From Verif Require Import Common Observability ObservabilitySpec.

Section Tree.
Variables (n n_branch : nat) (branch_bus : nat -> bool -> option nat) (flow injection phasor : nat -> bool).
Local Notation joins := (ObservabilitySpec.joins n_branch branch_bus).
Local Notation determines := (ObservabilitySpec.determines n n_branch branch_bus flow injection).
Local Notation linked := (ObservabilitySpec.linked n_branch branch_bus).

Lemma joins_sym k a b : joins k a b -> joins k b a. Proof. intros [H [J|J]]; split; auto. Qed.
Lemma linked_sym l a b : linked l a b -> linked l b a. Proof. apply rst_sym. Qed.
Lemma linked_trans l a b c : linked l a b -> linked l b c -> linked l a c. Proof. apply rst_trans. Qed.
Lemma linked_step l k s a b : In (k, s) l -> joins k a b -> linked l a b. Proof. intros I J. apply rst_step. eauto. Qed.
Lemma linked_incl l l' a b : (forall k s, In (k, s) l -> exists s', In (k, s') l') -> linked l a b -> linked l' a b.
Proof.
  intros H. induction 1 as [a b (k & s & I & J)|a|a b _ IH|a b c _ IH1 _ IH2].
  - destruct (H k s I) as [s' I']. exact (linked_step _ _ _ _ _ I' J).
  - apply rst_refl.
  - apply linked_sym. exact IH.
  - exact (linked_trans _ _ _ _ IH1 IH2).
Qed.

(** ** A tree that has grown from a bus: the parent, the child, the branch and its sensor; the last edge first *)
Record edge : Type := mkEdge { parent : nat; child : nat; branch : nat; source : sensor }.
Definition children (t : list edge) : list nat := map child t.
Inductive tree (start : nat) : list edge -> Prop :=
| tree_start : tree start []
| tree_edge : forall e t, tree start t -> In (parent e) (children t ++ [start]) -> ~ In (child e) (children t ++ [start]) -> joins (branch e) (parent e) (child e) -> tree start (e :: t).
Definition used (t : list edge) : list (nat * sensor) := map (fun e => (branch e, source e)) t.
Lemma tree_nodup start t : tree start t -> NoDup (children t ++ [start]).
Proof. induction 1; cbn; [repeat constructor; intros []|]. constructor; assumption. Qed.
Lemma tree_linked start t : tree start t -> forall b, In b (children t ++ [start]) -> linked (used t) b start.
Proof.
  induction 1 as [|e t H IH P C J]; intros b I.
  - destruct I as [<-|[]]. apply rst_refl.
  - assert (W : forall a c, linked (used t) a c -> linked (used (e :: t)) a c) by (intros a c; apply linked_incl; intros k s I'; exists s; right; exact I').
    destruct I as [<-|I]; [|apply W, IH, I]. apply linked_trans with (parent e); [|apply W, IH, P].
    apply linked_sym. eapply linked_step; [left; reflexivity|exact J].
Qed.
Lemma tree_parent start t e : tree start t -> In e t -> In (parent e) (children t ++ [start]) /\ joins (branch e) (parent e) (child e).
Proof. induction 1 as [|e' t H IH P C J]; intros I; [destruct I|]. destruct I as [<-|I]; [split; [right; exact P|exact J]|]. destruct (IH I) as [A B]. split; [right; exact A|exact B]. Qed.
Lemma tree_distinct start t e : tree start t -> In e t -> parent e <> child e.
Proof. induction 1 as [|e' t H IH P C J]; intros I; [destruct I|]. destruct I as [<-|I]; [|exact (IH I)]. intros E. rewrite E in P. contradiction. Qed.
Lemma tree_two start t e e' : tree start t -> In e t -> In e' t -> parent e = child e' -> parent e' = child e -> False.
Proof.
  induction 1 as [|e0 t H IH P C J]; intros I I' A B; [destruct I|]. destruct I as [<-|I], I' as [<-|I'].
  - rewrite A in P. contradiction.
  - apply C. rewrite <- B. apply (tree_parent _ _ _ H I').
  - apply C. rewrite <- A. apply (tree_parent _ _ _ H I).
  - exact (IH I I' A B).
Qed.
Lemma tree_same_child start t e e' : tree start t -> In e t -> In e' t -> child e = child e' -> e = e'.
Proof.
  induction 1 as [|e0 t H IH P C J]; intros I I' A; [destruct I|]. destruct I as [<-|I], I' as [<-|I'].
  - reflexivity.
  - destruct C. apply in_or_app. left. rewrite A. apply in_map, I'.
  - destruct C. apply in_or_app. left. rewrite <- A. apply in_map, I.
  - exact (IH I I' A).
Qed.
(** the sensor of one edge replaced *)
Definition replace (c : nat) (s : sensor) (e : edge) : edge := if child e =? c then mkEdge (parent e) (child e) (branch e) s else e.
Lemma replace_same c s e : parent (replace c s e) = parent e /\ child (replace c s e) = child e /\ branch (replace c s e) = branch e.
Proof. unfold replace. destruct (child e =? c); repeat split. Qed.
Lemma replace_children c s t : children (map (replace c s) t) = children t.
Proof. unfold children. rewrite map_map. apply map_ext. intros e. apply replace_same. Qed.
Lemma replace_tree start c s t : tree start t -> tree start (map (replace c s) t).
Proof.
  induction 1 as [|e t H IH P C J]; cbn; [constructor|]. destruct (replace_same c s e) as (E1 & E2 & E3). constructor; rewrite ?replace_children, ?E1, ?E2, ?E3; assumption.
Qed.
(** the tree reaches as many buses as it has edges, and one *)
Lemma all_reached start t : tree start t -> (forall b, In b (children t ++ [start]) -> b < n) -> S (length t) = n -> forall b, b < n -> In b (children t ++ [start]).
Proof.
  intros T B L b Hb. assert (I : incl (seq 0 n) (children t ++ [start])).
  { apply NoDup_length_incl; [exact (tree_nodup _ _ T)| |intros a Ha; apply in_seq; specialize (B a Ha); lia]. rewrite app_length. unfold children. rewrite map_length, seq_length. cbn. lia. }
  apply I. apply in_seq. lia.
Qed.
Lemma all_linked start t : tree start t -> (forall b, In b (children t ++ [start]) -> b < n) -> S (length t) = n -> forall a b, a < n -> b < n -> linked (used t) a b.
Proof.
  intros T B L a b Ha Hb. apply linked_trans with start; [|apply linked_sym]; apply (tree_linked _ _ T); apply all_reached; assumption.
Qed.
Lemma linked_observable l : (forall k s, In (k, s) l -> determines k s) -> NoDup (map snd l) -> (forall a b, a < n -> b < n -> linked l a b) -> observable n n_branch branch_bus flow injection phasor.
Proof.
  intros D N A. exists l. split; [exact D|]. split; [exact N|]. destruct (existsb phasor (seq 0 n)) eqn:E.
  - left. apply existsb_exists in E. destruct E as (c & I & P). apply in_seq in I. intros b Hb. exists c. split; [lia|]. split; [exact P|]. apply A; [exact Hb|lia].
  - right. split; [|exact A]. intros a Ha. destruct (phasor a) eqn:P; [|reflexivity]. assert (X : existsb phasor (seq 0 n) = true) by (apply existsb_exists; exists a; split; [apply in_seq; lia|exact P]). congruence.
Qed.

(** ** A spanning tree with the injections at the children *)
Lemma crossing (R : nat -> nat -> Prop) (f : nat -> bool) a b : clos_refl_sym_trans nat R a b -> f a = true -> f b = false -> exists x y, (R x y \/ R y x) /\ f x = true /\ f y = false.
Proof.
  intros H. apply clos_rst_rst1n in H. induction H as [a|a c b S H IH]; intros A B; [congruence|].
  destruct (f c) eqn:C; [exact (IH eq_refl B)|]. exists a, c. split; [exact S|]. split; assumption.
Qed.
Lemma forallb_fails {A} (f : A -> bool) l : forallb f l = false -> exists x, In x l /\ f x = false.
Proof. induction l as [|a l IH]; cbn; [discriminate|]. destruct (f a) eqn:E; [|exists a; auto]. intros H. destruct (IH H) as (x & I & F). exists x. auto. Qed.
Definition member (l : list nat) (b : nat) : bool := existsb (Nat.eqb b) l.
Lemma member_iff l b : member l b = true <-> In b l.
Proof. unfold member. rewrite existsb_exists. split; [intros (x & I & E); apply Nat.eqb_eq in E; subst; exact I|intros I; exists b; split; [exact I|apply Nat.eqb_refl]]. Qed.
Lemma grow start m : grid_ok n branch_bus -> ObservabilitySpec.connected n n_branch branch_bus -> start < n -> m < n ->
  exists t, tree start t /\ length t = m /\ (forall b, In b (children t ++ [start]) -> b < n) /\ forall e, In e t -> source e = injection_at (child e).
Proof.
  intros OK C Hs. induction m as [|m IH]; intros Hm.
  - exists []. repeat split; [constructor|intros b [<-|[]]; exact Hs|intros e []].
  - destruct IH as (t & T & L & B & S); [lia|].
    assert (X : exists b, b < n /\ member (children t ++ [start]) b = false).
    { destruct (forallb (member (children t ++ [start])) (seq 0 n)) eqn:E.
      - rewrite forallb_forall in E. assert (I : incl (seq 0 n) (children t ++ [start])) by (intros x Hx; apply member_iff, E, Hx).
        apply NoDup_incl_length in I; [|apply seq_NoDup]. rewrite app_length, seq_length in I. unfold children in I. rewrite map_length in I. cbn in I. lia.
      - apply forallb_fails in E. destruct E as (x & I & F). apply in_seq in I. exists x. split; [lia|exact F]. }
    destruct X as (b & Hb & Nb).
    destruct (crossing _ (member (children t ++ [start])) _ _ (C start b Hs Hb)) as (x & y & J & Mx & My); [apply member_iff, in_or_app; right; left; reflexivity|exact Nb|].
    assert (J' : exists k, joins k x y) by (destruct J as [(k & J)|(k & J)]; exists k; [exact J|apply joins_sym, J]). destruct J' as (k & J').
    assert (Hy : y < n) by (destruct J' as [_ [(_ & E)|(E & _)]]; exact (ok_bus _ _ OK _ _ _ E)).
    assert (Ny : ~ In y (children t ++ [start])) by (intros I; apply member_iff in I; congruence). apply member_iff in Mx.
    exists (mkEdge x y k (injection_at y) :: t). split; [constructor; assumption|]. split; [cbn; congruence|]. split.
    + intros a [<-|I]; [exact Hy|exact (B a I)].
    + intros e [<-|I]; [reflexivity|exact (S e I)].
Qed.
End Tree.
