(** Shared definitions: results, errors and small list helpers. *)
From Coq Require Export List Arith ZArith Bool Lia.
From Coq Require Export ZifyBool ZifyNat ZifyN.
Export ListNotations.

(** Exceptions of common/exception.hpp (lines 1-298) that the modelled code can raise.
    Only the fields that the code reports and that the theorems mention are kept. *)
Inductive exn : Type :=
| ConflictID (id : Z)
| IDNotFound (id : Z)
| IDWrongType (id : Z)
| InvalidMeasuredObject
| InvalidRegulatedObject (id : Z)
| DuplicativelyRegulatedObject
| MissingCaseForEnumError
| InvalidMeasuredTerminalType
| InvalidTransformerClock
| InvalidShortCircuitPhases
| InvalidCalculationMethod
| InvalidArguments
| DatasetError
| IterationDiverge
| MaxIterationReached
| SparseMatrixError
| NotObservableError
| ConflictVoltageError
| UnsupportedVoltageRegulatorError
| NotImplementedError
| OtherError (tag : nat).

(** A C++ computation that may throw. *)
Inductive res (A : Type) : Type :=
| Ok (a : A)
| Err (e : exn).
Arguments Ok {A} a.
Arguments Err {A} e.

Definition bind {A B} (r : res A) (f : A -> res B) : res B :=
  match r with Ok a => f a | Err e => Err e end.
Notation "'let!' x := r 'in' k" := (bind r (fun x => k))
  (at level 200, x pattern, r at level 100, k at level 200, right associativity).

(** Fold that stops at the first error: a C++ range-for whose body may throw. *)
Fixpoint foldM {A B} (f : B -> A -> res B) (l : list A) (b : B) : res B :=
  match l with
  | [] => Ok b
  | a :: l' => match f b a with Ok b' => foldM f l' b' | Err e => Err e end
  end.

(** Functional update of one list position (a C++ [v[i] = x]); out of range leaves the list as it is,
    callers that need the C++ precondition state it. *)
Fixpoint upd {A} (i : nat) (x : A) (l : list A) : list A :=
  match l, i with
  | [], _ => []
  | _ :: l', O => x :: l'
  | y :: l', S i' => y :: upd i' x l'
  end.

(** std::upper_bound on a sorted range: number of leading elements that are <= x. *)
Fixpoint upper_bound (l : list nat) (x : nat) : nat :=
  match l with
  | [] => 0
  | y :: l' => if x <? y then 0 else S (upper_bound l' x)
  end.

(** std::lower_bound on a sorted range: number of leading elements that are < x. *)
Fixpoint lower_bound (l : list nat) (x : nat) : nat :=
  match l with
  | [] => 0
  | y :: l' => if y <? x then S (lower_bound l' x) else 0
  end.

Lemma upd_length {A} i (x : A) l : length (upd i x l) = length l.
Proof. revert i; induction l as [|y l IH]; intros [|i]; simpl; auto. Qed.

Lemma nth_error_upd_eq {A} i (x : A) l : i < length l -> nth_error (upd i x l) i = Some x.
Proof. revert i; induction l as [|y l IH]; intros [|i] H; simpl in *; try lia; auto; apply IH; lia. Qed.

Lemma nth_error_upd_neq {A} i j (x : A) l : i <> j -> nth_error (upd i x l) j = nth_error l j.
Proof.
  revert i j; induction l as [|y l IH]; intros [|i] [|j] H; simpl; auto; try congruence; apply IH; lia.
Qed.

Lemma nth_upd_eq {A} i (x d : A) l : i < length l -> nth i (upd i x l) d = x.
Proof. revert i; induction l as [|y l IH]; intros [|i] H; simpl in *; try lia; auto; apply IH; lia. Qed.

Lemma nth_upd_neq {A} i j (x d : A) l : i <> j -> nth j (upd i x l) d = nth j l d.
Proof.
  revert i j; induction l as [|y l IH]; intros [|i] [|j] H; simpl; auto; try congruence; apply IH; lia.
Qed.

Lemma nth_error_ext {A} (l l' : list A) : (forall i, nth_error l i = nth_error l' i) -> l = l'.
Proof.
  revert l'; induction l as [|a l IH]; intros [|b l'] H; auto.
  - specialize (H 0); discriminate.
  - specialize (H 0); discriminate.
  - f_equal; [specialize (H 0); simpl in H; congruence|].
    apply IH; intros i; exact (H (S i)).
Qed.

Lemma upd_same {A} i (l : list A) x : nth_error l i = Some x -> upd i x l = l.
Proof.
  revert i; induction l as [|y l IH]; intros [|i] H; simpl in *; auto; try congruence; f_equal; auto.
Qed.

Lemma upd_upd_eq {A} i (x y : A) l : upd i y (upd i x l) = upd i y l.
Proof. revert i; induction l as [|z l IH]; intros [|i]; simpl; auto. f_equal; auto. Qed.

Lemma upd_upd_comm {A} i j (x y : A) l : i <> j -> upd i x (upd j y l) = upd j y (upd i x l).
Proof.
  revert i j; induction l as [|z l IH]; intros [|i] [|j] H; simpl; auto; try congruence; f_equal; apply IH; lia.
Qed.

Lemma foldM_app {A B} (f : B -> A -> res B) l1 l2 b :
  foldM f (l1 ++ l2) b = bind (foldM f l1 b) (fun b' => foldM f l2 b').
Proof.
  revert b; induction l1 as [|a l1 IH]; intros b; simpl; auto.
  destruct (f b a); simpl; auto.
Qed.

Lemma upper_bound_le l x : upper_bound l x <= length l.
Proof. induction l as [|y l IH]; simpl; auto. destruct (x <? y); simpl; lia. Qed.

Lemma lower_bound_le l x : lower_bound l x <= length l.
Proof. induction l as [|y l IH]; simpl; auto. destruct (y <? x); simpl; lia. Qed.

Lemma NoDup_app_r {A} (l1 l2 : list A) : NoDup (l1 ++ l2) -> NoDup l2.
Proof. induction l1 as [|x l1 IH]; simpl; auto. intros H; apply NoDup_cons_iff in H; tauto. Qed.

Lemma NoDup_flat_map {X Y} (f : X -> list Y) l : NoDup (flat_map f l) ->
  forall n1 n2 x1 x2 y, nth_error l n1 = Some x1 -> nth_error l n2 = Some x2 ->
    In y (f x1) -> In y (f x2) -> n1 = n2.
Proof.
  induction l as [|x l IH]; intros HN [|n1] [|n2] x1 x2 y H1 H2 Hy1 Hy2; simpl in *; auto; try discriminate.
  - injection H1 as ->. exfalso. apply nth_error_In in H2.
    assert (In y (flat_map f l)) by (apply in_flat_map; eauto).
    clear - HN H Hy1. induction (f x1) as [|z zs IHz]; [auto|].
    simpl in HN. apply NoDup_cons_iff in HN as [Hz HN]. destruct Hy1 as [->|Hy1]; auto.
    apply Hz. apply in_or_app; auto.
  - injection H2 as ->. exfalso. apply nth_error_In in H1.
    assert (In y (flat_map f l)) by (apply in_flat_map; eauto).
    clear - HN H Hy2. induction (f x2) as [|z zs IHz]; [auto|].
    simpl in HN. apply NoDup_cons_iff in HN as [Hz HN]. destruct Hy2 as [->|Hy2]; auto.
    apply Hz. apply in_or_app; auto.
  - f_equal. eapply IH; eauto. now apply NoDup_app_r in HN.
Qed.

Lemma NoDup_flat_map_intro {X Y} (f : X -> list Y) l :
  (forall x, In x l -> NoDup (f x)) ->
  (forall n1 n2 x1 x2 y, nth_error l n1 = Some x1 -> nth_error l n2 = Some x2 ->
    In y (f x1) -> In y (f x2) -> n1 = n2) -> NoDup (flat_map f l).
Proof.
  induction l as [|x l IH]; intros H1 H2; simpl; [constructor|].
  assert (HD : forall y, In y (f x) -> ~ In y (flat_map f l)).
  { intros y Hy Hin. apply in_flat_map in Hin as (x' & Hx' & Hy'). apply In_nth_error in Hx' as [n Hn].
    specialize (H2 0 (S n) x x' y eq_refl Hn Hy Hy'). discriminate. }
  assert (HN : NoDup (flat_map f l)).
  { apply IH; [intros; apply H1; simpl; auto|].
    intros n1 n2 x1 x2 y Hn1 Hn2 Hy1 Hy2. specialize (H2 (S n1) (S n2) x1 x2 y Hn1 Hn2 Hy1 Hy2). congruence. }
  assert (HF : NoDup (f x)) by (apply H1; simpl; auto).
  clear H1 H2 IH. induction (f x) as [|z zs IHz]; simpl; auto.
  apply NoDup_cons_iff in HF as [Hz HF]. constructor.
  - intros Hin. apply in_app_or in Hin as [Hin|Hin]; auto. apply (HD z); simpl; auto.
  - apply IHz; auto. intros y Hy. apply HD. simpl; auto.
Qed.

Lemma nth_error_firstn {X} (l : list X) k n :
  nth_error (firstn k l) n = if n <? k then nth_error l n else None.
Proof.
  revert k n; induction l as [|x l IH]; intros [|k] [|n]; simpl; auto.
  - now destruct (S n <? S k).
  - rewrite IH. reflexivity.
Qed.

