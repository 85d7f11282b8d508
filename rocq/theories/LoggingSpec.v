(** Specification for C69: what a report should say, in terms of the list of what was logged. *)
From Verif Require Import Common Logging.
From Coq Require Import Permutation.
Local Open Scope Z_scope.

(** The numbers logged with a tag. *)
Definition numbers (t : Z) (evs : list log_event) : list Z :=
  flat_map (fun e => match le_body e with BNumber v => if le_tag e =? t then [v] else [] | _ => [] end) evs.
Definition total_of (l : list Z) : Z := fold_right Z.add 0 l.
Definition largest (l : list Z) : Z := fold_right Z.max 0 l.

(** What the report should say of a tag: nothing if no number was logged with it or the tag is not reported; the largest
    number (not below 0) for the numbers of iterations; the total for the others. *)
Definition is_iterations (t : Z) : bool := (t =? 2246) || (t =? 2248).
Definition is_reported (t : Z) : bool :=
  existsb (Z.eqb t)
    [0; 64; 128; 1000; 1100; 1200; 1201; 1300; 1400; 2100; 2200; 2210; 2220; 2221; 2222; 2223; 2224; 2225; 2226; 2227;
     2231; 2232; 2235; 2242; 2244; 2246; 2248; 3000].
Definition expected (t : Z) (evs : list log_event) : option Z :=
  if is_reported t then
    match numbers t evs with
    | [] => None
    | l => Some (if is_iterations t then largest l else total_of l)
    end
  else None.

Fixpoint reported (t : Z) (d : info) : option Z :=
  match d with
  | [] => None
  | (t', v) :: d' => if t' =? t then Some v else reported t d'
  end.

Section Trace.
Context {Op : Type}.
Notation action := (action Op).

(** What thread [i] has logged. *)
Definition logged_by (i : nat) (tr : list action) : list log_event :=
  flat_map (fun a => match a with ChildLog j e => if Nat.eqb j i then [e] else [] | _ => [] end) tr.
Definition logged_by_main (tr : list action) : list log_event :=
  flat_map (fun a => match a with MainLog e => [e] | _ => [] end) tr.
(** All that was logged, by anybody. *)
Definition logged (tr : list action) : list log_event :=
  flat_map (fun a => match a with ChildLog _ e => [e] | MainLog e => [e] | _ => [] end) tr.
(** The thread's logger has been destroyed. *)
Definition is_destroyed (i : nat) (tr : list action) : bool :=
  existsb (fun a => match a with Destroy j => Nat.eqb j i | _ => false end) tr.
(** All that was logged by the main thread or by a thread whose logger has been destroyed. *)
Definition handed_in (tr : list action) : list log_event :=
  flat_map (fun a => match a with ChildLog i e => if is_destroyed i tr then [e] else [] | MainLog e => [e] | _ => [] end) tr.

(** The order in which a text should show what was logged: the main thread's when they are logged, those of a thread
    together, when its logger is destroyed. [seen] is what happened before [tr]. *)
Fixpoint text_order (seen tr : list action) : list log_event :=
  match tr with
  | [] => []
  | a :: tr' =>
      match a with MainLog e => [e] | Destroy i => logged_by i seen | _ => [] end ++ text_order (seen ++ [a]) tr'
  end.

(** The actions on the logger of thread [i]. *)
Definition on_child (i : nat) (a : action) : bool :=
  match a with
  | Create j | ChildLog j _ | Sync j | Destroy j => Nat.eqb j i
  | MainLog _ | MainDo _ => false
  end.
Definition no_sync (tr : list action) : Prop := forall i, ~ In (Sync i) tr.
Definition only_ops (ok : Op -> Prop) (tr : list action) : Prop := forall o, In (MainDo o) tr -> ok o.
End Trace.
