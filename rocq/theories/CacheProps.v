(** Properties C13 and C14: results do not depend on the history of a model object; copies are independent. *)
From Verif Require Import Common Container Component MainModel UpdateFacts UpdateProps CacheSpec CacheFacts Copy CopyFacts.

Section Props.
Context {O : DOps} {T P Opt R : Type} (orc : oracles T P Opt R).
Notation mm := (mm (T := T) (P := P)).

(** ** C13 *)

(** For solvers that do not keep a factorised matrix: after every history of updates, undone updates and calculations,
    failing or not, a calculation returns what [pure_calculation] computes from the components alone. Partial: see the
    next theorem and C13_source_impedance_refuted for iterative current and linear current calculations. *)
Theorem C13_no_stale_cache_partial : forall c0 (ops : list (op (Opt := Opt))) (st : mm) opts,
  run orc (fresh_mm c0) ops = Some st ->
  (forall top g, uses_fact orc top g opts = false) ->
  snd (calculate orc opts st) = Some (pure_calculation orc opts (m_comps st)).
Proof.
  intros c0 ops st opts H HU. apply calculate_plain; auto. eapply run_Inv; eauto. apply fresh_Inv.
Qed.

(** For all solvers: if no update of the history gives new source impedances. *)
Theorem C13_no_stale_factorisation_partial : forall c0 (ops : list (op (Opt := Opt))) (st : mm) opts,
  run orc (fresh_mm c0) ops = Some st -> Forall leaves_source_impedance ops ->
  snd (calculate orc opts st) = Some (pure_calculation orc opts (m_comps st)).
Proof.
  intros c0 ops st opts H HS. destruct (fresh_ok orc c0) as [FI FS].
  apply calculate_fact; [eapply run_Inv; eauto|]. eapply run_InvS; eauto.
Qed.

(** The same result as a model freshly created with the same component state. *)
Theorem C13_same_as_fresh_model_partial : forall c0 (ops : list (op (Opt := Opt))) (st : mm) opts,
  run orc (fresh_mm c0) ops = Some st ->
  (forall top g, uses_fact orc top g opts = false) \/ Forall leaves_source_impedance ops ->
  snd (calculate orc opts st) = snd (calculate orc opts (fresh_mm (m_comps st))).
Proof.
  intros c0 ops st opts H HS. destruct (fresh_ok orc (m_comps st)) as [FI FS].
  destruct HS as [HS|HS].
  - rewrite (C13_no_stale_cache_partial c0 ops); auto. symmetry. exact (calculate_plain orc opts (fresh_mm (m_comps st)) FI HS).
  - rewrite (C13_no_stale_factorisation_partial c0 ops); auto. symmetry. exact (proj1 (calculate_fact orc opts (fresh_mm (m_comps st)) FI (proj1 FS))).
Qed.

(** A calculation leaves the components and the pending undo records alone, and never reaches undefined behaviour. *)
Theorem C13_calculation_keeps_components : forall c0 (ops : list (op (Opt := Opt))) (st : mm) opts,
  run orc (fresh_mm c0) ops = Some st ->
  m_comps (fst (calculate orc opts st)) = m_comps st /\ m_inv (fst (calculate orc opts st)) = m_inv st /\
  snd (calculate orc opts st) <> None.
Proof.
  intros c0 ops st opts H. assert (HI : Inv orc (m_comps st) (m_cache st)) by (eapply run_Inv; eauto; apply fresh_Inv).
  destruct (calculate_Inv orc opts st HI) as (_ & A & B). split; [|split]; auto. now apply calculate_some.
Qed.

(** ** C14 *)

(** Whatever is done with the two objects: the components of each are those it would have without the other one. *)
Theorem C14_components_independent : forall c0 ops0 (st : mm) (xs : list (wop (Opt := Opt))) (w : world (T := T) (P := P)),
  run orc (fresh_mm c0) ops0 = Some st -> wrun orc (copied st) xs = Some w ->
  exists so sc, run orc st (original_ops xs) = Some so /\ run orc st (copy_ops xs) = Some sc /\
    m_comps (w_copy w) = m_comps sc /\
    (forall o, w_orig w = Some o -> m_comps o = m_comps so).
Proof.
  intros c0 ops0 st xs w H0 H.
  assert (HI : Inv orc (m_comps st) (m_cache st)) by (eapply run_Inv; eauto; apply fresh_Inv).
  destruct (wrun_related orc xs (copied st) w st st) as (so & sc & Ho & Hc & HR); auto.
  { unfold related, copied. cbn. repeat (split; [assumption || (repeat split)|]); repeat split; auto. }
  exists so, sc. destruct HR as (_ & _ & (D & _) & _ & HO). refine (conj Ho (conj Hc (conj D _))).
  intros o Eo. rewrite Eo in HO. apply HO.
Qed.

(** The copy calculates from its own components (solvers without kept factorisation), whatever is done with the original. *)
Theorem C14_copy_results_partial : forall c0 ops0 (st : mm) (xs : list (wop (Opt := Opt))) (w : world (T := T) (P := P)) opts,
  run orc (fresh_mm c0) ops0 = Some st -> wrun orc (copied st) xs = Some w ->
  (forall top g, uses_fact orc top g opts = false) ->
  snd (calculate orc opts (w_copy w)) = Some (pure_calculation orc opts (m_comps (w_copy w))).
Proof.
  intros c0 ops0 st xs w opts H0 H HU.
  assert (HI : Inv orc (m_comps st) (m_cache st)) by (eapply run_Inv; eauto; apply fresh_Inv).
  destruct (wrun_related orc xs (copied st) w st st) as (so & sc & Ho & Hc & HR); auto.
  { unfold related, copied. cbn. repeat (split; [assumption || (repeat split)|]); repeat split; auto. }
  apply calculate_plain; auto. apply HR.
Qed.

(** The original calculates from its own components, whatever is done with the copy: the flags raised by the copy only
    cost a factorisation. *)
Theorem C14_original_results_partial : forall c0 ops0 (st : mm) (xs : list (wop (Opt := Opt))) (w : world (T := T) (P := P)) opts o,
  run orc (fresh_mm c0) ops0 = Some st -> wrun orc (copied st) xs = Some w -> w_orig w = Some o ->
  (forall top g, uses_fact orc top g opts = false) \/ Forall leaves_source_impedance (ops0 ++ original_ops xs) ->
  snd (calculate orc opts o) = Some (pure_calculation orc opts (m_comps o)).
Proof.
  intros c0 ops0 st xs w opts o H0 H Eo HS.
  assert (HI : Inv orc (m_comps st) (m_cache st)) by (eapply run_Inv; eauto; apply fresh_Inv).
  destruct HS as [HU|HL].
  - destruct (wrun_related orc xs (copied st) w st st) as (so & sc & Ho & Hc & HR); auto.
    { unfold related, copied. cbn. repeat (split; [assumption || (repeat split)|]); repeat split; auto. }
    destruct HR as (_ & _ & _ & _ & HO). rewrite Eo in HO. apply calculate_plain; auto. apply HO.
  - apply Forall_app in HL as [HL0 HL]. destruct (fresh_ok orc c0) as [FI FS].
    destruct (wrun_InvS orc xs HL (copied st) w H) with (st' := o) as [A B]; auto.
    { cbn. intros s Hs. injection Hs as <-. split; auto. eapply run_InvS; eauto. }
    apply calculate_fact; auto. apply B.
Qed.
End Props.

(** ** A concrete grid *)

Local Existing Instance ZOps.

(** One sub-grid with everything energised; the parameter is what it is computed from; the solver shows the matrix it has
    factorised and the current admittances. The option says whether the solver keeps a factorised matrix. *)
Definition show_orc : oracles unit pkey bool (list (list (option pkey)) * list (list (option pkey))) :=
  {| build_topo := fun _ => tt; group_of := fun _ _ _ => Some 0; n_math := fun _ => 1;
     calc_par := fun _ _ _ k => Some k; check_valid := fun _ => None; sym_of := fun _ _ => true;
     check_opts := fun _ _ => None; uses_fact := fun _ _ o => o; prefactor := fun _ _ _ _ => None;
     solve := fun _ _ _ m y _ _ => Ok (m, y) |}.

Definition no_upd : forall t, list (comp_upd t) := fun _ => [].
Definition tap_upd (p : Z) : forall t, list (comp_upd t) := fun t =>
  match t return list (comp_upd t) with
  | Transformer => [mkTransformerUpd (mkBranchUpd na_IntS na_IntS) p]
  | _ => [] end.
Definition sk_upd (z : Z) : forall t, list (comp_upd t) := fun t =>
  match t return list (comp_upd t) with
  | Source => [mkSourceUpd na_IntS None None (Some z) None None]
  | _ => [] end.
Definition seq0 (t : ctype) : list nat := [0].
Definition demo_history : list (op (Opt := bool)) :=
  [OpCalculate true; OpUpdate true (tap_upd 4) seq0; OpCalculate true; OpRestore seq0; OpUpdate false (tap_upd 2) seq0].

(** The history of the theorems exists: taps 3, 4, undone, 2; the factorised matrix is the one of tap 2. *)
Example C13_demo :
  match run show_orc (fresh_mm demo_comps) demo_history with
  | Some st => Forall leaves_source_impedance demo_history /\
      match snd (calculate show_orc true st) with
      | Some (Ok [(m, y)]) => m = y /\ nth (ctype_idx Transformer) m [] = [Some (KTrafo true true 2)]
      | _ => False
      end
  | None => False
  end.
Proof. vm_compute. repeat constructor. Qed.

(** The full statement fails: after a calculation with the iterative current method a new short circuit power of the source
    changes the admittance parameters, but the solver keeps the matrix factorised with the old one, because no entry of the
    admittance matrix is recomputed (math_solver/y_bus.hpp 455-480). *)
Theorem C13_source_impedance_refuted :
  match run show_orc (fresh_mm demo_comps) [OpCalculate true; OpUpdate false (sk_upd 200) seq0] with
  | Some st =>
      snd (calculate show_orc true st) <> snd (calculate show_orc true (fresh_mm (m_comps st))) /\
      match snd (calculate show_orc true st), snd (calculate show_orc true (fresh_mm (m_comps st))) with
      | Some (Ok [(m, _)]), Some (Ok [(m', _)]) =>
          nth (ctype_idx Source) m [] = [Some (KSource (Some 100) (Some 2) (Some 3))]%Z /\
          nth (ctype_idx Source) m' [] = [Some (KSource (Some 200) (Some 2) (Some 3))]%Z
      | _, _ => False
      end
  | None => False
  end.
Proof. vm_compute. repeat split. intros H; discriminate H. Qed.

(** The copy is not independent: it keeps the factorised matrix of the original, because the signal that the parameters
    changed goes to the solvers of the original. *)
Definition copy_history : list (wop (Opt := bool)) := [OnCopy (OpUpdate false (tap_upd 5) seq0)].
Theorem C14_copy_results_refuted :
  match run show_orc (fresh_mm demo_comps) [OpCalculate true] with
  | Some st =>
      match wrun show_orc (copied st) copy_history with
      | Some w =>
          match snd (calculate show_orc true (w_copy w)) with
          | Some (Ok [(m, y)]) => nth (ctype_idx Transformer) m [] = [Some (KTrafo true true 3)] /\
                                  nth (ctype_idx Transformer) y [] = [Some (KTrafo true true 5)]
          | _ => False
          end
      | None => False
      end
  | None => False
  end.
Proof. vm_compute. repeat split. Qed.

(** A calculation on the copy writes to the original, and after the original has been destroyed it uses freed memory. *)
Theorem C14_no_access_refuted :
  match run show_orc (fresh_mm demo_comps) [OpCalculate true] with
  | Some st =>
      dirty (m_cache st) true 0 = false /\
      match wrun show_orc (copied st) (copy_history ++ [OnCopy (OpCalculate true)]) with
      | Some w => match w_orig w with Some o => dirty (m_cache o) true 0 = true | None => False end
      | None => False
      end /\
      match wrun show_orc (copied st) (DestroyOriginal :: copy_history ++ [OnCopy (OpCalculate true)]) with
      | Some _ => False
      | None => True
      end
  | None => False
  end.
Proof. vm_compute. repeat split. Qed.

(** Non-trivial histories with both objects exist. *)
Example C14_demo :
  match run show_orc (fresh_mm demo_comps) [OpCalculate false] with
  | Some st =>
      match wrun show_orc (copied st) [OnCopy (OpUpdate false (tap_upd 5) seq0); OnOriginal (OpUpdate true (tap_upd 1) seq0);
               OnCopy (OpCalculate false); OnOriginal (OpCalculate false); OnOriginal (OpRestore seq0); DestroyOriginal] with
      | Some w => map tap_pos (map tr_tap (m_comps (w_copy w) Transformer)) = [5]%Z
      | None => False
      end
  | None => False
  end.
Proof. vm_compute. reflexivity. Qed.

Print Assumptions C13_no_stale_cache_partial.
Print Assumptions C13_no_stale_factorisation_partial.
Print Assumptions C13_same_as_fresh_model_partial.
Print Assumptions C13_calculation_keeps_components.
Print Assumptions C13_source_impedance_refuted.
Print Assumptions C14_components_independent.
Print Assumptions C14_copy_results_partial.
Print Assumptions C14_original_results_partial.
Print Assumptions C14_copy_results_refuted.
Print Assumptions C14_no_access_refuted.
