(** C34: conflicting regulators are refused. C38: a power flow that is reported converged has converged. C40: the solver is the documented one. *)
From Coq Require Import Floats.SpecFloat Permutation.
From Verif Require Import Common Calculation CalculationSpec CalculationFacts.

(** ** C34 *)
(** A calculation goes on exactly when the regulators, loads and sources do not conflict. *)
Theorem C34_accepted_iff : forall s, well_formed s -> (check_state_validity s = inl tt <-> acceptable s).
Proof.
  intros s [Nd Ex]. unfold check_state_validity, acceptable. destruct (0 <? length (regulators s)) eqn:L.
  2:{ apply Nat.ltb_ge in L. split; [|reflexivity]. intros _. left. destruct (regulators s); [reflexivity|cbn in L; lia]. }
  assert (Ne : regulators s <> []) by (intros E; rewrite E in L; discriminate). destruct (0 <? n_tap_regulators s) eqn:T.
  - apply Nat.ltb_lt in T. split; [discriminate|]. intros [H|[H _]]; [congruence|lia].
  - apply Nat.ltb_ge in T. pose proof (check_u_ref_spec s Nd (regulators s) [] [] (describes_nil s) ltac:(constructor) Ex) as U. cbn [app] in U.
    destruct (check_u_ref_per_node s (regulators s) []) as [v|e]; cbn [bindo].
    + destruct U as [[D1 D2] P]. pose proof (check_type_spec s Nd (regulators s) Ex) as K.
      destruct (check_load_gen_type s (regulators s)) as [[]|e]; cbn [bindo].
      * pose proof (check_sources_spec (csources s) v) as C. destruct (check_sources (csources s) v) as [[]|e].
        -- split; [|reflexivity]. intros _. right. repeat split; [lia|exact P|exact K|]. intros r node x Hr Sr Rr Hx Sx E. subst node.
           destruct (D1 r _ Hr Sr Rr) as (i & u & F & _). rewrite (C x Hx Sx) in F. discriminate.
        -- split; [discriminate|]. intros [H|(_ & _ & _ & H)]; [congruence|]. destruct C as (x & id & u & Hx & Sx & F & _). exfalso.
           destruct (D2 _ _ _ F) as (r & Hr & Sr & Rr & _). exact (H r _ x Hr Sr Rr Hx Sx eq_refl).
      * split; [discriminate|]. intros [H|(_ & _ & H & _)]; [congruence|]. destruct K as (r & node & t & Hr & Sr & Hl & Ht & _). exfalso. apply Ht. exact (H r node t Hr Sr Hl).
    + destruct U as [U _]. split; [discriminate|]. intros [H|(_ & H & _)]; [congruence|]. contradiction.
Qed.
(** The error names components that are in conflict. *)
Theorem C34_reason : forall s e, well_formed s -> check_state_validity s = inr e ->
  (e = UnsupportedRegulatorCombination /\ regulators s <> [] /\ 0 < n_tap_regulators s) \/
  (exists r1 r2 node, In r1 (regulators s) /\ In r2 (regulators s) /\ vr_status r1 = true /\ vr_status r2 = true /\ regulates_at s r1 node /\ regulates_at s r2 node /\
     SFeqb (vr_u_ref r1) (vr_u_ref r2) = false /\ e = ConflictingURef (vr_id r1) (vr_id r2)) \/
  (exists r node t, In r (regulators s) /\ vr_status r = true /\ In (vr_object r, (node, t)) (load_gens s) /\ t <> 0%Z /\ e = UnsupportedLoadGenType (vr_id r)) \/
  (exists r x, In r (regulators s) /\ vr_status r = true /\ In x (csources s) /\ cs_status x = true /\ regulates_at s r (cs_node x) /\ e = UnsupportedRegulatorSource (cs_node x)).
Proof.
  intros s e [Nd Ex] H. unfold check_state_validity in H. destruct (0 <? length (regulators s)) eqn:L; [|discriminate]. apply Nat.ltb_lt in L.
  destruct (0 <? n_tap_regulators s) eqn:T.
  - injection H as <-. left. apply Nat.ltb_lt in T. repeat split; auto. intros E. rewrite E in L. cbn in L. lia.
  - right. pose proof (check_u_ref_spec s Nd (regulators s) [] [] (describes_nil s) ltac:(constructor) Ex) as U. cbn [app] in U.
    destruct (check_u_ref_per_node s (regulators s) []) as [v|e1]; cbn [bindo] in H.
    + right. destruct U as [[D1 D2] P]. pose proof (check_type_spec s Nd (regulators s) Ex) as K. destruct (check_load_gen_type s (regulators s)) as [[]|e1]; cbn [bindo] in H.
      * right. pose proof (check_sources_spec (csources s) v) as C. rewrite H in C. destruct C as (x & id & u & Hx & Sx & F & ->).
        destruct (D2 _ _ _ F) as (r & Hr & Sr & Rr & _). exists r, x. auto 10.
      * left. injection H as <-. exact K.
    + left. injection H as <-. destruct U as [_ U]. exact U.
Qed.
(** Whether a calculation is refused does not depend on the order of the components. *)
Theorem C34_order : forall s s', well_formed s -> well_formed s' -> Permutation (regulators s) (regulators s') -> Permutation (load_gens s) (load_gens s') -> Permutation (csources s) (csources s') ->
  n_tap_regulators s = n_tap_regulators s' -> (check_state_validity s = inl tt <-> check_state_validity s' = inl tt).
Proof.
  assert (G : forall s s', Permutation (regulators s) (regulators s') -> Permutation (load_gens s) (load_gens s') -> Permutation (csources s) (csources s') ->
    n_tap_regulators s = n_tap_regulators s' -> acceptable s -> acceptable s').
  { intros s s' P1 P2 P3 E [H|(H1 & H2 & H3 & H4)]; [left; rewrite H in P1; apply Permutation_nil; exact P1|]. right.
    assert (Q : forall r node, regulates_at s' r node -> regulates_at s r node) by (intros r node [t Ht]; exists t; eapply Permutation_in; [apply Permutation_sym; exact P2|exact Ht]).
    refine (conj _ (conj _ (conj _ _))).
    - congruence.
    - eapply ordpairs_perm; [|exact P1|].
      + intros x y A S1 S2 node N1 N2. apply SFeqb_sym. exact (A S2 S1 node N2 N1).
      + clear - H2 Q. induction H2 as [|a l F P IH]; constructor; [|exact IH]. rewrite Forall_forall in *. intros x Hx S1 S2 node N1 N2. exact (F x Hx S1 S2 node (Q _ _ N1) (Q _ _ N2)).
    - intros r node t Hr Sr Hl. apply (H3 r node t); [eapply Permutation_in; [apply Permutation_sym; exact P1|exact Hr]|exact Sr|eapply Permutation_in; [apply Permutation_sym; exact P2|exact Hl]].
    - intros r node x Hr Sr Rr Hx Sx. apply (H4 r node x); auto; [eapply Permutation_in; [apply Permutation_sym; exact P1|exact Hr]|eapply Permutation_in; [apply Permutation_sym; exact P3|exact Hx]]. }
  intros s s' W W' P1 P2 P3 E. rewrite (C34_accepted_iff s W), (C34_accepted_iff s' W').
  split; apply G; auto using Permutation_sym.
Qed.
(** A calculation of any kind that runs has passed the check. *)
Theorem C34_calculation : forall s o runs, well_formed s -> calculate_impl s o = inl runs -> acceptable s.
Proof.
  intros s o runs W H. apply C34_accepted_iff; [exact W|]. unfold calculate_impl, bindo in H.
  destruct (check_calculate_valid_options o); [|discriminate]. destruct (extract_calculation_options o) as [c|]; [|discriminate].
  destruct (check_experimental_support s o c); [|discriminate]. unfold calculate, bindo in H.
  destruct (if (c_type c =? 2)%Z then _ else _); [|discriminate]. cbv zeta in H. destruct (_ && (0 <? _)); [discriminate|]. destruct ((0 <=? _)%Z && _); [|discriminate].
  unfold calculate_, bindo in H. destruct (check_state_validity s) as [[]|]; [reflexivity|discriminate].
Qed.
(** two regulators at node 5, one at node 6, a disabled source at node 5, a disabled conflicting regulator *)
Definition ex_u (m : positive) : spec_float := S754_finite false m (-1).
Definition ex_situation (u : positive) : situation :=
  mkSit [mkVR 10 true 1 (ex_u 2) S754_nan S754_nan; mkVR 11 true 2 (ex_u u) S754_nan S754_nan; mkVR 12 false 3 (ex_u 7) S754_nan S754_nan; mkVR 13 true 4 (ex_u 3) S754_nan S754_nan] 0
    [(1, (5, 0)); (2, (5, 0)); (3, (5, 1)); (4, (6, 0))]%Z [mkCS 5 false; mkCS 7 true] [] false false [[0%Z]].
Example ex_well_formed : well_formed (ex_situation 2) /\ well_formed (ex_situation 3) /\
  check_state_validity (ex_situation 2) = inl tt /\ check_state_validity (ex_situation 3) = inr (ConflictingURef 10 11).
Proof.
  refine (conj _ (conj _ (conj eq_refl eq_refl))); (split; [repeat constructor; cbn; intuition lia|]);
    intros r Hr; cbn in Hr; destruct Hr as [<-|[<-|[<-|[<-|[]]]]]; unfold regulates_at; cbn; eauto 10.
Qed.

(** ** C40 *)
Lemma documented_pf c types r : run_power_flow c types = inl r ->
  (documented_solver 0 (c_method c) = Some (run_solver r) \/ (constant_impedance types /\ run_solver r = LinearPF)) /\ run_symmetric r = c_symmetric c /\
  (run_tol r, run_max_iter r) = documented_settings (run_solver r) (c_method c) (c_err_tol c) (c_max_iter c).
Proof.
  unfold run_power_flow. destruct (forallb _ types) eqn:A.
  - cbn [Z.eqb orb]. intros H. injection H as <-. split; [right; split; [|reflexivity]|split; reflexivity].
    rewrite forallb_forall in A. apply Forall_forall. intros t Ht. apply Z.eqb_eq. exact (A t Ht).
  - destruct ((c_method c =? -128)%Z || (c_method c =? 1)%Z) eqn:E1.
    + intros H. injection H as <-. split; [left|split; reflexivity]. apply orb_true_iff in E1. destruct E1 as [E1|E1]; apply Z.eqb_eq in E1; rewrite E1; reflexivity.
    + destruct (c_method c =? 0)%Z eqn:E2; [|destruct (c_method c =? 4)%Z eqn:E3; [|destruct (c_method c =? 3)%Z eqn:E4; [|discriminate]]]; intros H; injection H as <-.
      * apply Z.eqb_eq in E2. rewrite E2. repeat split; auto.
      * unfold documented_settings. cbn [run_solver run_tol run_max_iter]. rewrite E3. apply Z.eqb_eq in E3. rewrite E3. repeat split; auto.
      * unfold documented_settings. cbn [run_solver run_tol run_max_iter]. rewrite E3. apply Z.eqb_eq in E4. rewrite E4. repeat split; auto.
Qed.
Lemma documented_se c r : run_state_estimation c = inl r ->
  documented_solver 1 (c_method c) = Some (run_solver r) /\ run_symmetric r = c_symmetric c /\ (run_tol r, run_max_iter r) = documented_settings (run_solver r) (c_method c) (c_err_tol c) (c_max_iter c).
Proof.
  unfold run_state_estimation. destruct ((c_method c =? -128)%Z || (c_method c =? 2)%Z) eqn:E1.
  - intros H. injection H as <-. split; [|split; reflexivity]. apply orb_true_iff in E1. destruct E1 as [E1|E1]; apply Z.eqb_eq in E1; rewrite E1; reflexivity.
  - destruct (c_method c =? 1)%Z eqn:E2; [|discriminate]. intros H. injection H as <-. apply Z.eqb_eq in E2. rewrite E2. repeat split.
Qed.
Lemma documented_sc c r : run_short_circuit c = inl r ->
  documented_solver 2 (c_method c) = Some (run_solver r) /\ run_symmetric r = c_symmetric c /\ (run_tol r, run_max_iter r) = documented_settings (run_solver r) (c_method c) (c_err_tol c) (c_max_iter c).
Proof.
  unfold run_short_circuit. destruct (c_method c =? -128)%Z eqn:E1; [|destruct (c_method c =? 5)%Z eqn:E2; [|discriminate]]; cbn [negb andb]; intros H; injection H as <-.
  - apply Z.eqb_eq in E1. rewrite E1. repeat split.
  - apply Z.eqb_eq in E2. rewrite E2. repeat split.
Qed.
Lemma solve_all_forall2 c subs : forall runs, solve_all c subs = inl runs -> Forall2 (fun types r => solve c types = inl r) subs runs.
Proof.
  induction subs as [|l subs IH]; intros runs H; cbn [solve_all] in H; [injection H as <-; constructor|]. unfold bindo in H.
  destruct (solve c l) as [r|] eqn:E; [|discriminate]. destruct (solve_all c subs) as [rs|]; [|discriminate]. injection H as <-. constructor; auto.
Qed.
Lemma Forall2_weaken {A B} (P Q : A -> B -> Prop) l l' : (forall a b, P a b -> Q a b) -> Forall2 P l l' -> Forall2 Q l l'.
Proof. intros H F. induction F; constructor; auto. Qed.
Lemma safe_enum_ok v t : safe_enum v = inl t -> t = v.
Proof. unfold safe_enum. destruct (_ && _); [|discriminate]. intros H. injection H as <-. reflexivity. Qed.

(** Whatever the options, each sub-grid is calculated by the documented solver for the type and method, with the given symmetry, tolerance and limit;
    the one exception is the linear solver for a power flow of a sub-grid with constant impedance loads only. *)
Theorem C40_documented_solver : forall s o runs, calculate_impl s o = inl runs ->
  Forall2 (fun types r =>
    (documented_solver (o_type o) (o_method o) = Some (run_solver r) \/ (o_type o = 0%Z /\ constant_impedance types /\ run_solver r = LinearPF)) /\
    (run_symmetric r = true <-> if (o_type o =? 2)%Z then Forall (fun t => t = 0%Z) (fault_types s) else o_symmetric o = 1%Z) /\
    (run_tol r, run_max_iter r) = documented_settings (run_solver r) (o_method o) (o_err_tol o) (o_max_iter o)) (subgrids s) runs.
Proof.
  intros s o runs H. unfold calculate_impl, bindo in H. destruct (check_calculate_valid_options o); [|discriminate].
  destruct (extract_calculation_options o) as [c|] eqn:X; [|discriminate]. destruct (check_experimental_support s o c); [|discriminate].
  assert (Cc : c_type c = o_type o /\ c_method c = o_method o /\ c_err_tol c = o_err_tol o /\ c_max_iter c = o_max_iter o /\ (c_symmetric c = true <-> o_symmetric o = 1%Z)).
  { unfold extract_calculation_options, bindo in X. destruct (safe_enum (o_type o)) as [t|] eqn:E1; [|discriminate].
    destruct (get_calculation_symmetry o) as [sym|] eqn:E2; [|discriminate]. destruct (safe_enum (o_method o)) as [m|] eqn:E3; [|discriminate].
    destruct (get_optimizer_type o); [|discriminate]. destruct (get_optimizer_strategy o); [|discriminate]. destruct (safe_enum (o_scaling o)); [|discriminate].
    injection X as <-. cbn [c_type c_method c_err_tol c_max_iter c_symmetric]. apply safe_enum_ok in E1. apply safe_enum_ok in E3. repeat split; auto.
    - unfold get_calculation_symmetry in E2. destruct (o_symmetric o =? 0)%Z; [injection E2 as <-; discriminate|]. destruct (o_symmetric o =? 1)%Z eqn:Q; [lia|discriminate].
    - intros Q. unfold get_calculation_symmetry in E2. rewrite Q in E2. cbn in E2. injection E2 as <-. reflexivity. }
  destruct Cc as (C1 & C2 & C3 & C4 & C5). unfold calculate, bindo in H.
  destruct (if (c_type c =? 2)%Z then all_three_phase (fault_types s) else inl (c_symmetric c)) as [sym|] eqn:Y; [|discriminate]. cbv zeta in H. cbn [c_type c_method] in H.
  assert (Ys : sym = true <-> if (o_type o =? 2)%Z then Forall (fun t => t = 0%Z) (fault_types s) else o_symmetric o = 1%Z).
  { rewrite <- C1. destruct (c_type c =? 2)%Z; [|injection Y as <-; exact C5]. clear H. induction (fault_types s) as [|t ts IH]; cbn [all_three_phase] in Y; [injection Y as <-; repeat constructor|].
    destruct ((0 <=? t)%Z && (t <=? 3)%Z); [|discriminate]. destruct (t =? 0)%Z eqn:T.
    - rewrite (IH Y). split; [intros F; constructor; [lia|exact F]|intros F; inversion F; assumption].
    - injection Y as <-. split; [discriminate|]. intros F. inversion F. subst. discriminate. }
  destruct (_ && (0 <? _)); [discriminate|]. destruct ((0 <=? _)%Z && _); [|discriminate]. unfold calculate_, bindo in H. destruct (check_state_validity s); [|discriminate].
  apply solve_all_forall2 in H. eapply Forall2_weaken; [|exact H]. clear H. intros types r H. unfold solve in H. cbn [c_type] in H. rewrite <- C1, <- C2, <- C3, <- C4.
  destruct (c_type c =? 0)%Z eqn:T0; [|destruct (c_type c =? 1)%Z eqn:T1; [|destruct (c_type c =? 2)%Z eqn:T2; [|discriminate]]].
  - apply documented_pf in H. cbn [c_method c_symmetric c_err_tol c_max_iter] in H. destruct H as (H1 & H2 & H3). apply Z.eqb_eq in T0. rewrite <- C1 in Ys. rewrite T0 in *.
    refine (conj _ (conj _ H3)); [destruct H1 as [H1|H1]; [left; exact H1|right; auto]|]. rewrite H2. exact Ys.
  - apply documented_se in H. cbn [c_method c_symmetric c_err_tol c_max_iter] in H. destruct H as (H1 & H2 & H3). apply Z.eqb_eq in T1. rewrite <- C1 in Ys. rewrite T1 in *.
    refine (conj (or_introl H1) (conj _ H3)). rewrite H2. exact Ys.
  - apply documented_sc in H. cbn [c_method c_symmetric c_err_tol c_max_iter] in H. destruct H as (H1 & H2 & H3). apply Z.eqb_eq in T2. rewrite <- C1 in Ys. rewrite T2 in *.
    refine (conj (or_introl H1) (conj _ H3)). rewrite H2. exact Ys.
Qed.
(** A type and method without a documented solver are refused, if there is anything to calculate. *)
Theorem C40_refused_partial : forall s o, documented_solver (o_type o) (o_method o) = None ->
  (exists types, In types (subgrids s) /\ (o_type o = 0%Z -> ~ constant_impedance types)) -> exists e, calculate_impl s o = inr e.
Proof.
  intros s o D (types & Ht & Hc). destruct (calculate_impl s o) as [runs|e] eqn:H; [|exists e; reflexivity]. exfalso.
  apply C40_documented_solver in H. assert (G : exists r, (documented_solver (o_type o) (o_method o) = Some (run_solver r) \/ (o_type o = 0%Z /\ constant_impedance types /\ run_solver r = LinearPF))).
  { clear D Hc. induction H as [|a r l rs H F IH]; [destruct Ht|]. destruct Ht as [->|Ht]; [exists r; tauto|auto]. }
  destruct G as (r & [G|(G1 & G2 & _)]); [congruence|]. exact (Hc G1 G2).
Qed.
Lemma documented_none0 m : (m =? -128)%Z = false -> (m =? 1)%Z = false -> (m =? 0)%Z = false -> (m =? 4)%Z = false -> (m =? 3)%Z = false -> documented_solver 0 m = None.
Proof. intros. unfold documented_solver. destruct m as [|p|p]; try reflexivity; try discriminate; repeat (first [reflexivity | discriminate | destruct p as [p|p|]]). Qed.
Lemma documented_none1 m : (m =? -128)%Z = false -> (m =? 2)%Z = false -> (m =? 1)%Z = false -> documented_solver 1 m = None.
Proof. intros. unfold documented_solver. destruct m as [|p|p]; try reflexivity; try discriminate; repeat (first [reflexivity | discriminate | destruct p as [p|p|]]). Qed.
Lemma documented_none2 m : (m =? -128)%Z = false -> (m =? 5)%Z = false -> documented_solver 2 m = None.
Proof. intros. unfold documented_solver. destruct m as [|p|p]; try reflexivity; try discriminate; repeat (first [reflexivity | discriminate | destruct p as [p|p|]]). Qed.
(** With valid options, the only reason to refuse is the method. *)
Definition valid_options (o : pgm_options) : Prop :=
  (0 <= o_type o <= 2 /\ -128 <= o_method o <= 127 /\ (o_symmetric o = 0 \/ o_symmetric o = 1) /\ o_strategy o = 0 /\ (o_scaling o = 0 \/ o_scaling o = 1) /\ o_experimental o = 0)%Z.
Theorem C40_refused_for_the_method : forall s o, valid_options o -> regulators s = [] -> batch_q_limits s = false -> Forall (fun t => (0 <= t <= 3)%Z) (fault_types s) ->
  match calculate_impl s o with
  | inl _ => True
  | inr e => e = InvalidCalculationMethod /\ documented_solver (o_type o) (o_method o) = None
  end.
Proof.
  intros s o (V1 & V2 & V3 & V4 & V5 & V6) R B F. unfold calculate_impl, check_calculate_valid_options. rewrite V4, Z.eqb_refl. cbn [negb andb bindo].
  unfold extract_calculation_options, safe_enum, get_optimizer_type, get_optimizer_strategy. rewrite V4.
  replace ((-128 <=? o_type o) && (o_type o <=? 127))%Z with true by lia. replace ((-128 <=? o_method o) && (o_method o <=? 127))%Z with true by lia.
  replace ((-128 <=? o_scaling o) && (o_scaling o <=? 127))%Z with true by lia. rewrite Z.eqb_refl. cbn [bindo].
  assert (Sym : exists b, get_calculation_symmetry o = inl b)
    by (unfold get_calculation_symmetry; destruct V3 as [->| ->]; cbn; eauto). destruct Sym as [b ->]. cbn [bindo].
  unfold check_experimental_support, check_no_experimental_features_used. rewrite V6, R, B, Z.eqb_refl. cbn [existsb orb c_type c_symmetric]. rewrite andb_false_r. cbn [bindo].
  unfold calculate. cbn [c_type c_symmetric c_method c_optimize c_strategy c_err_tol c_max_iter]. rewrite R. cbn [length Nat.ltb Nat.leb]. rewrite andb_false_r.
  match goal with |- context [bindo ?x _] => assert (Three : exists b', x = inl b') end.
  { destruct (o_type o =? 2)%Z; [|eauto]. induction F as [|t ts Ft Fs IH]; cbn [all_three_phase]; [eauto|]. replace ((0 <=? t) && (t <=? 3))%Z with true by lia. destruct (t =? 0)%Z; eauto. }
  destruct Three as [b' ->]. cbn [bindo]. replace ((0 <=? o_type o) && (o_type o <=? 2))%Z with true by lia.
  unfold calculate_, check_state_validity. rewrite R. cbn [length Nat.ltb Nat.leb bindo].
  set (c := mkOptions _ _ _ _ _ _ _). assert (S1 : forall types, match solve c types with inl _ => True | inr e => e = InvalidCalculationMethod /\ documented_solver (o_type o) (o_method o) = None end).
  { intros types. unfold solve. unfold c at 1 2 3. cbn [c_type]. destruct (o_type o =? 0)%Z eqn:T0; [|destruct (o_type o =? 1)%Z eqn:T1; [|destruct (o_type o =? 2)%Z eqn:T2; [|lia]]].
    - apply Z.eqb_eq in T0. unfold run_power_flow. destruct (forallb _ types); [exact I|]. unfold c. cbn [c_method]. rewrite T0.
      destruct (o_method o =? -128)%Z eqn:M1; [exact I|]. destruct (o_method o =? 1)%Z eqn:M2; [exact I|]. destruct (o_method o =? 0)%Z eqn:M3; [exact I|]. destruct (o_method o =? 4)%Z eqn:M4; [exact I|].
      destruct (o_method o =? 3)%Z eqn:M5; [exact I|]. cbn [orb]. split; [reflexivity|]. apply documented_none0; assumption.
    - apply Z.eqb_eq in T1. unfold run_state_estimation, c. cbn [c_method]. rewrite T1.
      destruct (o_method o =? -128)%Z eqn:M1; [exact I|]. destruct (o_method o =? 2)%Z eqn:M2; [exact I|]. destruct (o_method o =? 1)%Z eqn:M3; [exact I|]. cbn [orb]. split; [reflexivity|]. apply documented_none1; assumption.
    - apply Z.eqb_eq in T2. unfold run_short_circuit, c. cbn [c_method]. rewrite T2.
      destruct (o_method o =? -128)%Z eqn:M1; [exact I|]. destruct (o_method o =? 5)%Z eqn:M2; [exact I|]. cbn [orb negb andb]. split; [reflexivity|]. apply documented_none2; assumption. }
  induction (subgrids s) as [|l subs IH]; cbn [solve_all]; [exact I|]. specialize (S1 l). destruct (solve c l) as [r|e]; cbn [bindo]; [|exact S1].
  destruct (solve_all c subs) as [rs|e]; cbn [bindo]; [exact I|exact IH].
Qed.
(** Not every undocumented combination is refused: without an energised sub-grid the method is not looked at. *)
Definition ex_options (type method : Z) : pgm_options := mkOpt type method 1 (S754_finite false 1 (-20)) 20 1 0 0.
Theorem C40_nothing_to_calculate_refuted : exists s o, valid_options o /\ documented_solver (o_type o) (o_method o) = None /\ calculate_impl s o = inl [].
Proof. exists (mkSit [] 0 [] [] [] false false []), (ex_options 0 77). repeat split; cbn; try lia; auto. Qed.
(** The default method of a power flow is Newton-Raphson, but with a voltage regulator the default is refused where Newton-Raphson is not. *)
Theorem C40_default_with_regulator_refuted : exists s, well_formed s /\ acceptable s /\ documented_solver 0 (-128) = documented_solver 0 1 /\
  calculate_impl s (ex_options 0 (-128)) = inr InvalidCalculationMethod /\
  calculate_impl s (ex_options 0 1) = inl [mkRun NewtonRaphsonPF true (Some (S754_finite false 1 (-20))) (Some 20%Z)].
Proof.
  exists (ex_situation 2). destruct ex_well_formed as (W & _ & A & _). refine (conj W (conj _ (conj eq_refl (conj eq_refl eq_refl)))). apply C34_accepted_iff; assumption.
Qed.
(** a power flow of two sub-grids, one with constant impedances only; a short circuit with a single-phase fault *)
Example ex_calculations :
  calculate_impl (mkSit [] 1 [] [] [] false false [[0; 1]; [1; 1]]%Z) (ex_options 0 4) = inl [mkRun IterativeCurrentPF true (Some (S754_infinity false)) (Some 1%Z); mkRun LinearPF true None None] /\
  calculate_impl (mkSit [] 1 [] [] [0; 1]%Z false false [[0; 1]]%Z) (ex_options 2 (-128)) = inl [mkRun ShortCircuitIEC60909 false None None] /\
  calculate_impl (mkSit [] 1 [] [] [] false false [[0; 1]]%Z) (ex_options 1 5) = inr InvalidCalculationMethod.
Proof. repeat split. Qed.

(** ** C38 *)
(** The loop ends after at most [max_iter] iterations. *)
Theorem C38_terminates : forall St (step : St -> option (St * list spec_float)) err_tol max_iter s, (0 <= max_iter)%Z ->
  match iterative_current_loop step err_tol max_iter (S (Z.to_nat max_iter)) s with Finished _ n | Failed _ n => (0 <= n <= max_iter)%Z | OutOfFuel => False end.
Proof.
  intros St step err_tol max_iter s Hm. unfold iterative_current_loop. pose proof (pf_loop_fuel step err_tol max_iter (S (Z.to_nat max_iter)) s (S754_infinity false) 0 ltac:(lia) ltac:(lia)) as F.
  pose proof (pf_loop_limit step err_tol max_iter (S (Z.to_nat max_iter)) s (S754_infinity false) 0 ltac:(lia)) as L.
  destruct (pf_loop _ _ _ _ _ _ _) as [s' n|e n|]; [exact L|exact L|congruence].
Qed.
(** A result is that of the last iteration, whose deviation is within the tolerance at every bus, provided that no deviation is NaN; a divergence is reported only after
    [max_iter] iterations of which the last was outside the tolerance. *)
Definition is_last {St} (step : St -> option (St * list spec_float)) (s : St) (n : Z) (s' : St) (devs : list spec_float) : Prop :=
  exists k s1, n = Z.of_nat (S k) /\ iterations step k s s1 /\ step s1 = Some (s', devs).
Theorem C38_converged_partial : forall St (step : St -> option (St * list spec_float)) err_tol max_iter fuel s, SFleb (S754_zero false) err_tol = true ->
  match iterative_current_loop step err_tol max_iter fuel s with
  | Finished s' n => exists devs, is_last step s n s' devs /\ (Forall not_nan devs -> forall d, In d devs -> SFleb d err_tol = true)
  | Failed (IterationDiverge i) n => i = max_iter /\ n = max_iter /\ (n = 0%Z \/ exists s' devs, is_last step s n s' devs /\ exists d, In d devs /\ SFltb err_tol d = true)
  | Failed e n => e = SolverError /\ exists k s', n = Z.of_nat k /\ iterations step k s s' /\ step s' = None
  | OutOfFuel => True
  end.
Proof.
  intros St step err_tol max_iter fuel s Ht. unfold iterative_current_loop.
  assert (Nt : not_nan err_tol) by (intros E; rewrite E in Ht; discriminate).
  pose proof (pf_loop_spec step err_tol max_iter s fuel s (S754_infinity false) 0 0 eq_refl (it_zero step s) ltac:(lia)) as P.
  destruct (pf_loop _ _ _ _ _ _ _) as [s' n|e n|]; [|destruct e; try exact P|exact I].
  - destruct P as (k & -> & Hk & It & s1 & devs & P1 & P2 & P3). exists devs. split; [exists (k - 1), s1; refine (conj _ (conj P1 P2)); lia|].
    intros N d Hd. destruct (max_deviation_bound devs N) as [M1 M2]. eapply SFleb_trans; [apply M2; exact Hd|]. apply SFltb_false; auto.
  - destruct P as (P1 & P2 & k & s' & P3 & P4 & P5). refine (conj P1 (conj P2 _)). destruct k as [|k]; [left; exact P3|]. right. destruct P5 as [P5|(s1 & devs & P5 & P6 & P7)]; [discriminate|].
    exists s', devs. split; [exists k, s1; replace (S k - 1) with k in P5 by lia; auto|].
    destruct (max_deviation_in devs) as [E|E]; [|exists (max_deviation devs); auto]. rewrite E in P7. exfalso. eapply SFltb_leb_absurd; eassumption.
Qed.
(** Newton-Raphson: the same, for the iterations as they are done with the countdown to the check of reactive power limits; and if there are limits to check, the last iteration checked them. *)
Theorem C38_newton_raphson_terminates : forall St (step : bool -> St -> option (St * list spec_float)) err_tol max_iter cache_run limits s, (0 <= max_iter)%Z ->
  match newton_raphson_loop err_tol max_iter step cache_run (S (Z.to_nat max_iter)) limits s with Finished _ n | Failed _ n => (0 <= n <= max_iter)%Z | OutOfFuel => False end.
Proof.
  intros St step err_tol max_iter cache_run limits s Hm. unfold newton_raphson_loop.
  apply (nr_loop_fuel err_tol max_iter step cache_run (S (Z.to_nat max_iter)) s _ (S754_infinity false) 0); lia.
Qed.
Theorem C38_newton_raphson_partial : forall St (step : bool -> St -> option (St * list spec_float)) err_tol max_iter cache_run limits fuel s, SFleb (S754_zero false) err_tol = true -> SFltb err_tol (S754_infinity false) = true ->
  match newton_raphson_loop err_tol max_iter step cache_run fuel limits s with
  | Finished s' n => exists k checked s1 devs, n = Z.of_nat (S k) /\ nr_iterations step k s s1 /\ step checked s1 = Some (s', devs) /\
      (Forall not_nan devs -> (forall d, In d devs -> SFleb d err_tol = true) /\ (limits = true -> cache_run = false -> checked = true))
  | Failed (IterationDiverge i) n => i = max_iter /\ n = max_iter
  | Failed e n => e = SolverError
  | OutOfFuel => True
  end.
Proof.
  intros St step err_tol max_iter cache_run limits fuel s Ht Hf. unfold newton_raphson_loop. assert (Nt : not_nan err_tol) by (intros E; rewrite E in Ht; discriminate).
  apply (nr_loop_spec err_tol max_iter step cache_run limits Nt Hf s fuel s _ _ _ 0); [destruct limits; lia|reflexivity|constructor|intros; lia].
Qed.
(** The linear current method does exactly one iteration, whatever comes out of it. *)
Theorem C38_linear_current : forall St (step : St -> option (St * list spec_float)) fuel s,
  iterative_current_loop step (S754_infinity false) 1 (S (S fuel)) s = match step s with Some (s', _) => Finished s' 1 | None => Failed SolverError 0 end.
Proof.
  intros St step fuel s. unfold iterative_current_loop. cbn [pf_loop]. cbn [Z.eqb orb]. destruct (step s) as [[s' devs]|]; [|reflexivity]. cbn [Z.add Z.eqb].
  replace (SFltb (S754_infinity false) (max_deviation devs)) with false by (destruct (max_deviation devs) as [[]|[]| |[]]; reflexivity). reflexivity.
Qed.
(** Without the condition on NaN the claim is false: std::max drops a NaN unless it is the last, and then drops what came before it; and a NaN left over ends the loop.
    Here the first bus is far outside the tolerance, and the second is NaN. *)
Theorem C38_nan_refuted : exists (step : nat -> option (nat * list spec_float)) err_tol max_iter fuel s s' n devs,
  SFleb (S754_zero false) err_tol = true /\ iterative_current_loop step err_tol max_iter fuel s = Finished s' n /\ is_last step s n s' devs /\ n = 1%Z /\
  exists d1 d2, In d1 devs /\ In d2 devs /\ SFltb err_tol d1 = true /\ d2 = S754_nan.
Proof.
  exists (fun n => Some (S n, [S754_infinity false; S754_nan; S754_zero false])), (S754_finite false 1 (-20)), 20%Z, 5, 0, 1, 1%Z, [S754_infinity false; S754_nan; S754_zero false].
  refine (conj eq_refl (conj eq_refl (conj _ (conj eq_refl _)))); [exists 0, 0; repeat split; constructor|]. exists (S754_infinity false), S754_nan. cbn. auto.
Qed.
(** A negative limit is accepted, and then there is none. *)
Theorem C38_negative_limit_refuted : exists (step : nat -> option (nat * list spec_float)) err_tol max_iter s,
  SFleb (S754_zero false) err_tol = true /\ (max_iter < 0)%Z /\ forall fuel, iterative_current_loop step err_tol max_iter fuel s = OutOfFuel.
Proof.
  exists (fun n => Some (S n, [S754_infinity false])), (S754_finite false 1 (-20)), (-1)%Z, 0. refine (conj eq_refl (conj _ _)); [lia|].
  assert (G : forall fuel s n, (0 <= n)%Z -> pf_loop (fun n => Some (S n, [S754_infinity false])) (S754_finite false 1 (-20)) (-1) fuel s (S754_infinity false) n = OutOfFuel).
  { induction fuel as [|fuel IH]; intros s n Hn; cbn [pf_loop]; [reflexivity|]. change (SFltb (S754_finite false 1 (-20)) (S754_infinity false)) with true. cbn [orb]. destruct (n =? -1)%Z eqn:E; [lia|]. apply IH. lia. }
  intros fuel. apply G. lia.
Qed.
(** a loop that converges in three iterations, and one that is cut off after two *)
Definition ex_step (n : nat) : option (nat * list spec_float) := Some (S n, [S754_finite false 1 (- Z.of_nat n); S754_zero false]).
Example ex_loop : iterative_current_loop ex_step (S754_finite false 1 (-2)) 20 21 0 = Finished 3 3 /\ iterative_current_loop ex_step (S754_finite false 1 (-2)) 2 3 0 = Failed (IterationDiverge 2) 2 /\
  newton_raphson_loop (S754_finite false 1 0) 20 (fun _ => ex_step) false 21 true 0 = Finished 2 2 /\ newton_raphson_loop (S754_finite false 1 0) 20 (fun _ => ex_step) false 21 false 0 = Finished 1 1.
Proof. repeat split. Qed.

Print Assumptions C34_accepted_iff.
Print Assumptions C34_reason.
Print Assumptions C34_order.
Print Assumptions C34_calculation.
Print Assumptions C38_terminates.
Print Assumptions C38_converged_partial.
Print Assumptions C38_newton_raphson_terminates.
Print Assumptions C38_newton_raphson_partial.
Print Assumptions C38_linear_current.
Print Assumptions C38_nan_refuted.
Print Assumptions C38_negative_limit_refuted.
Print Assumptions C40_documented_solver.
Print Assumptions C40_refused_partial.
Print Assumptions C40_refused_for_the_method.
Print Assumptions C40_nothing_to_calculate_refuted.
Print Assumptions C40_default_with_regulator_refuted.
