(** C43: short circuit results satisfy the conditions at the faults and the balance of currents. C44: fault phases are interpreted as documented. *)
From Coq Require Import Field QArith Qcanon.
Close Scope Qc_scope. Close Scope Q_scope. Open Scope nat_scope.
From Verif Require Import Common Component Numbers ShortCircuit ShortCircuitSpec ShortCircuitFacts NumbersComplex.

Section Solver.
Context {C : Type} (o : num_ops C) (L : num_laws o).
Add Field NumFieldScp : (nl_field o L).

(** At every bus the currents of the sources minus those of the faults flow into the grid; every fault meets the conditions of its type; each source gives the current through its impedance.
    For every grid, with at most one bolted fault at a bus, at most one two-phase-to-ground fault with an impedance at a bus without a bolted one, and sources that do not couple the phases
    at buses with a bolted fault to ground. *)
Theorem C43_short_circuit_partial : forall np n ybus sources_per_bus y_source u_source fault_buses y_fault t p1 p2 x,
  phases_fit np t p1 p2 ->
  (forall b, b < n -> length (filter (fun f => is_bolted (y_fault f)) (fault_buses b)) <= 1) ->
  (forall b, b < n -> t = two_phase_to_ground -> (exists f, In f (fault_buses b) /\ y_fault f = Bolted) \/ length (fault_buses b) <= 1) ->
  (forall b, b < n -> t = single_phase_to_ground \/ t = two_phase_to_ground -> (exists f, In f (fault_buses b) /\ y_fault f = Bolted) ->
     forall s, In s (sources_per_bus b) -> uncoupled o (y_source s)) ->
  solves o np n (prepare o np ybus sources_per_bus y_source u_source fault_buses y_fault t p1 p2 n) x ->
  let out := run_short_circuit o np ybus sources_per_bus y_source u_source fault_buses y_fault t p1 p2 n x in
  forall b, b < n ->
  balanced o np n ybus (out_u out) (map (out_source out b) (sources_per_bus b)) (map (out_fault out b) (fault_buses b)) b /\
  (forall f, In f (fault_buses b) -> boundary o np t p1 p2 (y_fault f) (out_u out b) (out_fault out b f)) /\
  (forall s p, out_source out b s p =
     n_sub o (nsum o (map (fun q => n_mul o (y_source s p q) (u_source s q)) (seq 0 np))) (nsum o (map (fun q => n_mul o (y_source s p q) (out_u out b q)) (seq 0 np)))).
Proof.
  intros np n ybus sources_per_bus y_source u_source fault_buses y_fault t p1 p2 x PF Hb Hg Hc Hx out b Hbn.
  set (e := prepare o np ybus sources_per_bus y_source u_source fault_buses y_fault t p1 p2 n) in *.
  assert (Col : forall j, j < n -> exists e0, (forall i, e_mat e0 i j = ybus i j) /\ e_rhs e0 j = vzero o /\ e_bolted e0 j = 0 /\
    let e1 := pass o np sources_per_bus y_source u_source fault_buses y_fault t p1 p2 e0 j in
    (forall i, e_mat e i j = e_mat e1 i j) /\ e_rhs e j = e_rhs e1 j /\ e_bolted e j = e_bolted e1 j).
  { intros j Hj. destruct (fold_column o np sources_per_bus y_source u_source fault_buses y_fault t p1 p2 (seq 0 n) j (seq_NoDup n 0) ltac:(apply in_seq; lia)
      (mkEq ybus (fun _ => vzero o) (fun _ => 0))) as (e0 & (A1 & A2 & A3) & B1 & B2 & B3).
    exists e0. refine (conj A1 (conj A2 (conj A3 (conj B1 (conj B2 B3))))). }
  assert (Id : forall j, j < n ->
    (forall i p, i <> j -> p < np -> dot o np (e_mat e i j) (x j) p = dot o np (ybus i j) (out_u out j) p) /\
    (forall p, p < np -> n_sub o (dot o np (e_mat e j j) (x j) p) (e_rhs e j p) =
       n_add o (n_sub o (dot o np (ybus j j) (out_u out j) p) (nsum o (map (fun s => out_source out j s p) (sources_per_bus j)))) (nsum o (map (fun f => out_fault out j f p) (fault_buses j)))) /\
    (forall f, In f (fault_buses j) -> boundary o np t p1 p2 (y_fault f) (out_u out j) (out_fault out j f))).
  { intros j Hj. destruct (Col j Hj) as (e0 & A1 & A2 & A3 & B1 & B2 & B3).
    pose proof (bus_identity o L np ybus sources_per_bus y_source u_source fault_buses y_fault t p1 p2 PF j (Hb j Hj) (Hg j Hj) (Hc j Hj) e0 A1 A2 A3 (x j)) as H. cbv zeta in H.
    unfold out, run_short_circuit, calculate_result. fold e. cbn [out_u out_fault out_source]. rewrite B3. unfold bus_voltage in H.
    destruct H as (H1 & H2 & H3). refine (conj _ (conj _ H3)).
    - intros i p Hi Hp. rewrite B1. apply H1; auto.
    - intros p Hp. rewrite B1, B2. apply H2; auto. }
  destruct (Id b Hbn) as (_ & I2 & I3). refine (conj _ (conj I3 _)); [|reflexivity].
  intros p Hp. rewrite !map_map. specialize (Hx b p Hbn Hp). specialize (I2 p Hp).
  assert (E : n_sub o (nsum o (map (fun j => dot o np (e_mat e b j) (x j) p) (seq 0 n))) (nsum o (map (fun j => dot o np (ybus b j) (out_u out j) p) (seq 0 n))) =
    n_sub o (dot o np (e_mat e b b) (x b) p) (dot o np (ybus b b) (out_u out b) p)).
  { assert (Sp : seq 0 n = seq 0 b ++ b :: seq (S b) (n - S b)) by (replace n with (b + S (n - S b)) at 1 by lia; rewrite seq_app; reflexivity).
    rewrite Sp, !map_app, !(nsum_app o L). cbn [map].
    assert (Q : forall l, (forall j, In j l -> j < n /\ j <> b) -> nsum o (map (fun j => dot o np (e_mat e b j) (x j) p) l) = nsum o (map (fun j => dot o np (ybus b j) (out_u out j) p) l)).
    { intros l Hl. apply nsum_ext. intros j Hj. destruct (Hl j Hj) as [J1 J2]. destruct (Id j J1) as (K & _). apply K; auto. }
    rewrite (Q (seq 0 b)) by (intros j Hj; apply in_seq in Hj; lia).
    change (nsum o (dot o np (e_mat e b b) (x b) p :: ?l)) with (n_add o (dot o np (e_mat e b b) (x b) p) (nsum o l)).
    unfold nsum at 2. cbn [fold_right]. fold (nsum o (map (fun j => dot o np (e_mat e b j) (x j) p) (seq (S b) (n - S b)))).
    unfold nsum at 4. cbn [fold_right]. fold (nsum o (map (fun j => dot o np (ybus b j) (out_u out j) p) (seq (S b) (n - S b)))).
    rewrite (Q (seq (S b) (n - S b))) by (intros j Hj; apply in_seq in Hj; lia). ring. }
  rewrite Hx in E. unfold dot in E at 1. unfold dot in I2 at 2. 
  set (Y := nsum o (map (fun j => nsum o (map (fun q => n_mul o (ybus b j p q) (out_u out j q)) (seq 0 np))) (seq 0 n))) in *.
  set (Sr := nsum o (map (fun s => out_source out b s p) (sources_per_bus b))) in *. set (Fr := nsum o (map (fun f => out_fault out b f p) (fault_buses b))) in *.
  fold (dot o np (ybus b b) (out_u out b) p) in I2.
  set (d := dot o np (e_mat e b b) (x b) p) in *. set (y := dot o np (ybus b b) (out_u out b) p) in *. set (r := e_rhs e b p) in *.
  assert (G : Y = n_sub o r (n_sub o d y)) by (rewrite <- E; ring). assert (G2 : n_sub o d y = n_sub o (n_add o r Fr) Sr).
  { transitivity (n_add o (n_sub o (n_sub o d r) y) r); [ring|]. rewrite I2. ring. }
  rewrite G, G2. ring.
Qed.

(** There is a solution, and for each the balance of currents fails at some bus. *)
Definition unbalanced np n ybus sources_per_bus y_source u_source fault_buses y_fault t p1 p2 : Prop :=
  phases_fit np t p1 p2 /\ let e := prepare o np ybus sources_per_bus y_source u_source fault_buses y_fault t p1 p2 n in
  (exists x, solves o np n e x) /\ forall x, solves o np n e x ->
  let out := run_short_circuit o np ybus sources_per_bus y_source u_source fault_buses y_fault t p1 p2 n x in
  exists b, b < n /\ ~ balanced o np n ybus (out_u out) (map (out_source out b) (sources_per_bus b)) (map (out_fault out b) (fault_buses b)) b.
(** Without the last three conditions the balance fails. Grids of one bus with a shunt admittance and a source with balanced voltages 1, a^2, a. *)
Section Wrong.
Variable a : C.
Hypothesis a3 : n_add o (n_add o (n_one o) a) (n_mul o a a) = n_zero o.
Hypothesis nz : forall n, n <> 0 -> nnum o n <> n_zero o.
Local Notation "x + y" := (n_add o x y) : num_scope. Local Notation "x * y" := (n_mul o x y) : num_scope. Local Notation "x - y" := (n_sub o x y) : num_scope.
Local Notation "x / y" := (n_div o x y) : num_scope.
Local Notation "- x" := (n_opp o x) : num_scope. Local Notation zero := (n_zero o). Local Notation one := (n_one o).
Local Notation two := (n_add o one one). Local Notation four := (n_add o two two). Local Notation eight := (n_add o four four).
Local Open Scope num_scope.
Definition balanced_voltage : nat -> C := fun p => match p with 0 => one | 1 => a * a | _ => a end.
(** admittances y1 = 1 and y0 = 4: the zero sequence impedance is a quarter of the positive sequence impedance *)
Definition coupled_source : nat -> nat -> C := fun p q => if p =? q then one + one else one.
Definition plain_source : nat -> nat -> C := tdiag o one.
Ltac calc := cbv [solves prepare run_short_circuit calculate_result seq fold_left add_faults add_sources add_fault add_fault_with_infinite_impedance e_mat e_rhs e_bolted set_block map_col set_rhs
  Nat.eqb andb tset tadd tdiag vset vadd vsub vzero tzero col_zero col_add dot map nsum fold_right fault_voltage fault_current fault_current_1 i_source_bus i_source_inject source_current
  out_u out_fault out_source balanced Nat.ltb Nat.leb length balanced_voltage coupled_source plain_source nnum repeat] in *.
Ltac zero_of H := match type of H with ?l = ?r => constr:(l - r) end.
Lemma mul_div k : k <> zero -> k * (one / k) = one. Proof. intros H. field. exact H. Qed.
Lemma div_mul k y : k <> zero -> k * (y / k) = y. Proof. intros H. field. exact H. Qed.
Lemma nz8 : eight <> zero.
Proof. intros E. apply (nz 8); [discriminate|]. unfold nnum, nsum. cbn. etransitivity; [|exact E]. ring. Qed.
Lemma nz2 : two <> zero.
Proof. intros E. apply (nz 2); [discriminate|]. unfold nnum, nsum. cbn. etransitivity; [|exact E]. ring. Qed.
Lemma nz3 : two + one <> zero.
Proof. intros E. apply (nz 3); [discriminate|]. unfold nnum, nsum. cbn. etransitivity; [|exact E]. ring. Qed.
Lemma div_1 y : y / (one + zero) = y. Proof. field. replace (one + zero) with one by ring. apply (one_nz o L). Qed.
Lemma coupled_source_wrong :
  unbalanced 3 1 (fun _ _ => tdiag o one) (fun _ => [0]) (fun _ => coupled_source) (fun _ => balanced_voltage) (fun _ => [0]) (fun _ => Bolted) single_phase_to_ground 0 0.
Proof.
  split; [split; lia|]. cbv zeta. split.
  - pose proof nz8 as N8. set (h := one / eight). assert (Hh : eight * h = one) by (apply mul_div; exact N8). clearbody h.
    exists (fun _ p => match p with 0 => two * (a + a * a) * h | 1 => ((two + one) * a * a - a) * h | _ => ((two + one) * a - a * a) * h end).
    intros b p Hb Hp. destruct b; [|lia]. destruct p as [|[|[|p]]]; [| | |lia]; calc.
    + ring.
    + transitivity (a * a * (eight * h)); [ring|]. rewrite Hh. transitivity (a * a + (one + a + a * a)); [rewrite a3; ring|ring].
    + transitivity (a * (eight * h)); [ring|]. rewrite Hh. transitivity (a + (one + a + a * a)); [rewrite a3; ring|ring].
  - intros x H. exists 0. split; [lia|]. intros B.
    pose proof (H 0 0 ltac:(lia) ltac:(lia)) as H0. pose proof (H 0 1 ltac:(lia) ltac:(lia)) as H1. pose proof (H 0 2 ltac:(lia) ltac:(lia)) as H2.
    pose proof (B 0 ltac:(lia)) as B0. clear H B. calc. rewrite ?div_1 in B0. apply (one_nz o L).
    let z0 := zero_of H0 in let z1 := zero_of H1 in let z2 := zero_of H2 in let z3 := zero_of B0 in let z4 := zero_of a3 in
    transitivity (z1 + z2 - four * z0 + four * z3 + (one + one + one) * z4); [ring|].
    rewrite H0, H1, H2, B0, a3. ring.
Qed.
Lemma two_bolted_wrong :
  unbalanced 3 1 (fun _ _ => tdiag o one) (fun _ => [0]) (fun _ => plain_source) (fun _ => balanced_voltage) (fun _ => [0; 1]) (fun _ => Bolted) three_phase 0 0.
Proof.
  split; [right; reflexivity|]. cbv zeta. split.
  - exists (fun _ _ => zero). intros b p Hb Hp. destruct b; [|lia]. destruct p as [|[|[|p]]]; [| | |lia]; calc; ring.
  - intros x H. exists 0. split; [lia|]. intros B. pose proof (H 0 0 ltac:(lia) ltac:(lia)) as H0. pose proof (B 0 ltac:(lia)) as B0. clear H B. calc. rewrite ?div_1 in B0.
    apply (one_nz o L). let z0 := zero_of H0 in let z3 := zero_of B0 in transitivity (z3 - two * z0); [ring|]. rewrite H0, B0. ring.
Qed.
Lemma two_ground_wrong :
  unbalanced 3 1 (fun _ _ => tdiag o two) (fun _ => [0]) (fun _ => plain_source) (fun _ => balanced_voltage) (fun _ => [0; 1]) (fun _ => Through one) two_phase_to_ground 1 2.
Proof.
  split; [repeat split; lia|]. pose proof nz8 as N8. pose proof nz2 as N2. pose proof nz3 as N3. cbv zeta. split.
  - set (h := one / eight). assert (Hh : eight * h = one) by (apply mul_div; exact N8). clearbody h.
    set (g := one / (two + one)). assert (Hg : (two + one) * g = one) by (apply mul_div; exact N3). clearbody g.
    exists (fun _ p => match p with 0 => g | 1 => (a + a * a) * h | _ => two * (a + a * a) * h end).
    intros b p Hb Hp. destruct b; [|lia]. destruct p as [|[|[|p]]]; [| | |lia]; calc.
    + transitivity ((two + one) * g); [ring|]. rewrite Hg. ring.
    + ring.
    + transitivity ((eight * h) * (a + a * a)); [ring|]. rewrite Hh. ring.
  - intros x H. exists 0. split; [lia|]. intros B. pose proof (H 0 1 ltac:(lia) ltac:(lia)) as H1. pose proof (H 0 2 ltac:(lia) ltac:(lia)) as H2.
    pose proof (B 1 ltac:(lia)) as B1. clear H B. calc.
    set (h := n_div o (zero + (zero * one + (one * (a * a) + (zero * a + zero)))) (one + (one + zero))) in *.
    assert (Hh : (one + (one + zero)) * h = a * a).
    { unfold h. rewrite div_mul by (replace (one + (one + zero)) with two by ring; exact N2). ring. }
    apply (one_nz o L).
    let z1 := zero_of H1 in let z2 := zero_of H2 in let z3 := zero_of B1 in let z4 := zero_of a3 in let z5 := zero_of Hh in
    transitivity (z2 + z4 - (eight + eight - one) * z1 + eight * z3 - eight * z5); [ring|].
    rewrite H1, H2, B1, a3, Hh. ring.
Qed.
End Wrong.
End Solver.

(** In the field of algebraic numbers, with a = exp(2 pi i / 3): *)
(** a bolted single-phase-to-ground fault at a bus with a source whose zero sequence impedance differs from its positive sequence impedance *)
Theorem C43_coupled_source_refuted :
  unbalanced alg_num 3 1 (fun _ _ => tdiag alg_num (n_one alg_num)) (fun _ => [0]) (fun _ => coupled_source alg_num) (fun _ => balanced_voltage alg_num alg_a)
    (fun _ => [0]) (fun _ => Bolted) single_phase_to_ground 0 0.
Proof. apply (coupled_source_wrong alg_num alg_num_laws alg_a alg_a_sum alg_nnum_nz). Qed.
(** two bolted three-phase faults at one bus: each is given the whole current *)
Theorem C43_two_bolted_refuted :
  unbalanced alg_num 3 1 (fun _ _ => tdiag alg_num (n_one alg_num)) (fun _ => [0]) (fun _ => plain_source alg_num) (fun _ => balanced_voltage alg_num alg_a)
    (fun _ => [0; 1]) (fun _ => Bolted) three_phase 0 0.
Proof. apply (two_bolted_wrong alg_num alg_num_laws alg_a); first [exact alg_a_sum|exact alg_nnum_nz]. Qed.
(** two two-phase-to-ground faults with an impedance at one bus *)
Theorem C43_two_ground_refuted :
  unbalanced alg_num 3 1 (fun _ _ => tdiag alg_num (n_add alg_num (n_one alg_num) (n_one alg_num))) (fun _ => [0]) (fun _ => plain_source alg_num) (fun _ => balanced_voltage alg_num alg_a)
    (fun _ => [0; 1]) (fun _ => Through (n_one alg_num)) two_phase_to_ground 1 2.
Proof. apply (two_ground_wrong alg_num alg_num_laws alg_a alg_a_sum alg_nnum_nz). Qed.

(** ** Two buses with a line between them, a source at the first, at the second a bolted fault between phases b and c and one with an impedance *)
Section Example.
Notation q := (fun n : Z => Q2Qc (inject_Z n)).
Definition ex_ybus (i j : nat) : nat -> nat -> Qc := tdiag qc_num (if i =? j then q 2%Z else q (-1)%Z).
Definition ex_sources (b : nat) : list nat := match b with 0 => [0] | _ => [] end.
Definition ex_faults (b : nat) : list nat := match b with 1 => [0; 1] | _ => [] end.
Definition ex_fault (f : nat) : admittance := match f with 0 => Through (q 3%Z) | _ => Bolted end.
Definition ex_u (_ : nat) : nat -> Qc := fun p => nth p [q 1%Z; q 3%Z; q (-5)%Z] (q 0%Z).
Definition ex_x (b : nat) : nat -> Qc := fun p => nth p
  (match b with 0 => [Q2Qc (2 # 5); Q2Qc (14 # 15); Q2Qc (-26 # 15)] | _ => [Q2Qc (1 # 5); Q2Qc (-1 # 5); Q2Qc (-4 # 3)] end) (q 0%Z).
Example ex_hypotheses : phases_fit 3 two_phase 1 2 /\ (forall b, b < 2 -> length (filter (fun f => is_bolted (ex_fault f)) (ex_faults b)) <= 1) /\
  solves qc_num 3 2 (prepare qc_num 3 ex_ybus ex_sources (fun _ => tdiag qc_num (q 1%Z)) ex_u ex_faults ex_fault two_phase 1 2 2) ex_x.
Proof.
  refine (conj _ (conj _ _)).
  - repeat split; lia.
  - intros b Hb. destruct b as [|[|b]]; [| |lia]; cbn; lia.
  - intros b p Hb Hp. destruct b as [|[|b]]; [| |lia]; (destruct p as [|[|[|p]]]; [| | |lia]); apply Qc_is_canon; vm_compute; reflexivity.
Qed.
(** the bolted fault takes 4/3 in phase b, and the opposite in phase c; the voltages of the two phases are equal *)
Example ex_result :
  let out := run_short_circuit qc_num 3 ex_ybus ex_sources (fun _ => tdiag qc_num (q 1%Z)) ex_u ex_faults ex_fault two_phase 1 2 2 ex_x in
  map (fun p => this (out_fault out 1 1 p)) [0; 1; 2] = [0 # 1; 4 # 3; -4 # 3]%Q /\ map (fun p => this (out_fault out 1 0 p)) [0; 1; 2] = [0 # 1; 0 # 1; 0 # 1]%Q /\
  map (fun p => this (out_u out 1 p)) [0; 1; 2] = [1 # 5; -1 # 5; -1 # 5]%Q.
Proof. vm_compute. auto. Qed.
End Example.

(** ** C44 *)
Section Faults.
Context {O : DOps}.
(** the last value that was given, where [na] stands for none *)
Definition last_given (na : Z) (l : list Z) : Z := fold_left (fun cur v => if (v =? na)%Z then cur else v) l na.
(** a fault after its creation and a number of updates, all of them accepted *)
Fixpoint accepted (f : fault * option exn) (us : list fault_upd) : option fault :=
  match snd f, us with
  | Some _, _ => None
  | None, [] => Some (fst f)
  | None, u :: us' => accepted (fst (fst (fault_update (fst f) u)), snd (fault_update (fst f) u)) us'
  end.
(** the phases that the solver takes for a type and a phase of the calculation parameters; None: the index -1 is used *)
Definition phases_used (t : fault_type) (p : Z) : option (list nat) :=
  match t, set_phase_index p with
  | three_phase, _ => Some [0; 1; 2]
  | single_phase_to_ground, (Some a, _) => Some [a]
  | two_phase, (Some a, Some b) | two_phase_to_ground, (Some a, Some b) => Some [a; b]
  | _, _ => None
  end.

Lemma sane_cases t p : check_sanity t p = None -> t = na_IntS \/ exists ft, fault_type_of t = Some ft /\ documented_phases ft p <> None.
Proof.
  unfold check_sanity, fault_type_of. intros H.
  destruct (t =? 0)%Z; [right; exists three_phase; split; [reflexivity|]|destruct (t =? 1)%Z; [right; exists single_phase_to_ground; split; [reflexivity|]|
    destruct (t =? 2)%Z; [right; exists two_phase; split; [reflexivity|]|destruct (t =? 3)%Z; [right; exists two_phase_to_ground; split; [reflexivity|]|
    destruct (t =? na_IntS)%Z eqn:E; [left; apply Z.eqb_eq; exact E|discriminate]]]]];
  unfold documented_phases, unspecified; cbn [existsb] in H; 
  repeat match type of H with context [(?a =? ?b)%Z] => destruct (a =? b)%Z end; cbn in *; congruence.
Qed.
Lemma sane_of_documented t ft p : fault_type_of t = Some ft -> (check_sanity t p = None <-> documented_phases ft p <> None).
Proof.
  unfold check_sanity, fault_type_of. intros H.
  destruct (t =? 0)%Z; [injection H as <-|destruct (t =? 1)%Z; [injection H as <-|destruct (t =? 2)%Z; [injection H as <-|destruct (t =? 3)%Z; [injection H as <-|discriminate]]]];
  unfold documented_phases, unspecified; cbn [existsb]; repeat match goal with |- context [(?a =? ?b)%Z] => destruct (a =? b)%Z end; cbn; split; congruence.
Qed.

(** The type and phases of a fault, after its creation and any updates that were accepted, are those of the table for the last type and the last phase given. *)
Theorem C44_phases : forall dzero u us f, accepted (fault_create dzero u) us = Some f ->
  let t := last_given na_IntS (map fau_type (u :: us)) in
  let p := last_given na_IntS (map fau_phase (u :: us)) in
  (t = na_IntS /\ fault_calc_param f = Err (OtherError 1)) \/
  exists ft phases q, fault_type_of t = Some ft /\ documented_phases ft p = Some phases /\ fault_calc_param f = Ok (ft, q) /\ phases_used ft q = Some phases.
Proof.
  intros dzero u us f H.
  assert (G : forall vs f0, check_sanity (fa_type f0) (fa_phase f0) = None -> accepted (f0, None) vs = Some f ->
    fa_type f = fold_left (fun cur v => if (v =? na_IntS)%Z then cur else v) (map fau_type vs) (fa_type f0) /\
    fa_phase f = fold_left (fun cur v => if (v =? na_IntS)%Z then cur else v) (map fau_phase vs) (fa_phase f0) /\ check_sanity (fa_type f) (fa_phase f) = None).
  { induction vs as [|w l IH]; intros f0 Hs A; cbn [accepted fst snd] in A.
    - injection A as <-. auto.
    - destruct (snd (fault_update f0 w)) as [e|] eqn:E; [destruct l; discriminate A|].
      assert (S1 : check_sanity (fa_type (fst (fst (fault_update f0 w)))) (fa_phase (fst (fst (fault_update f0 w)))) = None).
      { revert E. unfold fault_update. destruct (set_status1 _ _). cbn [fst snd]. auto. }
      destruct (IH _ S1 A) as (I1 & I2 & I3). cbn [map fold_left].
      assert (T1 : fa_type (fst (fst (fault_update f0 w))) = if (fau_type w =? na_IntS)%Z then fa_type f0 else fau_type w) by (unfold fault_update; destruct (set_status1 _ _); reflexivity).
      assert (P1 : fa_phase (fst (fst (fault_update f0 w))) = if (fau_phase w =? na_IntS)%Z then fa_phase f0 else fau_phase w) by (unfold fault_update; destruct (set_status1 _ _); reflexivity).
      rewrite T1 in I1. rewrite P1 in I2. auto. }
  assert (A : snd (fault_create dzero u) = None /\ accepted (fst (fault_create dzero u), None) us = Some f).
  { destruct us as [|w us]; cbn [accepted] in H; destruct (snd (fault_create dzero u)) eqn:E; try discriminate; cbn [accepted fst snd]; auto. }
  destruct A as [A1 A2]. destruct (G us _ A1 A2) as (G1 & G2 & G3). cbn [fault_create fst fa_type fa_phase] in G1, G2.
  assert (N : forall na l c, (forall v, fold_left (fun cur v => if (v =? na)%Z then cur else v) l (if (c =? na)%Z then v else c) =
     if (last_given na (c :: l) =? na)%Z then v else last_given na (c :: l))).
  { intros na l. unfold last_given. cbn [fold_left].
    assert (K : forall l c v, fold_left (fun cur v => if (v =? na)%Z then cur else v) l (if (c =? na)%Z then v else c) =
      if (fold_left (fun cur v => if (v =? na)%Z then cur else v) l c =? na)%Z then v else fold_left (fun cur v => if (v =? na)%Z then cur else v) l c).
    { clear. induction l as [|d l IH]; intros c v; cbn [fold_left]; [reflexivity|]. destruct (d =? na)%Z eqn:E.
      - apply IH.
      - specialize (IH d v). rewrite E in IH. exact IH. }
    intros c v. rewrite K. destruct (c =? na)%Z eqn:E; [apply Z.eqb_eq in E; subst c|]; reflexivity. }
  cbv zeta. cbn [map]. set (t := last_given na_IntS (fau_type u :: map fau_type us)) in *. set (p := last_given na_IntS (fau_phase u :: map fau_phase us)) in *.
  assert (Gt : fa_type f = t).
  { rewrite G1. unfold t, last_given. cbn [fold_left]. destruct (fau_type u =? na_IntS)%Z eqn:E; [apply Z.eqb_eq in E; rewrite E|]; reflexivity. }
  assert (Gp : fa_phase f = if (p =? na_IntS)%Z then (-1)%Z else p) by (rewrite G2; apply N).
  destruct (sane_cases _ _ G3) as [Hn|(ft & Hf & Hd)].
  - left. rewrite <- Gt. split; [exact Hn|]. unfold fault_calc_param, get_fault_type. rewrite Hn. reflexivity.
  - right. rewrite Gt in Hf. rewrite Gp in Hd.
    assert (Hd2 : documented_phases ft (if (p =? na_IntS)%Z then (-1)%Z else p) = documented_phases ft p).
    { destruct (p =? na_IntS)%Z eqn:E; [|reflexivity]. apply Z.eqb_eq in E. rewrite E. destruct ft; reflexivity. }
    rewrite Hd2 in Hd. exists ft. destruct (documented_phases ft p) as [phases|] eqn:Ed; [|congruence]. exists phases.
    unfold fault_calc_param, get_fault_type, get_fault_phase. rewrite Gt, Hf, Gp.
    clear G1 G2 Hd2 N. clearbody t p.
    unfold documented_phases, unspecified in Ed.
    destruct (p =? na_IntS)%Z eqn:E1; [|destruct (p =? -1)%Z eqn:E2].
    + rewrite orb_true_r in Ed. cbn [orb Z.eqb Pos.eqb] in *. destruct ft; injection Ed as <-; eexists; repeat split; reflexivity.
    + cbn [orb] in *. destruct ft; injection Ed as <-; eexists; repeat split; reflexivity.
    + cbn [orb] in *. exists p. split; [reflexivity|split; [reflexivity|split; [reflexivity|]]]. unfold phases_used, set_phase_index. clear Gp Gt.
      destruct ft; [destruct (p =? 0)%Z; [injection Ed as <-; reflexivity|discriminate]| | |];
        repeat match type of Ed with (if (p =? ?k)%Z then _ else _) = _ => let E := fresh "E" in destruct (p =? k)%Z eqn:E; [apply Z.eqb_eq in E; subst p; injection Ed as <-; reflexivity|] end; discriminate Ed.
Qed.
(** A fault with a type is created exactly when the table has its phase, and an update is accepted exactly when the table has the phase for the new values. *)
Theorem C44_accepted : forall dzero u f w ft,
  (fault_type_of (fau_type u) = Some ft -> (snd (fault_create dzero u) = None <-> documented_phases ft (fau_phase u) <> None)) /\
  (fault_type_of (fa_type (fst (fst (fault_update f w)))) = Some ft ->
   (snd (fault_update f w) = None <-> documented_phases ft (if (fau_phase w =? na_IntS)%Z then fa_phase f else fau_phase w) <> None)).
Proof.
  intros dzero u f w ft. split; intros H.
  - cbn [fault_create snd fa_type fa_phase]. rewrite (sane_of_documented _ ft _ H). destruct (fau_phase u =? na_IntS)%Z eqn:E; [|reflexivity].
    apply Z.eqb_eq in E. rewrite E. destruct ft; reflexivity.
  - assert (P1 : fa_phase (fst (fst (fault_update f w))) = if (fau_phase w =? na_IntS)%Z then fa_phase f else fau_phase w) by (unfold fault_update; destruct (set_status1 _ _); reflexivity).
    rewrite <- P1, <- (sane_of_documented _ ft _ H). unfold fault_update. destruct (set_status1 _ _). cbn [fst snd]. reflexivity.
Qed.
(** A rejected update leaves its values behind: a later calculation of the fault uses the phase index -1. *)
Theorem C44_rejected_kept_refuted : forall dzero d,
  let f := fst (fault_create dzero (mkFaultUpd 1 1 1 0 d d)) in
  let f' := fst (fst (fault_update f (mkFaultUpd na_IntS 2 na_IntS na_IntID d d))) in
  snd (fault_create dzero (mkFaultUpd 1 1 1 0 d d)) = None /\ snd (fault_update f (mkFaultUpd na_IntS 2 na_IntS na_IntID d d)) = Some InvalidShortCircuitPhases /\
  fault_calc_param f' = Ok (two_phase, 1%Z) /\ phases_used two_phase 1 = None.
Proof. intros dzero d. repeat split. Qed.
(** type changed first, then the phase: rejected or accepted by the combination at each update *)
Example ex_history : forall d : D,
  let ups := [mkFaultUpd 1 1 2 7 d d; mkFaultUpd na_IntS 2 6 na_IntID d d; mkFaultUpd na_IntS na_IntS (-1) na_IntID d d] in
  exists f, accepted (fault_create d (mkFaultUpd 1 0 na_IntS 7 d d)) ups = Some f /\ fault_calc_param f = Ok (two_phase, 6%Z).
Proof. intros d. eexists. split; [reflexivity|reflexivity]. Qed.
End Faults.

Print Assumptions C43_short_circuit_partial. Print Assumptions C43_coupled_source_refuted. Print Assumptions C43_two_bolted_refuted. Print Assumptions C43_two_ground_refuted.
Print Assumptions C44_phases. Print Assumptions C44_accepted. Print Assumptions C44_rejected_kept_refuted.
