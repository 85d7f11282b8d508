(** C55: grids that meet the hypotheses of its theorems. *)
From Coq Require Import Reals Lra.
From Verif Require Import Common Numbers NumbersPair ShortCircuit PowerFlow PowerFlowSpec NewtonRaphson NewtonSpec NewtonProps NewtonReals NewtonStep.
Local Open Scope R_scope.

Lemma abs_real c : 0 <= c -> real_abs (c, 0) = c.
Proof. intros H. unfold real_abs. cbn [fst snd]. replace (c * c + 0 * 0) with (c * c) by ring. apply sqrt_square. exact H. Qed.
Lemma arg_real c : 0 < c -> real_arg (c, 0) = 0.
Proof. intros H. unfold real_arg. cbn [fst snd]. destruct (Rlt_dec 0 c); [|lra]. replace (0 / c) with 0 by (field; lra). apply atan_0. Qed.
Local Notation cxo := (pair_num real_num).

(** ** A bus with a source and a load of constant power: one iteration *)
Section OneBus.
  Definition one_ybus (i j p q : nat) : R * R := (0, 0).
  Definition one_sources (b : nat) : list nat := [0%nat].
  Definition one_loads (b : nat) : list nat := [0%nat].
  Definition one_y1 (i : nat) : R * R := (1, 0).
  Definition one_u_source (i : nat) : R * R := (1, 0).
  Definition one_type (l : nat) : load_type := const_pq.
  Definition one_s (l p : nat) : R * R := (- (1 / 4), 0).
  Definition one_no_regs (l : nat) : list nat := [].
  Definition one_regs (g : nat) : regulator (R := R) := mkReg false (0, 0) None None.
  Local Notation sy := (source_y cxo 1 one_y1 one_y1). Local Notation su := (source_u cxo real_root one_u_source).
  Local Notation reached := (NewtonRaphson.reached real_num real_abs real_arg cos sin real_gtb Rabs 0 1 1 one_ybus one_sources one_loads sy su one_type one_s (fun _ => true) one_no_regs one_regs).
  Local Notation prepare := (NewtonRaphson.prepare real_num real_gtb Rabs 0 1 1 one_ybus one_sources one_loads sy su one_type one_s (fun _ => true) one_no_regs one_regs).
  Definition one_d0 (b : nat) : polar := mkPolar (fun _ => 4 / 5) (fun _ => 0).
  Definition one_d1 (b : nat) : polar := mkPolar (fun _ => 0) (fun _ => - (3 / 16)).
  Lemma one_start : solution real_num 1 1 (linear_row real_num 1 one_ybus one_sources one_loads sy su one_s (fun _ => true) one_no_regs one_regs) one_d0.
  Proof.
    intros b p Hb Hp. assert (b = 0)%nat by lia. assert (p = 0)%nat by lia. subst b p. cbn. split; field.
  Qed.
  Local Notation st := (start_state real_num real_abs real_arg real_gtb 1 1 one_ybus one_sources one_loads sy su one_s (fun _ => true) one_no_regs one_regs one_d0).
  Local Notation u := (start_u real_num real_abs real_gtb one_sources one_loads (fun _ => true) one_no_regs one_regs one_d0).
  Lemma one_first_step : exists st1, prepare u st = Some st1 /\ solution real_num 1 1 (rows st1) one_d1.
  Proof.
    eexists. split; [reflexivity|]. intros b p Hb Hp. assert (b = 0)%nat by lia. assert (p = 0)%nat by lia. subst b p. cbn. split; field.
  Qed.
  Example C55_one_step : exists u' st1, reached st1 u' /\ u' 0%nat 0%nat = (13 / 20, 0).
  Proof.
    destruct one_first_step as (st1 & P & S). exists (phasors real_num cos sin (moved real_num (x st1) one_d1)), (move real_num st1 one_d1 (countdown st1)). split.
    - eapply reached_step; [constructor; exact one_start|exact P|exact S|left; reflexivity].
    - injection P as <-. cbn. unfold phasors, moved, vplus, vtimes. cbn. rewrite abs_real, arg_real by lra. rewrite Rplus_0_l, cos_0, sin_0. f_equal; field.
  Qed.
  Example C55_step_holds := C55_newton_step 0 (Rle_refl 0) 1 1 one_ybus one_sources one_loads one_y1 one_y1 one_u_source one_type one_s (fun _ => true) one_no_regs one_regs (or_introl eq_refl)
    (fun b b' l Hb Hb' _ _ => eq_trans (proj1 (Nat.lt_1_r b) Hb) (eq_sym (proj1 (Nat.lt_1_r b') Hb'))).
End OneBus.

(** ** A source, a line and a load of constant admittance, with a generator that holds the voltage that the load has: the first iteration changes nothing *)
Section TwoBuses.
  Definition two_ybus (i j p q : nat) : R * R := if Nat.eqb i j then (1, 0) else (-1, 0).
  Definition two_sources (b : nat) : list nat := match b with O => [0%nat] | _ => [] end.
  Definition two_loads (b : nat) : list nat := match b with O => [] | _ => [0%nat; 1%nat] end.
  Definition two_y1 (i : nat) : R * R := (1, 0).
  Definition two_u_source (i : nat) : R * R := (1, 0).
  Definition two_type (l : nat) : load_type := match l with O => const_y | _ => const_pq end.
  Definition two_s (l p : nat) : R * R := match l with O => (-1, 0) | _ => (0, 0) end.
  Definition two_regulators_of (l : nat) : list nat := match l with 1%nat => [0%nat] | _ => [] end.
  Definition two_regs (g : nat) : regulator (R := R) := mkReg true (1 / 3, 0) None None.
  Local Notation sy := (source_y cxo 1 two_y1 two_y1). Local Notation su := (source_u cxo real_root two_u_source).
  Local Notation reached := (NewtonRaphson.reached real_num real_abs real_arg cos sin real_gtb Rabs 0 1 2 two_ybus two_sources two_loads sy su two_type two_s (fun _ => true) two_regulators_of two_regs).
  Local Notation prepare := (NewtonRaphson.prepare real_num real_gtb Rabs 0 1 2 two_ybus two_sources two_loads sy su two_type two_s (fun _ => true) two_regulators_of two_regs).
  Definition two_d0 (b : nat) : polar := mkPolar (fun _ => match b with O => 2 / 3 | _ => 1 / 3 end) (fun _ => 0).
  Definition two_d1 (b : nat) : polar := mkPolar (fun _ => 0) (fun _ => 0).
  Lemma two_start : solution real_num 1 2 (linear_row real_num 1 two_ybus two_sources two_loads sy su two_s (fun _ => true) two_regulators_of two_regs) two_d0.
  Proof.
    intros b p Hb Hp. assert (p = 0)%nat by lia. subst p. destruct b as [|[|b]]; [| |lia]; cbn; split; field.
  Qed.
  Local Notation st := (start_state real_num real_abs real_arg real_gtb 1 2 two_ybus two_sources two_loads sy su two_s (fun _ => true) two_regulators_of two_regs two_d0).
  Local Notation u := (start_u real_num real_abs real_gtb two_sources two_loads (fun _ => true) two_regulators_of two_regs two_d0).
  Lemma two_u b p : (b < 2)%nat -> u b p = (match b with O => 2 / 3 | _ => 1 / 3 end, 0).
  Proof.
    intros Hb. destruct b as [|[|b]]; [reflexivity| |lia]. cbn. unfold start_u. cbn. unfold phase_shift. cbn. rewrite abs_real by lra. unfold real_gtb. destruct (Rlt_dec 0 (1 / 3)); [|lra].
    unfold cmul. cbn. apply f_equal2; field.
  Qed.
  Local Notation two_row := (build_row real_num 1 2 two_ybus two_sources two_loads sy su two_type two_s (x st) (fun _ => None) u).
  Definition two_st1 : state := apply_pv_constraints real_num
    (mkState (x st) two_row (bus_control real_num two_sources two_loads (fun _ => true) two_regulators_of two_regs) (fun _ => None) (-1)%Z).
  Lemma two_imbalance (V : nat -> nat -> R) (w : nat -> nat -> R * R) b : w 0%nat 0%nat = (2 / 3, 0) -> w 1%nat 0%nat = (1 / 3, 0) -> V 0%nat 0%nat = 2 / 3 -> V 1%nat 0%nat = 1 / 3 -> (b < 2)%nat ->
    NewtonFacts.imbalance real_num 1 2 two_ybus two_sources two_loads sy su two_type two_s (fun _ => None) (V b) w b 0 = (0, 0).
  Proof.
    intros W0 W1 V0 V1 Hb. destruct b as [|[|b]]; [| |lia].
    - unfold NewtonFacts.imbalance, NewtonFacts.load_at, NewtonFacts.source_at, network_current, dot, nsum. cbn. rewrite W0, W1. apply pair_eq; cbn; field.
    - unfold NewtonFacts.imbalance, NewtonFacts.load_at, NewtonFacts.source_at, network_current, dot, nsum. cbn. rewrite W0, W1, V1. apply pair_eq; cbn; field.
  Qed.
  Lemma two_rows b : (b < 2)%nat -> pa (r_del (rows two_st1 b)) 0%nat = 0 /\ pb (r_del (rows two_st1 b)) 0%nat = 0.
  Proof.
    intros Hb. destruct (NewtonFacts.build_del real_num real_num_laws 1 2 two_ybus two_sources two_loads sy su two_type two_s (x st) (fun _ => None) u b 0) as [D1 D2].
    assert (I : NewtonFacts.imbalance real_num 1 2 two_ybus two_sources two_loads sy su two_type two_s (fun _ => None) (pb (x st b)) u b 0 = (0, 0)).
    { apply (two_imbalance (fun b => pb (x st b))); [apply two_u; lia|apply two_u; lia| | |exact Hb]; cbn [start_state x pb]; rewrite two_u by lia; apply abs_real; lra. }
    assert (E1 := eq_trans D1 (f_equal fst I)). assert (E2 := eq_trans D2 (f_equal snd I)). destruct b as [|[|b]]; [| |lia].
    - split; [exact E1|exact E2].
    - split; [exact E1|reflexivity].
  Qed.
  Lemma two_solution : solution real_num 1 2 (rows two_st1) two_d1.
  Proof.
    intros b p Hb Hp. assert (p = 0)%nat by lia. subst p. destruct (two_rows b Hb) as [-> ->]. unfold nsum. cbn [seq map fold_right two_d1 pa pb]. cbn [n_mul n_add n_zero real_num]. split; ring.
  Qed.
  Example C55_two_buses :
    reached st u /\ prepare u st = Some two_st1 /\ solution real_num 1 2 (rows two_st1) two_d1 /\
    (forall b p, (b < 2)%nat -> (p < 1)%nat -> pb (x st b) p = real_abs (u b p) /\ real_abs (u b p) <> 0) /\
    (forall b p, (b < 2)%nat -> (p < 1)%nat -> pa (moved real_num (x st) two_d1 b) p = pa (x st b) p /\ pb (moved real_num (x st) two_d1 b) p = pb (x st b) p) /\
    NewtonSpec.regulating two_sources two_loads (fun _ => true) two_regulators_of two_regs 1 1 0.
  Proof.
    refine (conj _ (conj _ (conj _ (conj _ (conj _ _))))).
    - constructor. exact two_start.
    - reflexivity.
    - exact two_solution.
    - intros b p Hb Hp. split; [reflexivity|]. rewrite two_u by exact Hb. destruct b; rewrite abs_real by lra; lra.
    - intros b p Hb Hp. unfold moved, vplus, vtimes. cbn [pa pb two_d1]. cbn [n_add n_mul real_num]. split; ring.
    - unfold regulating. cbn. tauto.
  Qed.
End TwoBuses.
Print Assumptions C55_two_buses.

(** ** The same with reactive power limits -1 and 1: the second iteration checks them and changes nothing either *)
Section Limits.
  Definition lim_regs (g : nat) : regulator (R := R) := mkReg true (1 / 3, 0) (Some (-1)) (Some 1).
  Local Notation sy := (source_y cxo 1 two_y1 two_y1). Local Notation su := (source_u cxo real_root two_u_source).
  Local Notation reached := (NewtonRaphson.reached real_num real_abs real_arg cos sin real_gtb Rabs 0 1 2 two_ybus two_sources two_loads sy su two_type two_s (fun _ => true) two_regulators_of lim_regs).
  Local Notation prepare := (NewtonRaphson.prepare real_num real_gtb Rabs 0 1 2 two_ybus two_sources two_loads sy su two_type two_s (fun _ => true) two_regulators_of lim_regs).
  Local Notation st := (start_state real_num real_abs real_arg real_gtb 1 2 two_ybus two_sources two_loads sy su two_s (fun _ => true) two_regulators_of lim_regs two_d0).
  Local Notation u := (start_u real_num real_abs real_gtb two_sources two_loads (fun _ => true) two_regulators_of lim_regs two_d0).
  Local Notation control := (bus_control real_num two_sources two_loads (fun _ => true) two_regulators_of lim_regs).
  Local Notation row_of xs w := (build_row real_num 1 2 two_ybus two_sources two_loads sy su two_type two_s xs (fun _ => None) w).
  Definition lim_st1 (xs : nat -> polar) (w : nat -> nat -> R * R) (c : Z) : state := apply_pv_constraints real_num (mkState xs (row_of xs w) control (fun _ => None) c).
  (** voltages and magnitudes at which nothing is missing *)
  Definition fits (xs : nat -> polar) (w : nat -> nat -> R * R) : Prop :=
    w 0%nat 0%nat = (2 / 3, 0) /\ w 1%nat 0%nat = (1 / 3, 0) /\ pb (xs 0%nat) 0%nat = 2 / 3 /\ pb (xs 1%nat) 0%nat = 1 / 3.
  Lemma lim_del xs w b : fits xs w -> (b < 2)%nat -> pa (r_del (row_of xs w b)) 0%nat = 0 /\ pb (r_del (row_of xs w b)) 0%nat = 0.
  Proof.
    intros (W0 & W1 & V0 & V1) Hb. destruct (NewtonFacts.build_del real_num real_num_laws 1 2 two_ybus two_sources two_loads sy su two_type two_s xs (fun _ => None) w b 0) as [D1 D2].
    pose proof (two_imbalance (fun b => pb (xs b)) w b W0 W1 V0 V1 Hb) as I. exact (conj (eq_trans D1 (f_equal fst I)) (eq_trans D2 (f_equal snd I))).
  Qed.
  Lemma lim_solution xs w c : fits xs w -> solution real_num 1 2 (rows (lim_st1 xs w c)) two_d1.
  Proof.
    intros F b p Hb Hp. assert (p = 0)%nat by lia. subst p.
    assert (D : pa (r_del (rows (lim_st1 xs w c) b)) 0%nat = 0 /\ pb (r_del (rows (lim_st1 xs w c) b)) 0%nat = 0).
    { pose proof (lim_del xs w b F Hb) as D. destruct b as [|[|b]]; [exact D|split; [exact (proj1 D)|reflexivity]|lia]. }
    destruct D as [-> ->]. unfold nsum. cbn [seq map fold_right two_d1 pa pb]. cbn [n_mul n_add n_zero real_num]. split; ring.
  Qed.
  Lemma lim_u b p : (b < 2)%nat -> u b p = (match b with O => 2 / 3 | _ => 1 / 3 end, 0).
  Proof.
    intros Hb. destruct b as [|[|b]]; [reflexivity| |lia]. cbn. unfold start_u. cbn. unfold phase_shift. cbn. rewrite abs_real by lra. unfold real_gtb. destruct (Rlt_dec 0 (1 / 3)); [|lra].
    unfold cmul. cbn. apply f_equal2; field.
  Qed.
  Lemma lim_start : solution real_num 1 2 (linear_row real_num 1 two_ybus two_sources two_loads sy su two_s (fun _ => true) two_regulators_of lim_regs) two_d0.
  Proof.
    intros b p Hb Hp. assert (p = 0)%nat by lia. subst p. destruct b as [|[|b]]; [| |lia]; cbn; split; field.
  Qed.
  Definition lim_x : nat -> polar := moved real_num (x st) two_d1.
  Definition lim_w : nat -> nat -> R * R := phasors real_num cos sin lim_x.
  Lemma lim_start_fits : fits (x st) u.
  Proof. refine (conj _ (conj _ (conj _ _))); [apply lim_u; lia|apply lim_u; lia| |]; cbn [start_state x pb]; rewrite lim_u by lia; apply abs_real; lra. Qed.
  Lemma lim_fits : fits lim_x lim_w.
  Proof.
    destruct lim_start_fits as (_ & _ & V0 & V1). unfold fits, lim_w, phasors, lim_x, moved, vplus, vtimes. cbn [pa pb two_d1 n_add n_mul real_num].
    assert (A : forall b, (b < 2)%nat -> pa (x st b) 0%nat = 0). { intros b Hb. cbn [start_state x pa]. rewrite lim_u by exact Hb. apply arg_real. destruct b; lra. }
    rewrite (A 0%nat), (A 1%nat), V0, V1 by lia. rewrite Rplus_0_l, cos_0, sin_0. refine (conj _ (conj _ (conj _ _))); try (apply f_equal2; field); field.
  Qed.
  Lemma lim_second : prepare lim_w (move real_num (lim_st1 (x st) u 1) two_d1 0) = Some (lim_st1 lim_x lim_w 0).
  Proof.
    assert (E : enforce real_num real_gtb Rabs 0 1 two_loads two_type two_s (fun _ => true) two_regulators_of lim_regs (seq 0 2) (mkState lim_x (row_of lim_x lim_w) control (fun _ => None) 0) =
                Some (mkState lim_x (row_of lim_x lim_w) control (fun _ => None) 0)).
    { assert (V : violated_limit real_num real_gtb 0 1 (vminus real_num (fold_left (fun q lg => vplus real_num q (vim (two_s (fst lg))))
                  (active two_loads (fun _ => true) two_regulators_of lim_regs 1) (v0 real_num)) (pb (r_del (row_of lim_x lim_w 1%nat)))) (Some (0 + -1)) (Some (0 + 1)) = none).
      { unfold violated_limit, total. cbn [Nat.eqb]. unfold vminus. rewrite (proj2 (lim_del lim_x lim_w 1 lim_fits ltac:(lia))). unfold real_gtb.
        destruct (Rlt_dec _ _) as [H|H]; [exfalso; cbn in H; unfold vplus, v0, vim, im in H; cbn in H; lra|].
        destruct (Rlt_dec _ _) as [H1|H1]; [exfalso; cbn in H1; unfold vplus, v0, vim, im in H1; cbn in H1; lra|reflexivity]. }
      cbn [seq enforce]. unfold enforce_bus at 1. cbv zeta. change (c_type (ctl _ 0%nat)) with slack. cbv iota. unfold enforce_bus. cbv zeta.
      change (c_type (ctl _ 1%nat)) with pv. change (c_has_limits (ctl _ 1%nat)) with true. cbv iota. change (forallb _ _) with true. cbv iota.
      match goal with |- context [match violated_limit _ _ _ _ ?a ?b ?c with _ => _ end] =>
        replace (violated_limit real_num real_gtb 0 1 a b c) with none by (symmetry; exact V) end. reflexivity. }
    exact (f_equal (fun r => match r with None => None | Some st3 => Some (apply_pv_constraints real_num
      (if switched 2 st3 then build real_num 1 2 two_ybus two_sources two_loads sy su two_type two_s true lim_w st3 else st3)) end) E).
  Qed.
  Example C55_two_buses_limits : exists sta ua stb,
    reached sta ua /\ prepare ua sta = Some stb /\ solution real_num 1 2 (rows stb) two_d1 /\ countdown stb = 0%Z /\
    (forall b p, (b < 2)%nat -> (p < 1)%nat -> pb (x sta b) p = real_abs (ua b p) /\ real_abs (ua b p) <> 0) /\
    (forall b p, (b < 2)%nat -> (p < 1)%nat -> pa (moved real_num (x sta) two_d1 b) p = pa (x sta b) p /\ pb (moved real_num (x sta) two_d1 b) p = pb (x sta b) p) /\
    NewtonSpec.limit_sum real_num two_loads (fun _ => true) two_regulators_of lim_regs at_max 1 = Some (1 + 0).
  Proof.
    exists (move real_num (lim_st1 (x st) u 1) two_d1 0), lim_w, (lim_st1 lim_x lim_w 0). refine (conj _ (conj _ (conj _ (conj _ (conj _ (conj _ _)))))).
    - apply (reached_step _ _ _ _ _ _ _ _ _ _ _ _ _ _ _ _ _ _ _ _ st u (lim_st1 (x st) u 1) two_d1 0%Z); [constructor; exact lim_start|reflexivity|apply lim_solution; exact lim_start_fits|right; split; [reflexivity|reflexivity]].
    - exact lim_second.
    - apply lim_solution. exact lim_fits.
    - reflexivity.
    - intros b p Hb Hp. assert (p = 0)%nat by lia. subst p. destruct lim_fits as (W0 & W1 & V0 & V1). destruct b as [|[|b]]; [| |lia]; cbn [move x].
      + change (pb (lim_x 0%nat) 0%nat = real_abs (lim_w 0%nat 0%nat) /\ real_abs (lim_w 0%nat 0%nat) <> 0). rewrite W0, V0, abs_real by lra. lra.
      + change (pb (lim_x 1%nat) 0%nat = real_abs (lim_w 1%nat 0%nat) /\ real_abs (lim_w 1%nat 0%nat) <> 0). rewrite W1, V1, abs_real by lra. lra.
    - intros b p Hb Hp. unfold moved, vplus, vtimes. cbn [pa pb two_d1]. cbn [n_add n_mul real_num]. split; ring.
    - reflexivity.
  Qed.
End Limits.
Print Assumptions C55_two_buses_limits.
