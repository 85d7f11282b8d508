(** C57: voltages that an iteration leaves as they are. *)
From Coq Require Import Reals Lra Field.
From Verif Require Import Common Numbers NumbersPair LinearSE NewtonReals NewtonSE NewtonSESpec NewtonSEFacts NewtonSERows NewtonSEWeak NewtonSEInject NewtonSEStep.
Local Open Scope R_scope.

Local Notation cxo := (pair_num real_num). Local Notation conj := (cconj real_num). Local Notation ctimes := (cmul real_num). Local Notation cplus := (cadd real_num). Local Notation cminus := (csub real_num).
Local Notation sum f l := (nsum real_num (map f l)).

(** ** A derivative depends on the buses of the sub-grid only *)
Section Near.
Variables (n n_branch : nat) (branch_bus : nat -> bool -> option nat) (shunts : nat -> list nat).
Variables (branch_param : nat -> bool -> bool -> nat -> nat -> R * R) (shunt_param : nat -> nat -> nat -> R * R) (ybus : nat -> nat -> nat -> nat -> R * R).
Variables (voltage : nat -> option (voltage_sensor (R := R))) (branch_power : nat -> bool -> option (flow (R := R))) (branch_current : nat -> bool -> option (angle_type * flow (R := R))).
Variables (shunt_power bus_injection : nat -> option (flow (R := R))).
Hypothesis BR : branches_ok n branch_bus.
Variable x : volts.
Local Notation D := (NewtonSEFacts.D 1 n branch_bus branch_param shunt_param ybus x).
Local Notation measured := (NewtonSESpec.measured 1 n n_branch shunts voltage branch_power branch_current shunt_power bus_injection).
Definition agree (e f : volts) : Prop := forall b, (b < n)%nat -> ang e b 0%nat = ang f b 0%nat /\ mag e b 0%nat = mag f b 0%nat.
Definition near (q : quantity) : Prop :=
  match q with
  | magnitude b p | angle b p | shunt_power_of b _ _ p | injection_of b _ p => (b < n)%nat /\ p = 0%nat
  | branch_power_of _ _ _ p | local_current_of _ _ _ p | global_current_of _ _ _ p => p = 0%nat
  end.
Lemma agree_phasor e f b : agree e f -> (b < n)%nat -> dphasor x e b 0%nat = dphasor x f b 0%nat.
Proof. intros A Hb. unfold dphasor. destruct (A b Hb) as [-> ->]. reflexivity. Qed.
Lemma agree_direction e f b : agree e f -> (b < n)%nat -> ddirection x e b 0%nat = ddirection x f b 0%nat.
Proof. intros A Hb. unfold ddirection. destruct (A b Hb) as [-> _]. reflexivity. Qed.
Lemma agree_flow e f k side : agree e f -> NewtonSESpec.flow_at 1 branch_bus branch_param (dphasor x e) k side 0%nat = NewtonSESpec.flow_at 1 branch_bus branch_param (dphasor x f) k side 0%nat.
Proof.
  intros A. unfold NewtonSESpec.flow_at. f_equal.
  - destruct (branch_bus k side) as [j|] eqn:E; [|reflexivity]. rewrite !through_1, (agree_phasor e f j A (ok_bus _ _ BR _ _ _ E)). reflexivity.
  - destruct (branch_bus k (negb side)) as [j|] eqn:E; [|reflexivity]. rewrite !through_1, (agree_phasor e f j A (ok_bus _ _ BR _ _ _ E)). reflexivity.
Qed.
Lemma D_near q e f : near q -> agree e f -> D q e = D q f.
Proof.
  intros N A. destruct q as [b p|b p|m side c p|m side c p|m side c p|b m c p|b c p]; cbn [near] in N; cbn [NewtonSEFacts.D].
  - destruct N as [Hb ->]. apply A. exact Hb.
  - destruct N as [Hb ->]. apply A. exact Hb.
  - subst p. rewrite (agree_flow e f m side A). assert (E : NewtonSESpec.at_side branch_bus (dphasor x e) m side 0%nat = NewtonSESpec.at_side branch_bus (dphasor x f) m side 0%nat); [|rewrite E; reflexivity].
    unfold NewtonSESpec.at_side. destruct (branch_bus m side) as [j|] eqn:E; [|reflexivity]. apply agree_phasor; [exact A|apply (ok_bus _ _ BR _ _ _ E)].
  - subst p. rewrite (agree_flow e f m side A). assert (E : NewtonSESpec.at_side branch_bus (ddirection x e) m side 0%nat = NewtonSESpec.at_side branch_bus (ddirection x f) m side 0%nat); [|rewrite E; reflexivity].
    unfold NewtonSESpec.at_side. destruct (branch_bus m side) as [j|] eqn:E; [|reflexivity]. apply agree_direction; [exact A|apply (ok_bus _ _ BR _ _ _ E)].
  - subst p. rewrite (agree_flow e f m side A). reflexivity.
  - destruct N as [Hb ->]. rewrite !through_1, (agree_phasor e f b A Hb). reflexivity.
  - destruct N as [Hb ->]. rewrite (agree_phasor e f b A Hb). assert (E : NewtonSESpec.injected 1 n ybus (dphasor x e) b 0%nat = NewtonSESpec.injected 1 n ybus (dphasor x f) b 0%nat); [|rewrite E; reflexivity].
    unfold NewtonSESpec.injected. apply nsum_ext. intros j Hj. apply in_seq in Hj. rewrite !through_1, (agree_phasor e f j A) by (clear - Hj; lia). reflexivity.
Qed.
Lemma measured_near s : In s measured -> near (fst s).
Proof.
  intros I. rewrite measured_is in I. rewrite !in_app_iff in I. destruct I as [I|[I|[I|I]]].
  - unfold measured_voltages in I. apply in_flat_map in I. destruct I as (b & Hb & I). apply in_seq in Hb. assert (Hb' : (b < n)%nat) by (clear - Hb; lia). destruct (voltage b) as [m|]; [|destruct I].
    cbn [seq flat_map] in I. rewrite app_nil_r in I. destruct I as [<-|I]; [split; [exact Hb'|reflexivity]|]. destruct (s_full m); [|destruct I]. destruct I as [<-|[]]. split; [exact Hb'|reflexivity].
  - apply in_flat_map in I. destruct I as (k & _ & I). unfold measured_flows in I. apply in_flat_map in I. destruct I as (side & _ & I). apply in_app_iff in I. destruct I as [I|I].
    + destruct (branch_power k side); [|destruct I]. destruct (of_flow_in _ _ _ I) as [c ->]. reflexivity.
    + destruct (branch_current k side) as [[[|] m]|]; [| |destruct I]; destruct (of_flow_in _ _ _ I) as [c ->]; reflexivity.
  - unfold measured_shunts in I. apply in_flat_map in I. destruct I as (b & Hb & I). apply in_flat_map in I. destruct I as (k & _ & I). destruct (shunt_power k); [|destruct I].
    apply in_seq in Hb. destruct (of_flow_in _ _ _ I) as [c ->]. split; [clear - Hb; lia|reflexivity].
  - unfold measured_injections in I. apply in_flat_map in I. destruct I as (b & Hb & I). destruct (bus_injection b); [|destruct I]. apply in_seq in Hb. destruct (of_flow_in _ _ _ I) as [c ->].
    split; [clear - Hb; lia|reflexivity].
Qed.
Definition still : volts := mkVolts (fun _ _ => 0) (fun _ _ => 0).
Lemma D_still q : near q -> D q still = 0.
Proof.
  intros N. assert (A : agree still (combine (- (1)) still still)) by (intros b _; cbn; split; ring). rewrite (D_near q _ _ N A), D_linear. ring.
Qed.

(** ** The derivative of the weighted squares *)
Local Notation quantity_at := (NewtonSESpec.quantity_at 1 n branch_bus branch_param shunt_param ybus).
Lemma deriv_sum {A} (f : A -> R -> R) (d : A -> R) l : (forall s, In s l -> derivable_pt_lim (f s) 0 (d s)) -> derivable_pt_lim (fun t => sum (fun s => f s t) l) 0 (sum d l).
Proof.
  induction l as [|s l IH]; intros H; [apply (derivable_pt_lim_const 0 0)|]. rewrite sum_cons.
  apply (derivable_pt_lim_plus (f s) (fun t => sum (fun s => f s t) l)); [apply H; left; reflexivity|apply IH; intros s' I; apply H; right; exact I].
Qed.
Lemma deriv_square (g : R -> R) l z w : derivable_pt_lim g 0 l -> derivable_pt_lim (fun t => (z - g t) * (z - g t) / w) 0 (2 * (l * (0 - (z - g 0)) / w)).
Proof.
  intros H. assert (M : derivable_pt_lim (fun t => z - g t) 0 (0 - l)) by (apply (derivable_pt_lim_minus (fun _ => z) g); [apply derivable_pt_lim_const|exact H]).
  eapply deriv_is; [exact (derivable_pt_lim_mult _ _ _ _ _ (derivable_pt_lim_mult _ _ _ _ _ M M) (derivable_pt_lim_const (/ w) 0))|]. unfold mult_fct, fct_cte, Rdiv. ring.
Qed.
Lemma deriv_cost e : derivable_pt_lim (fun t => NewtonSESpec.cost 1 n n_branch branch_bus shunts branch_param shunt_param ybus voltage branch_power branch_current shunt_power bus_injection (along x e t)) 0
  (2 * sum (fun s => D (fst s) e * (0 - (fst (snd s) - quantity_at (fst s) x)) / snd (snd s)) measured).
Proof.
  rewrite <- sum_times. unfold NewtonSESpec.cost.
  apply (deriv_sum (fun s t => (fst (snd s) - quantity_at (fst s) (along x e t)) * (fst (snd s) - quantity_at (fst s) (along x e t)) / snd (snd s))). intros s _.
  eapply deriv_is; [apply (deriv_square (fun t => quantity_at (fst s) (along x e t))); apply slope_D|]. cbv beta.
  assert (E : quantity_at (fst s) (along x e 0) = quantity_at (fst s) x); [|rewrite E; reflexivity].
  destruct (fst s) as [b p|b p|m side c p|m side c p|m side c p|b m c p|b c p]; cbn [NewtonSESpec.quantity_at]; try apply along_0;
    rewrite ?(side_ext branch_bus _ _ _ _ _ (phasor_0 x e)), ?(side_ext branch_bus _ _ _ _ _ (direction_0 x e)), ?(flow_ext 1 branch_bus branch_param _ _ _ _ _ (phasor_0 x e)),
      ?(injected_ext 1 n ybus _ _ _ _ (phasor_0 x e)), ?(through_ext 1 _ _ _ _ (phasor_0 x e b)), ?phasor_0; reflexivity.
Qed.
End Near.
