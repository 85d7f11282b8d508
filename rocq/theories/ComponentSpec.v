(** What an update record means, attribute by attribute (independent of the update functions of Component.v). *)
From Verif Require Import Common Container Component.

Section Spec.
Context {O : DOps}.

(** An attribute value: a switch status, an integer (tap position, enumeration, id) or a number. *)
Inductive attr : Type := AStatus (b : bool) | AInt (z : Z) | ANum (d : D).

Definition per_phase {A B} (f : A -> B) (x : tri A) : list B := [f (ph_a x); f (ph_b x); f (ph_c x)].
Definition one {A B} (f : A -> B) (x : A) : list B := [f x].

(** The updatable attributes of a component, in a fixed order per type. *)
Definition stored_lg {R} (nums : (D -> attr) -> R -> list attr) (x : loadgen R) : list attr :=
  AStatus (lg_status x) :: nums ANum (lg_p x) ++ nums ANum (lg_q x).
Definition stored_ps {R} (nums : (D -> attr) -> R -> list attr) (x : psensor R) : list attr :=
  ANum (ps_sigma x) :: nums ANum (ps_p x) ++ nums ANum (ps_q x) ++ nums ANum (ps_p_sigma x) ++ nums ANum (ps_q_sigma x).
Definition stored_vs {R} (nums : (D -> attr) -> R -> list attr) (x : vsensor R) : list attr :=
  ANum (vs_sigma x) :: nums ANum (vs_u x) ++ nums ANum (vs_angle x).
Definition stored_cs {R} (nums : (D -> attr) -> R -> list attr) (x : csensor R) : list attr :=
  ANum (cs_sigma x) :: ANum (cs_angle_sigma x) :: nums ANum (cs_i x) ++ nums ANum (cs_angle x).
Definition stored (t : ctype) : comp t -> list attr :=
  match t with
  | Node => fun _ => []
  | Line | AsymLine | Link | GenericBranch => fun c => [AStatus (b_from c); AStatus (b_to c)]
  | Transformer => fun c =>
      [AStatus (b_from (tr_branch c)); AStatus (b_to (tr_branch c)); AInt (tap_pos (tr_tap c))]
  | ThreeWindingTransformer => fun c =>
      [AStatus (b3_1 (t3_branch c)); AStatus (b3_2 (t3_branch c)); AStatus (b3_3 (t3_branch c));
       AInt (tap_pos (t3_tap c))]
  | Shunt => fun c => [AStatus (sh_status c); ANum (sh_g1 c); ANum (sh_b1 c); ANum (sh_g0 c); ANum (sh_b0 c)]
  | Source => fun c => [AStatus (so_status c); ANum (so_u_ref c); ANum (so_u_ref_angle c); ANum (so_sk c);
                        ANum (so_rx c); ANum (so_z01 c)]
  | SymGenerator | SymLoad => stored_lg one
  | AsymGenerator | AsymLoad => stored_lg per_phase
  | SymPowerSensor => stored_ps one
  | AsymPowerSensor => stored_ps per_phase
  | SymVoltageSensor => stored_vs one
  | AsymVoltageSensor => stored_vs per_phase
  | SymCurrentSensor => stored_cs one
  | AsymCurrentSensor => stored_cs per_phase
  | Fault => fun c => [AStatus (fa_status c); AInt (fa_type c); AInt (fa_phase c); AInt (fa_object c);
                       ANum (fa_r c); ANum (fa_x c)]
  | TransformerTapRegulator => fun c => [AStatus (rg_status c); ANum (rg_u_set c); ANum (rg_u_band c);
                                         ANum (rg_ldc_r c); ANum (rg_ldc_x c)]
  | VoltageRegulator => fun c => [AStatus (vr_status c); ANum (vr_u_ref c); ANum (vr_q_min c); ANum (vr_q_max c)]
  end.

(** The constants of a component that the update code uses: unit conversion factors and the tap range. *)
Definition fixed (t : ctype) : comp t -> list attr :=
  match t with
  | Transformer => fun c => [AInt (tap_min (tr_tap c)); AInt (tap_max (tr_tap c))]
  | ThreeWindingTransformer => fun c => [AInt (tap_min (t3_tap c)); AInt (tap_max (t3_tap c))]
  | SymGenerator | SymLoad => fun c => [ANum (lg_in c); ANum (lg_out c)]
  | AsymGenerator | AsymLoad => fun c => [ANum (lg_in c); ANum (lg_out c)]
  | SymPowerSensor => fun c => [ANum (ps_in c); ANum (ps_out c); ANum (ps_sin c); ANum (ps_sout c)]
  | AsymPowerSensor => fun c => [ANum (ps_in c); ANum (ps_out c); ANum (ps_sin c); ANum (ps_sout c)]
  | SymVoltageSensor => fun c => [ANum (vs_in c); ANum (vs_out c)]
  | AsymVoltageSensor => fun c => [ANum (vs_in c); ANum (vs_out c)]
  | SymCurrentSensor => fun c => [ANum (cs_in c); ANum (cs_out c)]
  | AsymCurrentSensor => fun c => [ANum (cs_in c); ANum (cs_out c)]
  | _ => fun _ => []
  end.

(** Values given in a record: [None] if the field is "not available" (NaN, -128, or the smallest 32 bit integer). *)
Definition given_status (s : Z) : option attr := if (s =? na_IntS)%Z then None else Some (AStatus (negb (s =? 0)%Z)).
Definition given_int (na v : Z) (f : Z -> Z) : option attr := if (v =? na)%Z then None else Some (AInt (f v)).
Definition given_num (f : D -> D) (v : D) : option attr := if isnan v then None else Some (ANum (f v)).
Definition same_number (v : D) : D := v.

(** The position nearest to [v] in the tap range, whose ends may be given in either order. *)
Definition nearest_in_range (e1 e2 v : Z) : Z :=
  let lo := Z.min e1 e2 in let hi := Z.max e1 e2 in
  if (v <? lo)%Z then lo else if (hi <? v)%Z then hi else v.

(** What a record asks to store, attribute by attribute in the order of [stored]. *)
Definition given_lg {R} (nums : (D -> option attr) -> R -> list (option attr)) (x : loadgen R) (u : loadgen_upd R) :=
  given_status (lgu_status u) :: nums (given_num (dmul (lg_in x))) (lgu_p u) ++ nums (given_num (dmul (lg_in x))) (lgu_q u).
Definition given_ps {R} (nums : (D -> option attr) -> R -> list (option attr)) (x : psensor R) (u : psensor_upd R) :=
  given_num (dmul (ps_sin x)) (psu_sigma u)
  :: nums (given_num (dmul (ps_in x))) (psu_p u) ++ nums (given_num (dmul (ps_in x))) (psu_q u)
  ++ nums (given_num (dmul (ps_sin x))) (psu_p_sigma u) ++ nums (given_num (dmul (ps_sin x))) (psu_q_sigma u).
Definition given_vs {R} (nums : (D -> option attr) -> R -> list (option attr)) (x : vsensor R) (u : vsensor_upd R) :=
  given_num (fun v => dmul v (vs_in x)) (vsu_sigma u)
  :: nums (given_num (dmul (vs_in x))) (vsu_u u) ++ nums (given_num (dmul done)) (vsu_angle u).
Definition given_cs {R} (nums : (D -> option attr) -> R -> list (option attr)) (x : csensor R) (u : csensor_upd R) :=
  given_num (dmul (cs_in x)) (csu_sigma u) :: given_num (dmul done) (csu_angle_sigma u)
  :: nums (given_num (dmul (cs_in x))) (csu_i u) ++ nums (given_num (dmul done)) (csu_angle u).
Definition given (t : ctype) : comp t -> comp_upd t -> list (option attr) :=
  match t with
  | Node => fun _ _ => []
  | Line | AsymLine | Link | GenericBranch => fun _ u => [given_status (bu_from u); given_status (bu_to u)]
  | Transformer => fun c u =>
      [given_status (bu_from (tru_branch u)); given_status (bu_to (tru_branch u));
       given_int na_IntS (tru_tap u) (nearest_in_range (tap_min (tr_tap c)) (tap_max (tr_tap c)))]
  | ThreeWindingTransformer => fun c u =>
      [given_status (b3u_1 (t3u_branch u)); given_status (b3u_2 (t3u_branch u)); given_status (b3u_3 (t3u_branch u));
       given_int na_IntS (t3u_tap u) (nearest_in_range (tap_min (t3_tap c)) (tap_max (t3_tap c)))]
  | Shunt => fun _ u =>
      [given_status (shu_status u); given_num same_number (shu_g1 u); given_num same_number (shu_b1 u);
       given_num same_number (shu_g0 u); given_num same_number (shu_b0 u)]
  | Source => fun _ u =>
      [given_status (sou_status u); given_num same_number (sou_u_ref u); given_num same_number (sou_u_ref_angle u);
       given_num same_number (sou_sk u); given_num same_number (sou_rx u); given_num same_number (sou_z01 u)]
  | SymGenerator | SymLoad => given_lg one
  | AsymGenerator | AsymLoad => given_lg per_phase
  | SymPowerSensor => given_ps one
  | AsymPowerSensor => given_ps per_phase
  | SymVoltageSensor => given_vs one
  | AsymVoltageSensor => given_vs per_phase
  | SymCurrentSensor => given_cs one
  | AsymCurrentSensor => given_cs per_phase
  | Fault => fun _ u =>
      [given_status (fau_status u); given_int na_IntS (fau_type u) (fun v => v);
       given_int na_IntS (fau_phase u) (fun v => v); given_int na_IntID (fau_object u) (fun v => v);
       given_num same_number (fau_r u); given_num same_number (fau_x u)]
  | TransformerTapRegulator => fun _ u =>
      [given_status (rgu_status u); given_num (dmul done) (rgu_u_set u); given_num (dmul done) (rgu_u_band u);
       given_num (dmul done) (rgu_ldc_r u); given_num (dmul done) (rgu_ldc_x u)]
  | VoltageRegulator => fun _ u =>
      [given_status (vru_status u); given_num same_number (vru_u_ref u); given_num same_number (vru_q_min u);
       given_num same_number (vru_q_max u)]
  end.

(** A new attribute value against the old one and what was asked. Two numbers count as the same if they are identical
    or compare equal (0.0 and -0.0). *)
Definition same (a b : attr) : Prop :=
  match a, b with
  | ANum x, ANum y => x = y \/ deq y x = true
  | _, _ => a = b
  end.
Definition after (old : attr) (ask : option attr) (new : attr) : Prop :=
  match ask with
  | None => new = old
  | Some v => same new v
  end.

(** Attribute-wise: every attribute that is asked for is set, every other one is as before. *)
Definition overlays (old : list attr) (ask : list (option attr)) (new : list attr) : Prop :=
  length new = length old /\ length ask = length old /\
  forall k o a n, nth_error old k = Some o -> nth_error ask k = Some a -> nth_error new k = Some n -> after o a n.

(** Several records for one component: for each attribute the last value that is given. *)
Fixpoint last_given (asks : list (option attr)) : option attr :=
  match asks with
  | [] => None
  | a :: l => match last_given l with Some v => Some v | None => a end
  end.
Definition asks_for (t : ctype) (c : comp t) (us : list (comp_upd t)) (k : nat) : list (option attr) :=
  map (fun u => nth k (given t c u) None) us.

(** The records addressed to the component at position [i]. *)
Fixpoint addressed_to {U} (i : nat) (us : list U) (sq : list nat) : list U :=
  match us, sq with
  | u :: us', j :: sq' => if j =? i then u :: addressed_to i us' sq' else addressed_to i us' sq'
  | _, _ => []
  end.

(** The component [new] is [old] after the records [us], in this order. *)
Definition is_updated (t : ctype) (old : comp t) (us : list (comp_upd t)) (new : comp t) : Prop :=
  fixed t new = fixed t old /\ length (stored t new) = length (stored t old) /\
  forall k o n, nth_error (stored t old) k = Some o -> nth_error (stored t new) k = Some n ->
    after o (last_given (asks_for t old us k)) n.

(** Invariants of stored components: the tap position is in the tap range; the shunt admittance belongs to the
    current numbers. *)
Definition in_tap_range (x : tap) : Prop :=
  (Z.min (tap_min x) (tap_max x) <= tap_pos x <= Z.max (tap_min x) (tap_max x))%Z.
Definition well_formed (t : ctype) : comp t -> Prop :=
  match t with
  | Transformer => fun c => in_tap_range (tr_tap c)
  | ThreeWindingTransformer => fun c => in_tap_range (t3_tap c)
  | Shunt => fun c =>
      sh_y c = Some (sh_g1 c, sh_b1 c, sh_g0 c, sh_b0 c) \/
      sh_y c = None /\ isnan (sh_g1 c) = true /\ isnan (sh_b1 c) = true /\ isnan (sh_g0 c) = true
                    /\ isnan (sh_b0 c) = true
  | _ => fun _ => True
  end.

(** Records of regulators that state the status. *)
Definition regulator_status_given (t : ctype) : comp_upd t -> Prop :=
  match t with
  | TransformerTapRegulator => fun u => rgu_status u <> na_IntS
  | VoltageRegulator => fun u => vru_status u <> na_IntS
  | _ => fun _ => True
  end.

(** ** Undoing an update *)

(** A value that can be written by an update record, i.e. that does not itself mean "not available". *)
Definition available (a : attr) : Prop :=
  match a with
  | AStatus _ => True
  | AInt z => z <> na_IntS /\ z <> na_IntID
  | ANum d => isnan d = false
  end.
(** Every attribute that the record [u] changes has an available value in the component [c]. *)
Definition base_available (t : ctype) (c : comp t) (u : comp_upd t) : Prop :=
  forall k v o, nth_error (given t c u) k = Some (Some v) -> nth_error (stored t c) k = Some o -> available o.

(** Exact arithmetic: multiplication by one changes nothing, numbers that compare equal are equal, and converting to
    external units and back gives the number. *)
Record exact_numbers : Prop := {
  exact_one : forall x, dmul done x = x;
  exact_eq : forall x y, deq x y = true -> x = y }.
Definition inverse_factors (i o : D) : Prop :=
  forall v, isnan v = false -> isnan (dmul v o) = false /\ dmul i (dmul v o) = v /\ dmul (dmul v o) i = v.
Definition exact_factors (t : ctype) : comp t -> Prop :=
  match t with
  | SymGenerator | SymLoad => fun c => inverse_factors (lg_in c) (lg_out c)
  | AsymGenerator | AsymLoad => fun c => inverse_factors (lg_in c) (lg_out c)
  | SymPowerSensor => fun c => inverse_factors (ps_in c) (ps_out c) /\ inverse_factors (ps_sin c) (ps_sout c)
  | AsymPowerSensor => fun c => inverse_factors (ps_in c) (ps_out c) /\ inverse_factors (ps_sin c) (ps_sout c)
  | SymVoltageSensor => fun c => inverse_factors (vs_in c) (vs_out c)
  | AsymVoltageSensor => fun c => inverse_factors (vs_in c) (vs_out c)
  | SymCurrentSensor => fun c => inverse_factors (cs_in c) (cs_out c)
  | AsymCurrentSensor => fun c => inverse_factors (cs_in c) (cs_out c)
  | _ => fun _ => True
  end.
(** A shunt with at least one number, so that its admittance was computed. *)
Definition shunt_defined (t : ctype) : comp t -> Prop :=
  match t with Shunt => fun c => sh_y c <> None | _ => fun _ => True end.

End Spec.
