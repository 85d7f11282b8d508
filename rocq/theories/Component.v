(** Model of the component attributes that updates can change: component/*.hpp, auxiliary/update.hpp.
    Rated values, node references and all other data that no update writes are not represented here. *)
From Verif Require Import Common Container.

(** ** Numbers *)

(** A double as the update code uses it: only multiplication, comparison and the NaN test are needed. The model is
    generic in this structure; theorems about exact arithmetic state the laws they need as hypotheses. *)
Class DOps : Type := {
  D : Type;
  dnan : D;                      (* the constant [nan] of common/common.hpp *)
  done : D;                      (* 1.0 *)
  isnan : D -> bool;             (* std::isnan *)
  dmul : D -> D -> D;            (* operator* *)
  deq : D -> D -> bool           (* operator== *)
}.

(** common/common.hpp: na_IntS and na_IntID, the "not available" values of integer attributes. *)
Definition na_IntS : Z := (-128)%Z.
Definition na_IntID : Z := (-2147483648)%Z.

(** static_cast<bool> of an IntS, and status_to_int. *)
Definition to_bool (s : Z) : bool := negb (s =? 0)%Z.
Definition status_to_int (b : bool) : Z := if b then 1%Z else 0%Z.

(** RealValue<sym>: one number or one per phase. *)
Record tri (A : Type) : Type := mkTri { ph_a : A; ph_b : A; ph_c : A }.
Arguments mkTri {A}. Arguments ph_a {A}. Arguments ph_b {A}. Arguments ph_c {A}.

(** What an update can invalidate: UpdateChange of auxiliary/update.hpp / common. *)
Record change : Type := mkChange { topo : bool; param : bool }.
Definition no_change : change := mkChange false false.
Definition change_or (a b : change) : change := mkChange (topo a || topo b) (param a || param b).

Section Components.
Context {O : DOps}.

(** common/three_phase_tensor.hpp 418-432: update_real_value, symmetric and asymmetric. *)
Definition update_real_sym (new cur scalar : D) : D := if isnan new then cur else dmul scalar new.
Definition update_real_asym (new cur : tri D) (scalar : D) : tri D :=
  mkTri (update_real_sym (ph_a new) (ph_a cur) scalar)
        (update_real_sym (ph_b new) (ph_b cur) scalar)
        (update_real_sym (ph_c new) (ph_c cur) scalar).

(** common/three_phase_tensor.hpp 437-446: set_if_not_nan for numbers, phase values, IntS/enums and ids. *)
Definition set_if_sym (target value : D) : D := if isnan target then target else value.
Definition set_if_asym (target value : tri D) : tri D :=
  mkTri (set_if_sym (ph_a target) (ph_a value))
        (set_if_sym (ph_b target) (ph_b value))
        (set_if_sym (ph_c target) (ph_c value)).
Definition set_if_int (target value : Z) : Z := if (target =? na_IntS)%Z then target else value.
Definition set_if_id (target value : Z) : Z := if (target =? na_IntID)%Z then target else value.

(** Element-wise scaling of RealValue<asymmetric_t>. *)
Definition tri_mul (x : tri D) (s : D) : tri D := mkTri (dmul (ph_a x) s) (dmul (ph_b x) s) (dmul (ph_c x) s).

(** A status setter that keeps NA: component/appliance.hpp 43-52, fault.hpp 149-158. *)
Definition set_status1 (cur : bool) (new : Z) : bool * bool :=
  if (new =? na_IntS)%Z then (cur, false)
  else if Bool.eqb (to_bool new) cur then (cur, false)
  else (to_bool new, true).

(** ** Branches *)

(** component/branch.hpp: from_status_, to_status_. *)
Record branch : Type := mkBranch { b_from : bool; b_to : bool }.
Record branch_upd : Type := mkBranchUpd { bu_from : Z; bu_to : Z }.

(** component/branch.hpp 162-175 *)
Definition branch_set_status (b : branch) (u : branch_upd) : branch * bool :=
  let set_from := negb (bu_from u =? na_IntS)%Z in
  let set_to := negb (bu_to u =? na_IntS)%Z in
  let changed := false in
  let '(f, changed) :=
    if set_from then (to_bool (bu_from u), changed || negb (Bool.eqb (b_from b) (to_bool (bu_from u))))
    else (b_from b, changed) in
  let '(t, changed) :=
    if set_to then (to_bool (bu_to u), changed || negb (Bool.eqb (b_to b) (to_bool (bu_to u))))
    else (b_to b, changed) in
  (mkBranch f t, changed).
(** component/branch.hpp 178-183 *)
Definition branch_update (b : branch) (u : branch_upd) : branch * change :=
  let '(b', c) := branch_set_status b u in (b', mkChange c c).
(** component/branch.hpp 185-192 *)
Definition branch_inverse (b : branch) (u : branch_upd) : branch_upd :=
  mkBranchUpd (set_if_int (bu_from u) (status_to_int (b_from b)))
              (set_if_int (bu_to u) (status_to_int (b_to b))).

(** component/branch3.hpp: status_1_, status_2_, status_3_. *)
Record branch3 : Type := mkBranch3 { b3_1 : bool; b3_2 : bool; b3_3 : bool }.
Record branch3_upd : Type := mkBranch3Upd { b3u_1 : Z; b3u_2 : Z; b3u_3 : Z }.
(** component/branch3.hpp 200-218 *)
Definition branch3_set_status (b : branch3) (u : branch3_upd) : branch3 * bool :=
  let one (cur : bool) (new : Z) (changed : bool) : bool * bool :=
    if negb (new =? na_IntS)%Z then (to_bool new, changed || negb (Bool.eqb cur (to_bool new)))
    else (cur, changed) in
  let '(s1, ch) := one (b3_1 b) (b3u_1 u) false in
  let '(s2, ch) := one (b3_2 b) (b3u_2 u) ch in
  let '(s3, ch) := one (b3_3 b) (b3u_3 u) ch in
  (mkBranch3 s1 s2 s3, ch).
(** component/branch3.hpp 228-236 *)
Definition branch3_inverse (b : branch3) (u : branch3_upd) : branch3_upd :=
  mkBranch3Upd (set_if_int (b3u_1 u) (status_to_int (b3_1 b)))
               (set_if_int (b3u_2 u) (status_to_int (b3_2 b)))
               (set_if_int (b3u_3 u) (status_to_int (b3_3 b))).

(** ** Transformers *)

(** Tap data of component/transformer.hpp and three_winding_transformer.hpp. *)
Record tap : Type := mkTap { tap_pos : Z; tap_min : Z; tap_max : Z }.
(** component/transformer.hpp 174-178, three_winding_transformer.hpp 226-230 *)
Definition tap_limit (tmin tmax new_tap : Z) : Z :=
  let new_tap := Z.min new_tap (Z.max tmax tmin) in
  Z.max new_tap (Z.min tmax tmin).
(** component/transformer.hpp 108-114, three_winding_transformer.hpp 142-148 *)
Definition set_tap (t : tap) (new_tap : Z) : tap * bool :=
  if ((new_tap =? na_IntS) || (new_tap =? tap_pos t))%Z%bool then (t, false)
  else (mkTap (tap_limit (tap_min t) (tap_max t) new_tap) (tap_min t) (tap_max t), true).

Record transformer : Type := mkTransformer { tr_branch : branch; tr_tap : tap }.
Record transformer_upd : Type := mkTransformerUpd { tru_branch : branch_upd; tru_tap : Z }.
(** component/transformer.hpp 117-122 *)
Definition transformer_update (x : transformer) (u : transformer_upd) : transformer * change :=
  let '(b, topo_changed) := branch_set_status (tr_branch x) (tru_branch u) in
  let '(t, tap_changed) := set_tap (tr_tap x) (tru_tap u) in
  (mkTransformer b t, mkChange topo_changed (tap_changed || topo_changed)).
(** component/transformer.hpp 124-131 *)
Definition transformer_inverse (x : transformer) (u : transformer_upd) : transformer_upd :=
  mkTransformerUpd (branch_inverse (tr_branch x) (tru_branch u)) (set_if_int (tru_tap u) (tap_pos (tr_tap x))).

Record transformer3 : Type := mkTransformer3 { t3_branch : branch3; t3_tap : tap }.
Record transformer3_upd : Type := mkTransformer3Upd { t3u_branch : branch3_upd; t3u_tap : Z }.
(** component/three_winding_transformer.hpp 150-155 *)
Definition transformer3_update (x : transformer3) (u : transformer3_upd) : transformer3 * change :=
  let '(b, topo_changed) := branch3_set_status (t3_branch x) (t3u_branch u) in
  let '(t, tap_changed) := set_tap (t3_tap x) (t3u_tap u) in
  (mkTransformer3 b t, mkChange topo_changed (tap_changed || topo_changed)).
(** component/three_winding_transformer.hpp 157-164 *)
Definition transformer3_inverse (x : transformer3) (u : transformer3_upd) : transformer3_upd :=
  mkTransformer3Upd (branch3_inverse (t3_branch x) (t3u_branch u)) (set_if_int (t3u_tap u) (tap_pos (t3_tap x))).

(** ** Appliances *)

(** component/shunt.hpp 74-82. y1_ and y0_ are functions of g1, b1, g0, b0 (and the constant base_y_): [sh_y] is the
    quadruple they were last computed from, [None] if they still are the initial nan. *)
Record shunt : Type := mkShunt {
  sh_status : bool; sh_g1 : D; sh_b1 : D; sh_g0 : D; sh_b0 : D; sh_y : option (D * D * D * D) }.
Record shunt_upd : Type := mkShuntUpd { shu_status : Z; shu_g1 : D; shu_b1 : D; shu_g0 : D; shu_b0 : D }.
(** component/shunt.hpp 100-107: update_param *)
Definition update_param (value target : D) : D * bool :=
  if (isnan value || deq value target)%bool then (target, false) else (value, true).
(** component/shunt.hpp 86-98: update_params, for the input in the constructor and for updates. *)
Definition shunt_update_params (s : shunt) (u : shunt_upd) : shunt * bool :=
  let '(g1, c1) := update_param (shu_g1 u) (sh_g1 s) in
  let '(b1, c2) := update_param (shu_b1 u) (sh_b1 s) in
  let changed := c2 || c1 in
  let '(g0, c3) := update_param (shu_g0 u) (sh_g0 s) in
  let changed := c3 || changed in
  let '(b0, c4) := update_param (shu_b0 u) (sh_b0 s) in
  let changed := c4 || changed in
  (mkShunt (sh_status s) g1 b1 g0 b0 (if changed then Some (g1, b1, g0, b0) else sh_y s), changed).
(** component/shunt.hpp 31-34: constructor; the numbers start as nan (74-82). *)
Definition shunt_ctor (status : Z) (g1 b1 g0 b0 : D) : shunt :=
  fst (shunt_update_params (mkShunt (to_bool status) dnan dnan dnan dnan None) (mkShuntUpd status g1 b1 g0 b0)).
(** component/shunt.hpp 53-60 *)
Definition shunt_update (s : shunt) (u : shunt_upd) : shunt * change :=
  let '(st, changed) := set_status1 (sh_status s) (shu_status u) in
  let '(s', pchanged) := shunt_update_params (mkShunt st (sh_g1 s) (sh_b1 s) (sh_g0 s) (sh_b0 s) (sh_y s)) u in
  (s', mkChange false (pchanged || changed)).
(** component/shunt.hpp 62-72 *)
Definition shunt_inverse (s : shunt) (u : shunt_upd) : shunt_upd :=
  mkShuntUpd (set_if_int (shu_status u) (status_to_int (sh_status s)))
             (set_if_sym (shu_g1 u) (sh_g1 s)) (set_if_sym (shu_b1 u) (sh_b1 s))
             (set_if_sym (shu_g0 u) (sh_g0 s)) (set_if_sym (shu_b0 u) (sh_b0 s)).

(** component/source.hpp 115-120 *)
Record source : Type := mkSource {
  so_status : bool; so_u_ref : D; so_u_ref_angle : D; so_sk : D; so_rx : D; so_z01 : D }.
Record source_upd : Type := mkSourceUpd {
  sou_status : Z; sou_u_ref : D; sou_u_ref_angle : D; sou_sk : D; sou_rx : D; sou_z01 : D }.
(** component/source.hpp 52-63, 122-137: assignment of a number that is not nan; second result: assigned *)
Definition assign_if (new cur : D) : D * bool := if isnan new then (cur, false) else (new, true).
(** component/source.hpp 87-97 *)
Definition source_update (s : source) (u : source_upd) : source * change :=
  let '(st, topo_changed) := set_status1 (so_status s) (sou_status u) in
  let '(ur, _) := assign_if (sou_u_ref u) (so_u_ref s) in
  let '(ua, _) := assign_if (sou_u_ref_angle u) (so_u_ref_angle s) in
  let '(sk, c1) := assign_if (sou_sk u) (so_sk s) in
  let '(rx, c2) := assign_if (sou_rx u) (so_rx s) in
  let '(z01, c3) := assign_if (sou_z01 u) (so_z01 s) in
  (mkSource st ur ua sk rx z01, mkChange topo_changed ((c1 || c2 || c3) || topo_changed)).
(** component/source.hpp 99-110 *)
Definition source_inverse (s : source) (u : source_upd) : source_upd :=
  mkSourceUpd (set_if_int (sou_status u) (status_to_int (so_status s)))
              (set_if_sym (sou_u_ref u) (so_u_ref s)) (set_if_sym (sou_u_ref_angle u) (so_u_ref_angle s))
              (set_if_sym (sou_sk u) (so_sk s)) (set_if_sym (sou_rx u) (so_rx s)) (set_if_sym (sou_z01 u) (so_z01 s)).

(** component/load_gen.hpp 117: s_specified_ as its real and imaginary part. [lg_in] is the factor direction_ / base_power
    of line 88, [lg_out] the factor direction_ * base_power of line 108 (constants of the class). *)
Record loadgen (R : Type) : Type := mkLoadGen { lg_status : bool; lg_p : R; lg_q : R; lg_in : D; lg_out : D }.
Arguments mkLoadGen {R}. Arguments lg_status {R}. Arguments lg_p {R}. Arguments lg_q {R}. Arguments lg_in {R}. Arguments lg_out {R}.
Record loadgen_upd (R : Type) : Type := mkLoadGenUpd { lgu_status : Z; lgu_p : R; lgu_q : R }.
Arguments mkLoadGenUpd {R}. Arguments lgu_status {R}. Arguments lgu_p {R}. Arguments lgu_q {R}.
(** component/load_gen.hpp 86-104 (set_power, update); [updr] is update_real_value of the symmetry *)
Definition loadgen_update {R} (updr : R -> R -> D -> R) (x : loadgen R) (u : loadgen_upd R) : loadgen R * change :=
  let '(st, _) := set_status1 (lg_status x) (lgu_status u) in
  (mkLoadGen st (updr (lgu_p u) (lg_p x) (lg_in x)) (updr (lgu_q u) (lg_q x) (lg_in x)) (lg_in x) (lg_out x),
   no_change).
(** component/load_gen.hpp 106-115; [setr] is set_if_not_nan and [mulr] the scaling of the symmetry *)
Definition loadgen_inverse {R} (setr : R -> R -> R) (mulr : R -> D -> R) (x : loadgen R) (u : loadgen_upd R)
  : loadgen_upd R :=
  mkLoadGenUpd (set_if_int (lgu_status u) (status_to_int (lg_status x)))
               (setr (lgu_p u) (mulr (lg_p x) (lg_out x))) (setr (lgu_q u) (mulr (lg_q x) (lg_out x))).

(** ** Sensors *)

(** component/power_sensor.hpp 123-127. [ps_in]/[ps_out]: convert_direction() * inv_base_power (131) and
    convert_direction() * base_power (111); [ps_sin]/[ps_sout]: inv_base_power (78) and base_power (115-117). *)
Record psensor (R : Type) : Type := mkPSensor {
  ps_p : R; ps_q : R; ps_sigma : D; ps_p_sigma : R; ps_q_sigma : R; ps_in : D; ps_out : D; ps_sin : D; ps_sout : D }.
Arguments mkPSensor {R}. Arguments ps_p {R}. Arguments ps_q {R}. Arguments ps_sigma {R}. Arguments ps_p_sigma {R}.
Arguments ps_q_sigma {R}. Arguments ps_in {R}. Arguments ps_out {R}. Arguments ps_sin {R}. Arguments ps_sout {R}.
Record psensor_upd (R : Type) : Type := mkPSensorUpd {
  psu_p : R; psu_q : R; psu_sigma : D; psu_p_sigma : R; psu_q_sigma : R }.
Arguments mkPSensorUpd {R}. Arguments psu_p {R}. Arguments psu_q {R}. Arguments psu_sigma {R}.
Arguments psu_p_sigma {R}. Arguments psu_q_sigma {R}.
(** component/power_sensor.hpp 97-107, 129-137. The complex sum ps + 1i * qs of 136 is taken as the pair (ps, qs):
    both are finite here. *)
Definition psensor_update {R} (updr : R -> R -> D -> R) (x : psensor R) (u : psensor_upd R) : psensor R * change :=
  (mkPSensor (updr (psu_p u) (ps_p x) (ps_in x)) (updr (psu_q u) (ps_q x) (ps_in x))
             (update_real_sym (psu_sigma u) (ps_sigma x) (ps_sin x))
             (updr (psu_p_sigma u) (ps_p_sigma x) (ps_sin x)) (updr (psu_q_sigma u) (ps_q_sigma x) (ps_sin x))
             (ps_in x) (ps_out x) (ps_sin x) (ps_sout x), no_change).
(** component/power_sensor.hpp 109-120 *)
Definition psensor_inverse {R} (setr : R -> R -> R) (mulr : R -> D -> R) (x : psensor R) (u : psensor_upd R)
  : psensor_upd R :=
  mkPSensorUpd (setr (psu_p u) (mulr (ps_p x) (ps_out x))) (setr (psu_q u) (mulr (ps_q x) (ps_out x)))
               (set_if_sym (psu_sigma u) (dmul (ps_sigma x) (ps_sout x)))
               (setr (psu_p_sigma u) (mulr (ps_p_sigma x) (ps_sout x)))
               (setr (psu_q_sigma u) (mulr (ps_q_sigma x) (ps_sout x))).

(** component/voltage_sensor.hpp 113-117. [vs_in] = inv_u_norm() (119), [vs_out] = u_rated_ * u_scale (104). *)
Record vsensor (R : Type) : Type := mkVSensor { vs_u : R; vs_angle : R; vs_sigma : D; vs_in : D; vs_out : D }.
Arguments mkVSensor {R}. Arguments vs_u {R}. Arguments vs_angle {R}. Arguments vs_sigma {R}. Arguments vs_in {R}.
Arguments vs_out {R}.
Record vsensor_upd (R : Type) : Type := mkVSensorUpd { vsu_u : R; vsu_angle : R; vsu_sigma : D }.
Arguments mkVSensorUpd {R}. Arguments vsu_u {R}. Arguments vsu_angle {R}. Arguments vsu_sigma {R}.
(** component/voltage_sensor.hpp 89-100 *)
Definition vsensor_update {R} (updr : R -> R -> D -> R) (x : vsensor R) (u : vsensor_upd R) : vsensor R * change :=
  (mkVSensor (updr (vsu_u u) (vs_u x) (vs_in x)) (updr (vsu_angle u) (vs_angle x) done)
             (if isnan (vsu_sigma u) then vs_sigma x else dmul (vsu_sigma u) (vs_in x)) (vs_in x) (vs_out x),
   no_change).
(** component/voltage_sensor.hpp 102-111 *)
Definition vsensor_inverse {R} (setr : R -> R -> R) (mulr : R -> D -> R) (x : vsensor R) (u : vsensor_upd R)
  : vsensor_upd R :=
  mkVSensorUpd (setr (vsu_u u) (mulr (vs_u x) (vs_out x))) (setr (vsu_angle u) (vs_angle x))
               (set_if_sym (vsu_sigma u) (dmul (vs_sigma x) (vs_out x))).

(** component/current_sensor.hpp 134-141. [cs_in] = base_current_inv_, [cs_out] = base_current_. *)
Record csensor (R : Type) : Type := mkCSensor {
  cs_i : R; cs_angle : R; cs_sigma : D; cs_angle_sigma : D; cs_in : D; cs_out : D }.
Arguments mkCSensor {R}. Arguments cs_i {R}. Arguments cs_angle {R}. Arguments cs_sigma {R}.
Arguments cs_angle_sigma {R}. Arguments cs_in {R}. Arguments cs_out {R}.
Record csensor_upd (R : Type) : Type := mkCSensorUpd { csu_i : R; csu_angle : R; csu_sigma : D; csu_angle_sigma : D }.
Arguments mkCSensorUpd {R}. Arguments csu_i {R}. Arguments csu_angle {R}. Arguments csu_sigma {R}.
Arguments csu_angle_sigma {R}.
(** component/current_sensor.hpp 111-120 *)
Definition csensor_update {R} (updr : R -> R -> D -> R) (x : csensor R) (u : csensor_upd R) : csensor R * change :=
  (mkCSensor (updr (csu_i u) (cs_i x) (cs_in x)) (updr (csu_angle u) (cs_angle x) done)
             (update_real_sym (csu_sigma u) (cs_sigma x) (cs_in x))
             (update_real_sym (csu_angle_sigma u) (cs_angle_sigma x) done) (cs_in x) (cs_out x), no_change).
(** component/current_sensor.hpp 122-132 *)
Definition csensor_inverse {R} (setr : R -> R -> R) (mulr : R -> D -> R) (x : csensor R) (u : csensor_upd R)
  : csensor_upd R :=
  mkCSensorUpd (setr (csu_i u) (mulr (cs_i x) (cs_out x))) (setr (csu_angle u) (cs_angle x))
               (set_if_sym (csu_sigma u) (dmul (cs_sigma x) (cs_out x)))
               (set_if_sym (csu_angle_sigma u) (cs_angle_sigma x)).

(** ** Fault *)

(** component/fault.hpp 199-204. Enum values are the integers of common/enum.hpp: FaultType three_phase = 0,
    single_phase_to_ground = 1, two_phase = 2, two_phase_to_ground = 3, nan = -128; FaultPhase abc = 0, a = 1, b = 2,
    c = 3, ab = 4, ac = 5, bc = 6, default_value = -1, nan = -128. *)
Record fault : Type := mkFault {
  fa_status : bool; fa_type : Z; fa_phase : Z; fa_object : Z; fa_r : D; fa_x : D }.
Record fault_upd : Type := mkFaultUpd {
  fau_status : Z; fau_type : Z; fau_phase : Z; fau_object : Z; fau_r : D; fau_x : D }.
(** component/fault.hpp 206-232: check_sanity. InvalidShortCircuitType is [OtherError 1]. *)
Definition check_sanity (ftype fphase : Z) : option exn :=
  let supported (l : list Z) := if existsb (Z.eqb fphase) l then None else Some InvalidShortCircuitPhases in
  (if ftype =? 0 then supported [na_IntS; -1; 0]
   else if ftype =? 1 then supported [na_IntS; -1; 1; 2; 3]
   else if ftype =? 2 then supported [na_IntS; -1; 4; 5; 6]
   else if ftype =? 3 then supported [na_IntS; -1; 4; 5; 6]
   else if ftype =? na_IntS then supported [na_IntS; -1; 0; 1; 2; 3; 4; 5; 6]
   else Some (OtherError 1))%Z.
(** component/fault.hpp 109-129. The members are assigned before check_sanity can throw, so the new state comes
    together with the exception. *)
Definition fault_update (f : fault) (u : fault_upd) : fault * change * option exn :=
  let '(st, _) := set_status1 (fa_status f) (fau_status u) in
  let f' := mkFault st
    (if (fau_type u =? na_IntS)%Z then fa_type f else fau_type u)
    (if (fau_phase u =? na_IntS)%Z then fa_phase f else fau_phase u)
    (if (fau_object u =? na_IntID)%Z then fa_object f else fau_object u)
    (if isnan (fau_r u) then fa_r f else fau_r u)
    (if isnan (fau_x u) then fa_x f else fau_x u) in
  (f', no_change, check_sanity (fa_type f') (fa_phase f')).
(** component/fault.hpp 131-142 *)
Definition fault_inverse (f : fault) (u : fault_upd) : fault_upd :=
  mkFaultUpd (set_if_int (fau_status u) (status_to_int (fa_status f)))
             (set_if_int (fau_type u) (fa_type f)) (set_if_int (fau_phase u) (fa_phase f))
             (set_if_id (fau_object u) (fa_object f))
             (set_if_sym (fau_r u) (fa_r f)) (set_if_sym (fau_x u) (fa_x f)).

(** ** Regulators *)

(** component/regulator.hpp 33: the NA value is cast like any other one. *)
Definition regulator_set_status (status : Z) : bool := to_bool status.

(** component/transformer_tap_regulator.hpp 90-97 *)
Record tapreg : Type := mkTapReg { rg_status : bool; rg_u_set : D; rg_u_band : D; rg_ldc_r : D; rg_ldc_x : D }.
Record tapreg_upd : Type := mkTapRegUpd {
  rgu_status : Z; rgu_u_set : D; rgu_u_band : D; rgu_ldc_r : D; rgu_ldc_x : D }.
(** component/transformer_tap_regulator.hpp 42-50 *)
Definition tapreg_update (x : tapreg) (u : tapreg_upd) : tapreg * change :=
  (mkTapReg (regulator_set_status (rgu_status u))
            (update_real_sym (rgu_u_set u) (rg_u_set x) done) (update_real_sym (rgu_u_band u) (rg_u_band x) done)
            (update_real_sym (rgu_ldc_r u) (rg_ldc_r x) done) (update_real_sym (rgu_ldc_x u) (rg_ldc_x x) done),
   no_change).
(** component/transformer_tap_regulator.hpp 52-62, regulator.hpp 35-39 *)
Definition tapreg_inverse (x : tapreg) (u : tapreg_upd) : tapreg_upd :=
  mkTapRegUpd (set_if_int (rgu_status u) (status_to_int (rg_status x)))
              (set_if_sym (rgu_u_set u) (rg_u_set x)) (set_if_sym (rgu_u_band u) (rg_u_band x))
              (set_if_sym (rgu_ldc_r u) (rg_ldc_r x)) (set_if_sym (rgu_ldc_x u) (rg_ldc_x x)).

(** component/voltage_regulator.hpp 97-100 *)
Record vreg : Type := mkVReg { vr_status : bool; vr_u_ref : D; vr_q_min : D; vr_q_max : D }.
Record vreg_upd : Type := mkVRegUpd { vru_status : Z; vru_u_ref : D; vru_q_min : D; vru_q_max : D }.
(** component/voltage_regulator.hpp 35-41, 77-90 *)
Definition vreg_update (x : vreg) (u : vreg_upd) : vreg * change :=
  (mkVReg (regulator_set_status (vru_status u))
          (if isnan (vru_u_ref u) then vr_u_ref x else vru_u_ref u)
          (if isnan (vru_q_min u) then vr_q_min x else vru_q_min u)
          (if isnan (vru_q_max u) then vr_q_max x else vru_q_max u), no_change).
(** component/voltage_regulator.hpp 43-51 *)
Definition vreg_inverse (x : vreg) (u : vreg_upd) : vreg_upd :=
  mkVRegUpd (set_if_int (vru_status u) (status_to_int (vr_status x)))
            (set_if_sym (vru_u_ref u) (vr_u_ref x))
            (set_if_sym (vru_q_min u) (vr_q_min x)) (set_if_sym (vru_q_max u) (vr_q_max x)).

(** ** All component types *)

(** The mutable state and the update record of each component type (all_components.hpp 37-40). *)
Definition comp (t : ctype) : Type :=
  match t with
  | Node => unit
  | Line | AsymLine | Link | GenericBranch => branch
  | Transformer => transformer
  | ThreeWindingTransformer => transformer3
  | Shunt => shunt
  | Source => source
  | SymGenerator | SymLoad => loadgen D
  | AsymGenerator | AsymLoad => loadgen (tri D)
  | SymPowerSensor => psensor D
  | AsymPowerSensor => psensor (tri D)
  | SymVoltageSensor => vsensor D
  | AsymVoltageSensor => vsensor (tri D)
  | SymCurrentSensor => csensor D
  | AsymCurrentSensor => csensor (tri D)
  | Fault => fault
  | TransformerTapRegulator => tapreg
  | VoltageRegulator => vreg
  end.
Definition comp_upd (t : ctype) : Type :=
  match t with
  | Node => unit
  | Line | AsymLine | Link | GenericBranch => branch_upd
  | Transformer => transformer_upd
  | ThreeWindingTransformer => transformer3_upd
  | Shunt => shunt_upd
  | Source => source_upd
  | SymGenerator | SymLoad => loadgen_upd D
  | AsymGenerator | AsymLoad => loadgen_upd (tri D)
  | SymPowerSensor => psensor_upd D
  | AsymPowerSensor => psensor_upd (tri D)
  | SymVoltageSensor => vsensor_upd D
  | AsymVoltageSensor => vsensor_upd (tri D)
  | SymCurrentSensor => csensor_upd D
  | AsymCurrentSensor => csensor_upd (tri D)
  | Fault => fault_upd
  | TransformerTapRegulator => tapreg_upd
  | VoltageRegulator => vreg_upd
  end.

Definition no_exn {A} (x : A * change) : A * change * option exn := (x, None).

(** comp.update(update_data) of each type; node.hpp 30-32 for Node. *)
Definition update (t : ctype) : comp t -> comp_upd t -> comp t * change * option exn :=
  match t with
  | Node => fun c _ => no_exn (c, no_change)
  | Line | AsymLine | Link | GenericBranch => fun c u => no_exn (branch_update c u)
  | Transformer => fun c u => no_exn (transformer_update c u)
  | ThreeWindingTransformer => fun c u => no_exn (transformer3_update c u)
  | Shunt => fun c u => no_exn (shunt_update c u)
  | Source => fun c u => no_exn (source_update c u)
  | SymGenerator | SymLoad => fun c u => no_exn (loadgen_update update_real_sym c u)
  | AsymGenerator | AsymLoad => fun c u => no_exn (loadgen_update update_real_asym c u)
  | SymPowerSensor => fun c u => no_exn (psensor_update update_real_sym c u)
  | AsymPowerSensor => fun c u => no_exn (psensor_update update_real_asym c u)
  | SymVoltageSensor => fun c u => no_exn (vsensor_update update_real_sym c u)
  | AsymVoltageSensor => fun c u => no_exn (vsensor_update update_real_asym c u)
  | SymCurrentSensor => fun c u => no_exn (csensor_update update_real_sym c u)
  | AsymCurrentSensor => fun c u => no_exn (csensor_update update_real_asym c u)
  | Fault => fault_update
  | TransformerTapRegulator => fun c u => no_exn (tapreg_update c u)
  | VoltageRegulator => fun c u => no_exn (vreg_update c u)
  end.

(** comp.inverse(update_data) of each type; node.hpp 33 for Node. *)
Definition inverse (t : ctype) : comp t -> comp_upd t -> comp_upd t :=
  match t with
  | Node => fun _ u => u
  | Line | AsymLine | Link | GenericBranch => branch_inverse
  | Transformer => transformer_inverse
  | ThreeWindingTransformer => transformer3_inverse
  | Shunt => shunt_inverse
  | Source => source_inverse
  | SymGenerator | SymLoad => loadgen_inverse set_if_sym dmul
  | AsymGenerator | AsymLoad => loadgen_inverse set_if_asym tri_mul
  | SymPowerSensor => psensor_inverse set_if_sym dmul
  | AsymPowerSensor => psensor_inverse set_if_asym tri_mul
  | SymVoltageSensor => vsensor_inverse set_if_sym dmul
  | AsymVoltageSensor => vsensor_inverse set_if_asym tri_mul
  | SymCurrentSensor => csensor_inverse set_if_sym dmul
  | AsymCurrentSensor => csensor_inverse set_if_asym tri_mul
  | Fault => fault_inverse
  | TransformerTapRegulator => tapreg_inverse
  | VoltageRegulator => vreg_inverse
  end.

End Components.
Arguments mkLoadGen {O R}.
Arguments mkLoadGenUpd {R}.
Arguments mkPSensor {O R}.
Arguments mkPSensorUpd {O R}.
Arguments mkVSensor {O R}.
Arguments mkVSensorUpd {O R}.
Arguments mkCSensor {O R}.
Arguments mkCSensorUpd {O R}.
Arguments lg_status {O R}.
Arguments lg_p {O R}.
Arguments lg_q {O R}.
Arguments lg_in {O R}.
Arguments lg_out {O R}.
Arguments lgu_status {R}.
Arguments lgu_p {R}.
Arguments lgu_q {R}.
Arguments ps_p {O R}.
Arguments ps_q {O R}.
Arguments ps_sigma {O R}.
Arguments ps_p_sigma {O R}.
Arguments ps_q_sigma {O R}.
Arguments ps_in {O R}.
Arguments ps_out {O R}.
Arguments ps_sin {O R}.
Arguments ps_sout {O R}.
Arguments psu_p {O R}.
Arguments psu_q {O R}.
Arguments psu_sigma {O R}.
Arguments psu_p_sigma {O R}.
Arguments psu_q_sigma {O R}.
Arguments vs_u {O R}.
Arguments vs_angle {O R}.
Arguments vs_sigma {O R}.
Arguments vs_in {O R}.
Arguments vs_out {O R}.
Arguments vsu_u {O R}.
Arguments vsu_angle {O R}.
Arguments vsu_sigma {O R}.
Arguments cs_i {O R}.
Arguments cs_angle {O R}.
Arguments cs_sigma {O R}.
Arguments cs_angle_sigma {O R}.
Arguments cs_in {O R}.
Arguments cs_out {O R}.
Arguments csu_i {O R}.
Arguments csu_angle {O R}.
Arguments csu_sigma {O R}.
Arguments csu_angle_sigma {O R}.
