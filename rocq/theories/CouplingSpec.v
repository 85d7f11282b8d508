(** What it means that objects are attached to the right place of the right sub-grid. *)
From Verif Require Import Common Topology TopologySpec Coupling.

(** Components 0..n-1, of which those with [takes] are looked at. [own k] is the place (sub-grid and number there) of the object
    that component [k] belongs to, None if that is not energised. [gr g] lists, for each position in sub-grid [g], the number of
    the object there; [cp k] is the position given to component [k]. *)
Record attached (n_topo n : nat) (takes : nat -> Prop) (own : nat -> option (nat * nat)) (gr : nat -> grouped) (cp : nat -> option (nat * nat)) : Prop := {
  att_own : forall k g p, k < n -> takes k -> own k = Some (g, p) -> exists q, cp k = Some (g, q) /\ group_at (gr g) q = Some p;
  att_off : forall k, k < n -> takes k -> own k = None -> cp k = None;
  att_once : forall k k' b, k < n -> k' < n -> takes k -> takes k' -> cp k = Some b -> cp k' = Some b -> k = k';
  att_dense : forall g q, g < n_topo -> (q < element_size (gr g) <-> exists k, k < n /\ takes k /\ cp k = Some (g, q)) }.

(** A math branch comes from a branch or from one of the three sides of a three-winding transformer. *)
Inductive branch_owner := From_branch (k : nat) | From_branch3 (k : nat) (s : side3).
Definition owner_pos (b : branch_state) (o : branch_owner) : option (nat * nat) :=
  match o with
  | From_branch k => branch_coupling b k
  | From_branch3 k s => match branch3_coupling b k with Some (g, ps) => Some (g, of_side s ps) | None => None end
  end.

(** The end of a math branch of sub-grid [g]: at the bus of its node when closed, nowhere when open. *)
Definition branch_end (bus : nat -> option (nat * nat)) (g : nat) (closed : bool) (node : nat) (e : option nat) : Prop :=
  if closed then exists p, bus node = Some (g, p) /\ e = Some p else e = None.

Section Spec.
Context {P : Type} (bus : nat -> option (nat * nat)) (t : comp_topo) (c : comp_conn (P := P)).
Record branches_attached (b : branch_state) : Prop := {
  ba_on : forall k i j si sj, nth_error (branch_node_idx t) k = Some (i, j) -> nth_error (branch_connected c) k = Some (si, sj) ->
    (si = true /\ bus i <> None) \/ (sj = true /\ bus j <> None) ->
    exists g q ei ej, branch_coupling b k = Some (g, q) /\ nth_error (branch_bus_idx b g) q = Some (ei, ej) /\
      branch_end bus g si i ei /\ branch_end bus g sj j ej;
  ba_off : forall k i j si sj, nth_error (branch_node_idx t) k = Some (i, j) -> nth_error (branch_connected c) k = Some (si, sj) ->
    ~ ((si = true /\ bus i <> None) \/ (sj = true /\ bus j <> None)) -> branch_coupling b k = None;
  ba_on3 : forall k ns cs s0, nth_error (branch3_node_idx t) k = Some ns -> nth_error (branch3_connected c) k = Some cs ->
    of_side s0 cs = true -> bus (of_side s0 ns) <> None ->
    exists g pj ps, branch3_coupling b k = Some (g, ps) /\ bus (n_node t + k) = Some (g, pj) /\
      forall s, exists e, nth_error (branch_bus_idx b g) (of_side s ps) = Some (e, Some pj) /\ branch_end bus g (of_side s cs) (of_side s ns) e;
  ba_off3 : forall k ns cs, nth_error (branch3_node_idx t) k = Some ns -> nth_error (branch3_connected c) k = Some cs ->
    (forall s, of_side s cs = true -> bus (of_side s ns) = None) -> branch3_coupling b k = None;
  ba_once : forall o o' gp, owner_pos b o = Some gp -> owner_pos b o' = Some gp -> o = o';
  ba_dense : forall g q, q < length (branch_bus_idx b g) <-> exists o, owner_pos b o = Some (g, q) }.
End Spec.
