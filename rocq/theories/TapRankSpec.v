(** What the ranking of regulated transformers means, in terms of the grid. *)
From Verif Require Import Common NatMap TapRank.

Section Spec.
Variable g : grid.
(** An enabled regulator controls side [s] of the two-winding (or three-winding) transformer [id]. *)
Definition controlled (two_winding : bool) (id s : nat) : Prop :=
  exists r, In r (regulators g) /\ r_on r = true /\ r_branch r = two_winding /\ r_object r = id /\ r_side r = s.
Definition side_node (t : trafo) (s : nat) : nat := if s =? 0 then t_from t else t_to t.
(** Supply passes from node [a] to node [b]; [Some i]: through the regulated transformer [i], towards its controlled side.
    For a regulated three-winding transformer the sides other than the tap side are connected freely. *)
Inductive passes : nat -> nat -> option (bool * nat) -> Prop :=
  | p_line l : In l (lines g ++ links g) -> l_from_on l = true -> l_to_on l = true -> passes (l_from l) (l_to l) None
  | p_line_back l : In l (lines g ++ links g) -> l_from_on l = true -> l_to_on l = true -> passes (l_to l) (l_from l) None
  | p_trafo i t : nth_error (trafos g) i = Some t -> t_from_on t = true -> t_to_on t = true -> (forall s, ~ controlled true (t_id t) s) -> passes (t_from t) (t_to t) None
  | p_trafo_back i t : nth_error (trafos g) i = Some t -> t_from_on t = true -> t_to_on t = true -> (forall s, ~ controlled true (t_id t) s) -> passes (t_to t) (t_from t) None
  | p_regulated i t s : nth_error (trafos g) i = Some t -> t_from_on t = true -> t_to_on t = true -> controlled true (t_id t) s -> passes (side_node t (1 - s)) (side_node t s) (Some (true, i))
  | p_free3 i u a b : nth_error (trafo3s g) i = Some u -> a < 3 -> b < 3 -> a <> b -> u_on u a = true -> u_on u b = true ->
      (forall s, ~ controlled false (u_id u) s) \/ (u_tap u <> a /\ u_tap u <> b) -> passes (u_node u a) (u_node u b) None
  | p_towards_tap i u a : nth_error (trafo3s g) i = Some u -> a < 3 -> a <> u_tap u -> u_on u a = true -> u_on u (u_tap u) = true ->
      controlled false (u_id u) (u_tap u) -> passes (u_node u a) (u_node u (u_tap u)) (Some (false, i))
  | p_from_tap i u b s : nth_error (trafo3s g) i = Some u -> b < 3 -> b <> u_tap u -> u_on u b = true -> u_on u (u_tap u) = true ->
      controlled false (u_id u) s -> s <> u_tap u -> passes (u_node u (u_tap u)) (u_node u b) (Some (false, i)).
Definition count (r : option (bool * nat)) : nat := match r with Some _ => 1 | None => 0 end.
(** A path of supply from an enabled source to the node, through [k] regulated transformers. *)
Inductive path : nat -> nat -> Prop :=
  | at_source s : In s (sources g) -> s_on s = true -> path (s_node s) 0
  | further a b r k : path a k -> passes a b r -> path b (k + count r).
Definition fed (v : nat) : Prop := exists k, path v k.
Definition distance (v k : nat) : Prop := path v k /\ forall k', path v k' -> k <= k'.
(** The rank of a regulated transformer: the least number of regulated transformers up to its controlled side, itself included; behind all others if
    its controlled side has a shorter supply than through it. *)
Inductive ranked (i : bool * nat) : rank -> Prop :=
  | r_at a b k : passes a b (Some i) -> distance a k -> distance b (k + 1) -> ranked i (At (k + 1))
  | r_last a b k k' : passes a b (Some i) -> distance a k -> distance b k' -> k' <> k + 1 -> ranked i Last.
Definition id_of (i : bool * nat) : option nat := if fst i then option_map t_id (nth_error (trafos g) (snd i)) else option_map u_id (nth_error (trafo3s g) (snd i)).

(** A grid as the model's input checks leave it. *)
Record well_formed : Prop := {
  wf_trafo : forall t, In t (trafos g) -> t_from t < n_nodes g /\ t_to t < n_nodes g;
  wf_trafo3 : forall u s, In u (trafo3s g) -> u_node u s < n_nodes g;
  wf_tap : forall u, In u (trafo3s g) -> u_tap u < 3;
  wf_line : forall l, In l (lines g ++ links g) -> l_from l < n_nodes g /\ l_to l < n_nodes g;
  wf_source : forall s, In s (sources g) -> s_node s < n_nodes g;
  wf_regulators : NoDup (map r_object (regulators g));
  wf_side : forall r, In r (regulators g) -> r_branch r = true -> r_side r < 2
}.
(** Sources at one node are all enabled or all disabled. *)
Definition sources_agree : Prop := forall s s', In s (sources g) -> In s' (sources g) -> s_node s = s_node s' -> s_on s = s_on s'.
End Spec.
Definition sorts (sort : list (rank * (bool * nat)) -> list (rank * (bool * nat))) : Prop :=
  forall l, Permutation l (sort l) /\ StronglySorted (fun x y => rank_lt (fst y) (fst x) = false) (sort l).
