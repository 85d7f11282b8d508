(** C64: the voltages do not depend on the order in which the components are given nor on the numbering of the buses. *)
From Coq Require Import Reals Lra Lia Field Permutation.
From Verif Require Import Common NatMap GroupedIdx Numbers ShortCircuit ShortCircuitFacts PowerFlow PowerFlowSpec PowerFlowFacts Balanced BalancedSpec BalancedFacts BalancedGrid BalancedProps YBus YBusSpec SquareSystem Units UnitsFacts Ratings RatingsFacts LossesSpec SolvableSpec SolvableFacts SolvableKernel SolvableProps.
From Verif Require TwoPort TwoPortSpec.

(** ** Renumbered equations *)
Section Renumbered.
Context {C : Type} (o : num_ops C) (cj cabs : C -> C) (a : C) (P : pf_laws o cj cabs a).
Local Notation L := (pf_num o cj cabs a P).
Add Field NumFieldOrd : (nl_field o (pf_num o cj cabs a P)).
Local Notation zero := (n_zero o).
Lemma nsum_perm {A} (f : A -> C) l l' : Permutation l l' -> nsum o (map f l) = nsum o (map f l').
Proof.
  induction 1 as [|x l l' _ IH|x y l|l l' l'' _ IH _ IH']; [reflexivity| | |congruence].
  - rewrite !nsum_cons, IH. reflexivity.
  - rewrite !nsum_cons. ring.
Qed.
Variables (np n : nat) (ybus ybus' : nat -> nat -> tensor (C := C)) (sources loads sources' loads' : nat -> list nat) (y1 y0 u_source : nat -> C) (s : nat -> vec (C := C)).
Variable r : nat -> nat. (* the new number of a bus *)
Hypothesis r_range : forall b, b < n -> r b < n.
Hypothesis r_inj : forall b c, b < n -> c < n -> r b = r c -> b = c.
Hypothesis same_y : forall i j p q, i < n -> j < n -> ybus' (r i) (r j) p q = ybus i j p q.
Hypothesis same_sources : forall b, b < n -> Permutation (sources' (r b)) (sources b).
Hypothesis same_loads : forall b, b < n -> Permutation (loads' (r b)) (loads b).
Lemma all_numbers : Permutation (map r (seq 0 n)) (seq 0 n).
Proof.
  apply NoDup_Permutation_bis.
  - assert (G : forall l, NoDup l -> (forall x, In x l -> x < n) -> NoDup (map r l)).
    { induction 1 as [|x l Nx Nl IH]; intros H; cbn [map]; constructor.
      - intros Hi. apply in_map_iff in Hi as (y & E & Hy). apply r_inj in E; [subst; contradiction| |]; apply H; [right|left]; auto.
      - apply IH. intros; apply H; right; assumption. }
    apply G; [apply seq_NoDup|]. intros x Hx. apply in_seq in Hx. lia.
  - rewrite map_length. lia.
  - intros x Hx. apply in_map_iff in Hx as (b & <- & Hb). apply in_seq in Hb. apply in_seq. specialize (r_range b). lia.
Qed.
Local Notation e := (prepare_linear o cj a np n ybus sources loads y1 y0 u_source s).
Local Notation e' := (prepare_linear o cj a np n ybus' sources' loads' y1 y0 u_source s).
Lemma renumbered_residual x b p : b < n -> p < np -> residual o np n e' x (r b) p = residual o np n e (fun b => x (r b)) b p.
Proof.
  intros Hb Hp. rewrite !(prepare_residual o cj cabs a P) by auto. f_equal; [f_equal|]; [|apply nsum_perm; auto|apply nsum_perm; auto].
  unfold network_current. rewrite <- (nsum_perm _ _ _ all_numbers), map_map. apply nsum_ext. intros j Hj. apply in_seq in Hj. unfold dot. apply nsum_ext. intros q _. rewrite same_y by lia. reflexivity.
Qed.
Lemma renumbered x : solves o np n e' x -> solves o np n e (fun b => x (r b)).
Proof.
  intros H b p Hb Hp. apply (eq_sub o cj cabs a P). change (residual o np n e (fun b => x (r b)) b p = zero). rewrite <- renumbered_residual by auto.
  unfold residual. rewrite (H (r b) p (r_range b Hb) Hp). ring.
Qed.
End Renumbered.

(** ** Reordered components *)
(** The same grid with the buses numbered otherwise by [r], and branches and shunts in any order. *)
Definition same_grid {Y S' S''} (r : nat -> nat) (t t' : math_topo) (p : @model_param Y S') (p' : @model_param Y S'') : Prop :=
  mt_n_bus t' = mt_n_bus t /\ (forall b, b < mt_n_bus t -> r b < mt_n_bus t) /\ (forall b c, b < mt_n_bus t -> c < mt_n_bus t -> r b = r c -> b = c) /\
  Permutation (combine (mt_branch t') (p_branch p')) (map (fun x => (option_map r (fst (fst x)), option_map r (snd (fst x)), snd x)) (combine (mt_branch t) (p_branch p))) /\
  Permutation (combine (d_vec (mt_shunt t')) (p_shunt p')) (map (fun x => (r (fst x), snd x)) (combine (d_vec (mt_shunt t)) (p_shunt p))).
Lemma flat_map_perm {A B} (f : A -> list B) l l' : Permutation l l' -> Permutation (flat_map f l) (flat_map f l').
Proof.
  induction 1 as [|x l l' _ IH|x y l|l l' l'' _ IH _ IH']; cbn [flat_map]; [constructor|now apply Permutation_app_head| |now transitivity (flat_map f l')].
  rewrite !app_assoc. apply Permutation_app_tail. apply Permutation_app_comm.
Qed.
Lemma flat_map_ext_in {A B} (f g : A -> list B) l : (forall x, In x l -> f x = g x) -> flat_map f l = flat_map g l.
Proof. induction l as [|x l IH]; intros H; cbn [flat_map]; [reflexivity|]. rewrite (H x (or_introl eq_refl)), IH; [reflexivity|]. intros; apply H; right; assumption. Qed.
Lemma flat_map_map {A A' B} (f : A' -> list B) (g : A -> A') l : flat_map f (map g l) = flat_map (fun x => f (g x)) l.
Proof. induction l as [|x l IH]; cbn [map flat_map]; [reflexivity|]. now rewrite IH. Qed.
Lemma same_terms {Y S' S''} r t t' (p : @model_param Y S') (p' : @model_param Y S'') i j : sub_grid_ok t -> same_grid r t t' p p' -> i < mt_n_bus t -> j < mt_n_bus t ->
  Permutation (entry_terms t' p' (r i) (r j)) (entry_terms t p i j).
Proof.
  intros ok (_ & Hr & Hi & HB & HS) Li Lj. unfold entry_terms.
  assert (E : forall x k, x < mt_n_bus t -> k < mt_n_bus t -> (r x =? r k) = (x =? k)).
  { intros x k Hx Hk. destruct (Nat.eqb_spec x k) as [->|N]; [apply Nat.eqb_refl|]. apply Nat.eqb_neq. intros Q. apply N. now apply Hi. }
  apply Permutation_app.
  - rewrite (flat_map_perm _ _ _ HB), flat_map_map. apply Permutation_refl'. apply flat_map_ext_in. intros [[f b] q] Hin. cbn [fst snd].
    apply in_combine_l in Hin. apply In_nth_error in Hin as [k Hk]. destruct (go_branch t ok k (f, b) Hk) as [Hf Hb]. cbn [fst snd] in *.
    assert (H : forall x y, (forall k, x = Some k -> k < mt_n_bus t) -> (forall k, y = Some k -> k < mt_n_bus t) ->
      match option_map r x, option_map r y with Some a, Some b => (a =? r i) && (b =? r j) | _, _ => false end = match x, y with Some a, Some b => (a =? i) && (b =? j) | _, _ => false end).
    { intros [x|] [y|] X Z; cbn [option_map]; auto. rewrite !E by auto. reflexivity. }
    rewrite !H by auto. reflexivity.
  - rewrite (flat_map_perm _ _ _ HS), flat_map_map. apply Permutation_refl'. apply flat_map_ext_in. intros [b q] Hin. cbn [fst snd].
    apply in_combine_l in Hin. pose proof (go_shunt t ok b Hin). rewrite !E by auto. reflexivity.
Qed.
Lemma same_fold {Y} (ten : Y -> nat -> nat -> C) yadd yzero (ten_add : forall a b p q, ten (yadd a b) p q = cadd (ten a p q) (ten b p q)) l l' p q : Permutation l l' ->
  ten (fold_left yadd l yzero) p q = ten (fold_left yadd l' yzero) p q.
Proof.
  intros H. assert (G : forall l z, ten (fold_left yadd l z) p q = cadd (ten z p q) (nsum cnum (map (fun a => ten a p q) l))).
  { induction l0 as [|a l0 IH]; intros z; cbn [fold_left].
    - unfold nsum. cbn [fold_right map]. generalize (ten z p q). intros w. cbn. creal; ring.
    - rewrite IH, nsum_cons, ten_add. generalize (ten z p q), (ten a p q), (nsum cnum (map (fun a => ten a p q) l0)). intros w w' w''. cbn. creal; ring. }
  rewrite !G. f_equal. apply (nsum_perm cnum _ _ _ cpf). exact H.
Qed.

Local Open Scope R_scope.
(** The linear power flow, the same grid given twice: the voltages are the same. *)
Theorem C64_order_symmetric : forall (r : nat -> nat) (t t' : math_topo) (prm prm' : @model_param C Datatypes.unit) (sources loads sources' loads' : nat -> list nat) (y1 y0 u_ref : nat -> C) (s : nat -> nat -> C),
  sub_grid_ok t ->
  (forall q, In q (p_branch prm) -> exists b, passive b /\ q = param1 b) -> (forall g, In g (p_shunt prm) -> 0 <= re g) ->
  (forall b k, In k (sources b) -> 0 < re (y1 k)) -> (forall b l, In l (loads b) -> re (s l 0%nat) <= 0) ->
  (forall b, (b < mt_n_bus t)%nat -> supplied cnum 1 one_number (combine (mt_branch t) (p_branch prm)) (fun b => sources b <> []) b) ->
  same_grid r t t' prm prm' ->
  (forall b, (b < mt_n_bus t)%nat -> Permutation (sources' (r b)) (sources b)) -> (forall b, (b < mt_n_bus t)%nat -> Permutation (loads' (r b)) (loads b)) ->
  forall u u',
  solves cnum 1 (mt_n_bus t) (prepare_linear cnum conj (a120 complex_ops) 1 (mt_n_bus t) (matrix1 complex_ops t prm) sources loads y1 y0 u_ref s) u ->
  solves cnum 1 (mt_n_bus t') (prepare_linear cnum conj (a120 complex_ops) 1 (mt_n_bus t') (matrix1 complex_ops t' prm') sources' loads' y1 y0 u_ref s) u' ->
  forall b, (b < mt_n_bus t)%nat -> u' (r b) 0%nat = u b 0%nat.
Proof.
  intros r t t' prm prm' sources loads sources' loads' y1 y0 u_ref s ok HB HS HK HL HC G Hs Hl u u' H H' b Hb.
  pose proof G as (En & Hr & Hi & _). rewrite En in H'.
  destruct (proj1 (C64_symmetric t prm sources loads y1 y0 u_ref s ok HB HS HK HC) HL) as (v & _ & U).
  rewrite (U u H b Hb). apply (U (fun b => u' (r b))); [|exact Hb].
  apply (renumbered cnum conj (TwoPort.c_abs complex_ops) (a120 complex_ops) cpf 1 (mt_n_bus t) (matrix1 complex_ops t prm) (matrix1 complex_ops t' prm') sources loads sources' loads' y1 y0 u_ref s r Hr Hi); auto.
  intros i j p q Li Lj. apply (same_fold one_number cadd (0, 0) (fun _ _ _ _ => eq_refl) _ _ p q). now apply same_terms.
Qed.
Theorem C64_order_asymmetric : forall (r : nat -> nat) (t t' : math_topo) (prm prm' : @model_param (nat -> nat -> C) Datatypes.unit) (sources loads sources' loads' : nat -> list nat) (y1 y0 u_ref : nat -> C) (s : nat -> nat -> C),
  sub_grid_ok t ->
  (forall q, In q (p_branch prm) -> exists b, passive3 b /\ q = param3 b) ->
  (forall g, In g (p_shunt prm) -> exists g1 g0, 0 <= re g1 /\ 0 <= re g0 /\ g = shunt_tensor complex_ops g1 g0) ->
  (forall b k, In k (sources b) -> 0 < re (y1 k) /\ 0 < re (y0 k)) -> (forall b l p, In l (loads b) -> (p < 3)%nat -> re (s l p) <= 0) ->
  (forall b, (b < mt_n_bus t)%nat -> supplied cnum 3 a_tensor (combine (mt_branch t) (p_branch prm)) (fun b => sources b <> []) b) ->
  same_grid r t t' prm prm' ->
  (forall b, (b < mt_n_bus t)%nat -> Permutation (sources' (r b)) (sources b)) -> (forall b, (b < mt_n_bus t)%nat -> Permutation (loads' (r b)) (loads b)) ->
  forall u u',
  solves cnum 3 (mt_n_bus t) (prepare_linear cnum conj (a120 complex_ops) 3 (mt_n_bus t) (matrix3 complex_ops t prm) sources loads y1 y0 u_ref s) u ->
  solves cnum 3 (mt_n_bus t') (prepare_linear cnum conj (a120 complex_ops) 3 (mt_n_bus t') (matrix3 complex_ops t' prm') sources' loads' y1 y0 u_ref s) u' ->
  forall b p, (b < mt_n_bus t)%nat -> (p < 3)%nat -> u' (r b) p = u b p.
Proof.
  intros r t t' prm prm' sources loads sources' loads' y1 y0 u_ref s ok HB HS HK HL HC G Hs Hl u u' H H' b p Hb Hp.
  pose proof G as (En & Hr & Hi & _). rewrite En in H'.
  destruct (proj1 (C64_asymmetric t prm sources loads y1 y0 u_ref s ok HB HS HK HC) HL) as (v & _ & U).
  rewrite (U u H b p Hb Hp). apply (U (fun b => u' (r b))); [|exact Hb|exact Hp].
  apply (renumbered cnum conj (TwoPort.c_abs complex_ops) (a120 complex_ops) cpf 3 (mt_n_bus t) (matrix3 complex_ops t prm) (matrix3 complex_ops t' prm') sources loads sources' loads' y1 y0 u_ref s r Hr Hi); auto.
  intros i j p' q Li Lj. apply (same_fold a_tensor (tensor_add complex_ops) (tensor_0 complex_ops) (fun _ _ _ _ => eq_refl) _ _ p' q). now apply same_terms.
Qed.
(** C61 without its assumption that the equations have at most one solution: the asymmetric linear power flow of a symmetric grid gives the balanced voltages of the symmetric one. *)
Theorem C64_balanced : forall (t : math_topo) (branches : list (@branch C)) (shunts : list (C * C)) (p1 : @model_param C Datatypes.unit) (p3 : @model_param (nat -> nat -> C) Datatypes.unit)
    (sources loads : nat -> list nat) (y1 y0 u_ref : nat -> C) (s : nat -> C),
  grid_params complex_ops branches shunts p1 p3 -> sub_grid_ok t ->
  (forall q, In q (p_branch p3) -> exists b, passive3 b /\ q = param3 b) ->
  (forall g, In g (p_shunt p3) -> exists g1 g0, 0 <= re g1 /\ 0 <= re g0 /\ g = shunt_tensor complex_ops g1 g0) ->
  (forall b k, In k (sources b) -> 0 < re (y1 k) /\ 0 < re (y0 k)) -> (forall b l, In l (loads b) -> re (s l) <= 0) ->
  (forall b, (b < mt_n_bus t)%nat -> supplied cnum 3 a_tensor (combine (mt_branch t) (p_branch p3)) (fun b => sources b <> []) b) ->
  forall u v,
  solves cnum 1 (mt_n_bus t) (prepare_linear cnum conj (a120 complex_ops) 1 (mt_n_bus t) (matrix1 complex_ops t p1) sources loads y1 y0 u_ref (fun l _ => s l)) u ->
  solves cnum 3 (mt_n_bus t) (prepare_linear cnum conj (a120 complex_ops) 3 (mt_n_bus t) (matrix3 complex_ops t p3) sources loads y1 y0 u_ref (fun l _ => s l)) v ->
  balanced_for cnum (a120 complex_ops) (mt_n_bus t) u v.
Proof.
  intros t branches shunts p1 p3 sources loads y1 y0 u_ref s G ok HB HS HK HL HC u v Hu Hv b p Hb Hp.
  destruct (proj1 (C64_asymmetric t p3 sources loads y1 y0 u_ref (fun l _ => s l) ok HB HS HK HC) (fun b l _ Hl _ => HL b l Hl)) as (w & _ & U).
  rewrite (U v Hv b p Hb Hp). symmetry. apply (U (balanced cnum (a120 complex_ops) u)); [|exact Hb|exact Hp].
  apply (proj1 (C61_linear complex_ops complex_laws complex_rots abs_square_c abs_rot_c t branches shunts p1 p3 G sources loads y1 y0 u_ref s (fun _ => PowerFlow.const_y) u)). exact Hu.
Qed.
(** the same of the iterative current method: after as many iterations the same voltages *)
Theorem C64_balanced_iterative : forall (t : math_topo) (branches : list (@branch C)) (shunts : list (C * C)) (p1 : @model_param C Datatypes.unit) (p3 : @model_param (nat -> nat -> C) Datatypes.unit)
    (sources loads : nat -> list nat) (y1 y0 u_ref : nat -> C) (s : nat -> C) (ty : nat -> PowerFlow.load_type) (back forth : nat -> C),
  grid_params complex_ops branches shunts p1 p3 -> sub_grid_ok t ->
  (forall q, In q (p_branch p3) -> exists b, passive3 b /\ q = param3 b) ->
  (forall g, In g (p_shunt p3) -> exists g1 g0, 0 <= re g1 /\ 0 <= re g0 /\ g = shunt_tensor complex_ops g1 g0) ->
  (forall b k, In k (sources b) -> 0 < re (y1 k) /\ 0 < re (y0 k)) ->
  (forall b, (b < mt_n_bus t)%nat -> supplied cnum 3 a_tensor (combine (mt_branch t) (p_branch p3)) (fun b => sources b <> []) b) ->
  let iterates1 := iterates cnum conj (TwoPort.c_abs complex_ops) (a120 complex_ops) 1 (mt_n_bus t) (matrix1 complex_ops t p1) sources loads y1 y0 u_ref (fun l _ => s l) ty back forth in
  let iterates3 := iterates cnum conj (TwoPort.c_abs complex_ops) (a120 complex_ops) 3 (mt_n_bus t) (matrix3 complex_ops t p3) sources loads y1 y0 u_ref (fun l _ => s l) ty back forth in
  forall k u v, iterates1 k u -> iterates3 k v -> (forall j w, (j < k)%nat -> iterates1 j w -> load_currents_exist complex_ops t loads ty w) ->
  balanced_for cnum (a120 complex_ops) (mt_n_bus t) u v.
Proof.
  intros t branches shunts p1 p3 sources loads y1 y0 u_ref s ty back forth G ok HB HS HK HC i1 i3 k u v Hu Hv Hn.
  refine (proj2 (C61_iterative complex_ops complex_laws complex_rots abs_square_c abs_rot_c t branches shunts p1 p3 G sources loads y1 y0 u_ref s ty back forth k u Hu Hn) _ v Hv).
  intros x x' H b p Hb Hp.
  destruct (C64_matrix_asymmetric t p3 sources y1 y0 ok HB HS HK HC (fun b p => nsum cnum (map (fun j => dot cnum 3 (iterative_matrix cnum 3 (mt_n_bus t) (matrix3 complex_ops t p3) sources y1 y0 b j) (x' j) p) (seq 0 (mt_n_bus t))))) as (w & _ & U).
  rewrite (U x H b p Hb Hp). symmetry. apply (U x'); auto. intros b' p' Hb' Hp'. reflexivity.
Qed.
