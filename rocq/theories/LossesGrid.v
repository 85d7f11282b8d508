(** C63, the grid: what is injected at the buses is what goes into the branches and shunts, and that is not negative. *)
From Coq Require Import Reals Lra.
From Verif Require Import Common NatMap GroupedIdx GroupedIdxFacts Phasor YBus YBusSpec YBusFacts YBusScan YBusGrid YBusProps YBusFlow.

Section Conservation.
Context {Y S' U : Type} (o : phasor_ops Y U) (L : phasor_laws o).
Notation sum := (usum o). Notation dot := (o_dot o).
Notation injection := (calculate_injection (S' := S') (o_u0 o) (o_uadd o) (o_umul o) (o_conj o) (o_dot o)).
Notation branch_flows := (calculate_branch_flow (S' := S') (o_u0 o) (o_uadd o) (o_umul o) (o_conj o) (o_dot o)).
Notation shunt_flows := (calculate_shunt_flow (S' := S') (o_y0 o) (o_u0 o) (o_uneg o) (o_umul o) (o_conj o) (o_dot o)).
Variable t : math_topo.
Hypothesis ok : sub_grid_ok t.

(** what lies at one side of the branches, over all buses *)
Lemma all_sides {A B} (side : A -> option nat) (g : A * B -> U) (l : list A) (l' : list B) n :
  (forall x, In x l -> forall i, side x = Some i -> i < n) -> (forall x b, side x = None -> g (x, b) = o_u0 o) ->
  sum (map (fun i => sum (map g (filter (fun xb => is_bus (side (fst xb)) i) (combine l l')))) (seq 0 n)) = sum (map g (combine l l')).
Proof.
  intros HB HN. rewrite (sum_ext o _ (fun i => sum (map (fun xb => if is_bus (side (fst xb)) i then g xb else o_u0 o) (combine l l')))) by (intros; apply (sum_filter o L)).
  rewrite (sum_swap o L). apply sum_ext. intros [x b] Hin. cbn [fst]. destruct (side x) as [k|] eqn:E; cbn [is_bus].
  - apply (sum_delta o L (fun _ => g (x, b))). apply HB with x; auto. now apply in_combine_l in Hin.
  - rewrite (HN x b E). apply (sum_zero o L). auto.
Qed.
Lemma all_shunts {B} (g : nat * B -> U) (l : list nat) (l' : list B) n : (forall x, In x l -> x < n) ->
  sum (map (fun i => sum (map g (filter (fun xb => fst xb =? i) (combine l l')))) (seq 0 n)) = sum (map g (combine l l')).
Proof.
  intros HB. rewrite (sum_ext o _ (fun i => sum (map (fun xb => if fst xb =? i then g xb else o_u0 o) (combine l l')))) by (intros; apply (sum_filter o L)).
  rewrite (sum_swap o L). apply sum_ext. intros [x b] Hin. cbn [fst]. apply (sum_delta o L (fun _ => g (x, b))). apply in_combine_l in Hin. auto.
Qed.
(** a list zipped with what a function makes of it *)
Lemma combine_map {A B D} (f : A * B -> D) (l : list A) (l' : list B) : combine l (map f (combine l l')) = map (fun x => (fst x, f x)) (combine l l').
Proof. revert l'. induction l as [|a l IH]; intros [|b l']; simpl; auto. f_equal. apply IH. Qed.
Lemma filter_map {A B} (f : A -> B) (p : B -> bool) l : filter p (map f l) = map f (filter (fun x => p (f x)) l).
Proof. induction l as [|a l IH]; simpl; auto. destruct (p (f a)); simpl; now rewrite IH. Qed.

(** Whatever the updates before and whatever the voltages: the powers injected at all buses together are the powers that go into the branches at both sides,
    minus the powers that the shunts inject. *)
Theorem C63_conservation s p0 l u : build_structure t = Some s -> params_fit t p0 -> Forall (update_fits t (length (p_source p0))) l ->
  let y := y_run (o_yadd o) (o_y0 o) s l (new_y_bus (o_yadd o) (o_y0 o) s p0) in
  length (injection s y u) = mt_n_bus t /\
  sum (injection s y u) = o_uadd o (o_uadd o (sum (map s_f (branch_flows t y u))) (sum (map s_t (branch_flows t y u)))) (o_uneg o (sum (map snd (shunt_flows t y u)))).
Proof.
  intros E Hf HF y. assert (Hl : length (injection s y u) = mt_n_bus t) by (unfold calculate_injection; rewrite map_length, seq_length; apply (so_bus_entry t s (the_structure t s ok E))).
  split; [exact Hl|].
  assert (HI : injection s y u = map (fun i => o_uadd o (o_uadd o (sum (map s_f (from_at t (branch_flows t y u) i))) (sum (map s_t (to_at t (branch_flows t y u) i))))
                             (o_uneg o (sum (map snd (shunts_at t (shunt_flows t y u) i))))) (seq 0 (mt_n_bus t))).
  { apply nth_error_ext. intros i. rewrite nth_error_map. destruct (Nat.lt_ge_cases i (mt_n_bus t)) as [Hi|Hi].
    - rewrite (nth_error_nth' _ 0) by now rewrite seq_length. rewrite seq_nth by auto. cbn [option_map Nat.add]. apply (proj2 (C21_kirchhoff o L t ok s p0 l u i E Hf HF Hi)).
    - rewrite (proj2 (nth_error_None _ _)) by lia. rewrite (proj2 (nth_error_None (seq 0 _) _)) by (rewrite seq_length; lia). reflexivity. }
  assert (Fit : params_fit t (yb_param y)).
  { destruct (full_inv (o_yadd o) (o_y0 o) t s ok E _ p0 (mkYBus p0 [] [] []) Hf eq_refl) as [I _]. destruct (run_inv (o_yadd o) (o_y0 o) t s ok E _ l _ I HF) as [J _]. apply (yi_fit _ _ _ _ _ _ J). }
  rewrite HI, !(sum_add o L), (sum_neg o L). clear HI. f_equal; [f_equal|f_equal].
  - unfold calculate_branch_flow. rewrite map_map. rewrite <- (all_sides (fun b => fst b) _ (mt_branch t) (p_branch (yb_param y)) (mt_n_bus t)).
    + apply sum_ext. intros i _. unfold from_at. rewrite combine_map, filter_map, !map_map. reflexivity.
    + intros x Hx i Hi. apply In_nth_error in Hx as [k Hk]. apply (proj1 (go_branch t ok k x Hk)). exact Hi.
    + intros x b Hx. cbn [fst snd s_f]. unfold voltage. rewrite Hx. now rewrite (pl_mul_comm o L), (umul0 o L).
  - unfold calculate_branch_flow. rewrite map_map. rewrite <- (all_sides (fun b => snd b) _ (mt_branch t) (p_branch (yb_param y)) (mt_n_bus t)).
    + apply sum_ext. intros i _. unfold to_at. rewrite combine_map, filter_map, !map_map. reflexivity.
    + intros x Hx i Hi. apply In_nth_error in Hx as [k Hk]. apply (proj2 (go_branch t ok k x Hk)). exact Hi.
    + intros x b Hx. cbn [fst snd s_t]. unfold voltage. rewrite Hx. now rewrite (pl_mul_comm o L), (umul0 o L).
  - rewrite (shunt_flows_spec o t ok) by apply Fit. rewrite map_map. rewrite <- (all_shunts _ (d_vec (mt_shunt t)) (p_shunt (yb_param y)) (mt_n_bus t)).
    + apply sum_ext. intros i _. unfold shunts_at. rewrite combine_map, filter_map, !map_map. reflexivity.
    + intros x Hx. now apply (go_shunt t ok).
Qed.

(** Taking real parts: an additive measure of power that no branch and no shunt makes negative *)
Variable P : U -> R.
Hypothesis P0 : P (o_u0 o) = 0%R.
Hypothesis Padd : forall a b, P (o_uadd o a b) = (P a + P b)%R.
Lemma P_neg a : P (o_uneg o a) = (- P a)%R.
Proof. pose proof (Padd a (o_uneg o a)) as H. rewrite (pl_neg o L), P0 in H. lra. Qed.
Lemma P_sum_nonneg l : (forall a, In a l -> (0 <= P a)%R) -> (0 <= P (sum l))%R.
Proof. induction l as [|a l IH]; simpl; intros H; [rewrite P0; lra|]. rewrite Padd. pose proof (H a (or_introl eq_refl)). assert (0 <= P (sum l))%R by auto. lra. Qed.
Theorem C63_no_generation s p0 l u : build_structure t = Some s -> params_fit t p0 -> Forall (update_fits t (length (p_source p0))) l ->
  let y := y_run (o_yadd o) (o_y0 o) s l (new_y_bus (o_yadd o) (o_y0 o) s p0) in
  (forall b, In b (p_branch (yb_param y)) -> forall uf ut, (0 <= P (o_umul o uf (o_conj o (o_uadd o (dot (YBus.yff b) uf) (dot (YBus.yft b) ut))))
      + P (o_umul o ut (o_conj o (o_uadd o (dot (YBus.ytf b) uf) (dot (YBus.ytt b) ut)))))%R) ->
  (forall g, In g (p_shunt (yb_param y)) -> forall v, (0 <= P (o_umul o v (o_conj o (dot g v))))%R) ->
  (0 <= P (sum (injection s y u)))%R.
Proof.
  intros E Hf HF y HB HS. pose proof (proj2 (C63_conservation s p0 l u E Hf HF)) as Q. fold y in Q. rewrite Q, !Padd, P_neg.
  assert (Fit : params_fit t (yb_param y)).
  { destruct (full_inv (o_yadd o) (o_y0 o) t s ok E _ p0 (mkYBus p0 [] [] []) Hf eq_refl) as [I _]. destruct (run_inv (o_yadd o) (o_y0 o) t s ok E _ l _ I HF) as [J _]. apply (yi_fit _ _ _ _ _ _ J). }
  assert (A : (0 <= P (sum (map s_f (branch_flows t y u))) + P (sum (map s_t (branch_flows t y u))))%R).
  { rewrite <- Padd, <- (sum_add o L). apply P_sum_nonneg. intros a Ha. apply in_map_iff in Ha as (f & <- & Hin). rewrite Padd. unfold calculate_branch_flow in Hin. apply in_map_iff in Hin as ([x b] & <- & Hin).
    cbn [s_f s_t fst snd]. apply HB. now apply in_combine_r in Hin. }
  assert (B : (0 <= - P (sum (map snd (shunt_flows t y u))))%R).
  { rewrite <- P_neg, <- (sum_neg o L). apply P_sum_nonneg. intros a Ha. apply in_map_iff in Ha as (f & <- & Hin). rewrite (shunt_flows_spec o t ok) in Hin by apply Fit. apply in_map_iff in Hin as ([x b] & <- & Hin).
    cbn [fst snd]. rewrite (conj_neg o L), (umul_neg o L), (uneg_neg o L). apply HS. now apply in_combine_r in Hin. }
  lra.
Qed.
End Conservation.
