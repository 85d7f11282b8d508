From Verif Require Import Common Component.
From Verif Require Import TapSearch TapSearchSpec.

(** * Counting *)
Lemma Forall2_len {A B} (P : A -> B -> Prop) l m : Forall2 P l m -> length l = length m.
Proof. induction 1; cbn; congruence. Qed.
(** the counters as the digits of a number *)
Fixpoint value (ranges counts : list nat) : nat :=
  match ranges, counts with
  | r :: ranges', c :: counts' => c * enough ranges' + value ranges' counts'
  | _, _ => 0
  end.
Definition digits (ranges counts : list nat) : Prop := Forall2 (fun c r => c <= 2 * r) counts ranges.
Lemma enough_pos ranges : 0 < enough ranges.
Proof. induction ranges as [|r l IH]; cbn [enough fold_right]; [lia|]. fold (enough l). nia. Qed.
Lemma enough_cons r l : enough (r :: l) = S (2 * r) * enough l.
Proof. reflexivity. Qed.
Lemma value_lt ranges counts : digits ranges counts -> value ranges counts < enough ranges.
Proof.
  intros H. induction H as [|c r counts ranges Hc H IH]; [cbn; lia|].
  cbn [value]. rewrite enough_cons. nia.
Qed.
Lemma value_zeros ranges {A} (l : list A) : value ranges (map (fun _ => 0) l) = 0.
Proof. revert l; induction ranges as [|r ranges IH]; intros [|x l]; cbn; auto. Qed.
Lemma digits_zeros ranges {A} (l : list A) : length l = length ranges -> digits ranges (map (fun _ => 0) l).
Proof. revert ranges; induction l as [|x l IH]; intros [|r ranges] E; try discriminate; constructor; [lia|]. apply IH. cbn in E. congruence. Qed.
Lemma count_cons0 c counts : count_iteration 0 (c :: counts) = S c :: map (fun _ => 0) counts.
Proof. reflexivity. Qed.
Lemma count_consS i c counts : count_iteration (S i) (c :: counts) = c :: count_iteration i counts.
Proof. reflexivity. Qed.
Lemma count_up ranges counts i : digits ranges counts -> i < length counts ->
  nth i (count_iteration i counts) 0 <= 2 * nth i ranges 0 ->
  digits ranges (count_iteration i counts) /\ value ranges counts < value ranges (count_iteration i counts).
Proof.
  intros H. revert i. induction H as [|c r counts ranges Hc H IH]; intros i Hi Hn; [cbn in Hi; lia|].
  destruct i as [|i].
  - rewrite count_cons0 in *. cbn [nth] in Hn. split.
    + constructor; [exact Hn|]. apply digits_zeros. apply (Forall2_len _ _ _ H).
    + cbn [value]. rewrite value_zeros. pose proof (value_lt _ _ H). nia.
  - rewrite count_consS in *. cbn [nth] in Hn. cbn [length] in Hi. destruct (IH i ltac:(lia) Hn) as [A B]. split.
    + constructor; auto.
    + cbn [value]. lia.
Qed.
Lemma count_length i counts : i < length counts -> length (count_iteration i counts) = length counts.
Proof. intros H. unfold count_iteration. rewrite app_length, firstn_length. cbn [length]. rewrite map_length, skipn_length. lia. Qed.

Section Facts.
Context {D : Type} (leb : D -> D -> bool).
Context {World Result : Type}.
Variable calculate : World -> list tap -> calc_method -> World * res Result.
Variable voltage : Result -> regulated -> D.
Variable band : regulated -> D * D.
Variable strat : strategy.
Variable order : ranked.

Notation iterate_ranks := (iterate_ranks leb voltage band strat).
Notation adjust_rank := (adjust_rank leb voltage band strat).
Notation iterate_loop := (iterate_loop leb calculate voltage band strat order).
Notation iterate := (iterate leb calculate voltage band strat order).
Notation iterate_with_fallback := (iterate_with_fallback leb calculate voltage band strat order).
Notation run_calculation := (run_calculation calculate).

Lemma iterate_ranks_index search r ts ranks i bss us bss' k us' :
  iterate_ranks search r ts i ranks bss us = (bss', Ok (Some k, us')) -> i <= k < i + length ranks.
Proof.
  revert i bss us. induction ranks as [|rgs ranks IH]; intros i bss us; cbn [TapSearch.iterate_ranks]; [discriminate|].
  destruct (adjust_rank search r ts i 0 rgs bss false us) as [b [[[|] u]|e]]; intros E; try discriminate.
  - injection E as <- <- <-. cbn. lia.
  - apply IH in E. cbn. lia.
Qed.

(** Whatever the calculation does, the fuel is enough and there are at most [enough ranges] calculations *)
Lemma loop_ends m search ranges fuel counts r s : length ranges = length order -> digits ranges counts ->
  enough ranges <= fuel + value ranges counts ->
  snd (iterate_loop fuel m search ranges counts r s) <> OutOfFuel /\
  S (length (os_tried (fst (iterate_loop fuel m search ranges counts r s)))) + value ranges counts <= length (os_tried s) + enough ranges.
Proof.
  intros L. revert counts r s. induction fuel as [|fuel IH]; intros counts r s Hd Hf; pose proof (value_lt _ _ Hd) as Hv; [lia|].
  cbn [TapSearch.iterate_loop].
  destruct (iterate_ranks search r (os_taps s) 0 order (os_bs s) []) as [bss [[[k|] us]|e]] eqn:E.
  - apply iterate_ranks_index in E. cbn [plus] in E.
    destruct (2 * nth k ranges 0 <? nth k (count_iteration k counts) 0) eqn:C.
    + split; [discriminate|]. cbn. lia.
    + apply Nat.ltb_ge in C. pose proof (Forall2_len _ _ _ Hd) as L2.
      destruct (count_up ranges counts k Hd ltac:(lia) C) as [Hd' Hlt]. pose proof (value_lt _ _ Hd') as Hv'.
      unfold TapSearch.run_calculation. cbn [os_world os_taps os_bs os_tried].
      destruct (calculate (os_world s) (update_state (os_taps s) us) m) as [w [r'|e]].
      * specialize (IH (count_iteration k counts) r' (mkOpt w (update_state (os_taps s) us) bss (os_tried s ++ [update_state (os_taps s) us])) Hd' ltac:(lia)).
        cbn [os_tried] in IH. rewrite app_length in IH. cbn [length] in IH. destruct IH as [IH1 IH2]. split; [exact IH1|]. lia.
      * split; [discriminate|]. cbn [fst os_tried]. rewrite app_length. cbn [length]. lia.
  - split; [discriminate|]. cbn. lia.
  - split; [discriminate|]. cbn. lia.
Qed.
Lemma iterate_ends m search ranges s : length ranges = length order ->
  snd (iterate m search ranges s) <> OutOfFuel /\ length (os_tried (fst (iterate m search ranges s))) <= length (os_tried s) + enough ranges.
Proof.
  intros L. unfold TapSearch.iterate, TapSearch.run_calculation. pose proof (enough_pos ranges) as P.
  destruct (calculate (os_world s) (os_taps s) m) as [w [r|e]].
  - destruct (loop_ends m search ranges (enough ranges) (map (fun _ => 0) order) r (mkOpt w (os_taps s) (os_bs s) (os_tried s ++ [os_taps s])) L) as [A B].
    + apply digits_zeros. congruence.
    + lia.
    + split; [exact A|]. cbn [os_tried] in B. rewrite app_length in B. cbn [length] in B. lia.
  - split; [discriminate|]. cbn. rewrite app_length. cbn. lia.
Qed.
Lemma fallback_ends search ranges s : length ranges = length order ->
  snd (iterate_with_fallback search ranges s) <> OutOfFuel /\ length (os_tried (fst (iterate_with_fallback search ranges s))) <= length (os_tried s) + 3 * enough ranges.
Proof.
  intros L. unfold TapSearch.iterate_with_fallback.
  assert (F : forall s1, length (os_tried s1) <= length (os_tried s) + enough ranges ->
    let p := match iterate LinearMethod search ranges s1 with
      | (s2, Finished _) => iterate Requested search ranges s2
      | (s2, Thrown e) => (s2, Thrown e)
      | (s2, OutOfFuel) => (s2, OutOfFuel)
      end in
    snd p <> OutOfFuel /\ length (os_tried (fst p)) <= length (os_tried s) + 3 * enough ranges).
  { intros s1 H1. destruct (iterate_ends LinearMethod search ranges s1 L) as [A2 B2].
    destruct (iterate LinearMethod search ranges s1) as [s2 [r2|e2|]]; cbn [fst snd] in *.
    - destruct (iterate_ends Requested search ranges s2 L) as [A3 B3]. split; [exact A3|]. lia.
    - split; [discriminate|]. lia.
    - congruence. }
  destruct (iterate_ends Requested search ranges s L) as [A1 B1].
  destruct (iterate Requested search ranges s) as [s1 [r|e|]] eqn:E; cbn [fst snd] in *.
  - split; [discriminate|]. lia.
  - destruct e; try (split; [discriminate|]; cbn [fst]; lia); apply F; lia.
  - congruence.
Qed.
Lemma optimize_ends w ts :
  snd (optimize leb calculate voltage band strat order w ts) <> OutOfFuel /\
  length (os_tried (fst (optimize leb calculate voltage band strat order w ts))) <= 6 * enough (max_tap_ranges order ts).
Proof.
  unfold optimize, optimize_inner.
  set (ranges := max_tap_ranges order ts).
  assert (L : length ranges = length order) by (unfold ranges, max_tap_ranges; apply map_length).
  set (s0 := pilot_run strat order (mkOpt w ts (bs_prep strat order ts) [])).
  assert (L0 : length (os_tried s0) = 0) by reflexivity.
  destruct (fallback_ends (search_of strat) ranges s0 L) as [A1 B1].
  destruct (iterate_with_fallback (search_of strat) ranges s0) as [s1 [r|e|]]; cbn [fst snd] in A1, B1; [|cbn [fst snd os_tried]; split; [discriminate|]; lia|congruence].
  assert (X : forall p, snd p <> OutOfFuel /\ length (os_tried (fst p)) <= length (os_tried s1) + 3 * enough ranges ->
    let q := (let '(s, o) := produce order p in (mkOpt (os_world s) (update_state (os_taps s) (cache_states order ts)) (os_bs s) (os_tried s), o)) : opt_state (World := World) * outcome (Result * list (nat * Z)) in
    snd q <> OutOfFuel /\ length (os_tried (fst q)) <= 6 * enough ranges).
  { intros [s [a|e|]] [A B]; cbn [fst snd produce os_tried] in *; [split; [discriminate|]; lia|split; [discriminate|]; lia|congruence]. }
  assert (Y : forall s : opt_state (World := World), length (os_tried (exploit_neighborhood strat order s)) = length (os_tried s)) by reflexivity.
  assert (Z : snd (iterate_with_fallback LinearSearch ranges (exploit_neighborhood strat order s1)) <> OutOfFuel /\
    length (os_tried (fst (iterate_with_fallback LinearSearch ranges (exploit_neighborhood strat order s1)))) <= length (os_tried s1) + 3 * enough ranges)
    by (rewrite <- (Y s1); apply fallback_ends; exact L).
  pose proof (X _ Z) as Z'. clear Y Z.
  assert (W : snd (s1, Finished r) <> OutOfFuel /\ length (os_tried (fst (s1, Finished r))) <= length (os_tried s1) + 3 * enough ranges) by (split; [discriminate|cbn [fst]; lia]).
  pose proof (X _ W) as W'. clear W. cbv zeta in W', Z'.
  destruct strat; first [exact W'|exact Z'].
Qed.
Lemma rank_product_enough ts : enough (max_tap_ranges order ts) = rank_product ts order.
Proof.
  clear. unfold max_tap_ranges. induction order as [|rgs l IH]; [reflexivity|].
  cbn [map rank_product]. rewrite enough_cons, IH. unfold widest, tap_range. lia.
Qed.

(** * Which taps are tried *)
Definition regulates (i : nat) : Prop := exists rg, In rg (concat order) /\ rg_trafo rg = i.
(** [ts'] is [ts] with other positions for regulated transformers *)
Definition variant (ts ts' : list tap) : Prop :=
  length ts' = length ts /\
  forall i t, nth_error ts i = Some t -> exists t', nth_error ts' i = Some t' /\ same_range t t' /\ usable t' /\ (regulates i \/ t' = t).
Lemma variant_refl ts : Forall usable ts -> variant ts ts.
Proof.
  intros H. split; [reflexivity|]. intros i t E. exists t. refine (conj E (conj _ (conj _ _))); [split; reflexivity| |right; reflexivity].
  rewrite Forall_forall in H. apply H. apply (nth_error_In _ _ E).
Qed.
Lemma set_tap_usable t p : usable t -> usable (fst (set_tap t p)) /\ same_range t (fst (set_tap t p)).
Proof.
  intros (H1 & H2 & H3). unfold set_tap. destruct ((p =? na_IntS) || (p =? tap_pos t))%Z%bool; cbn [fst].
  - split; [split; [|split]; auto|split; reflexivity].
  - split; [|split; reflexivity]. split; [exact H1|]. split; [exact H2|]. cbn [tap_min tap_max tap_pos]. unfold tap_limit. lia.
Qed.
Lemma variant_update ts ts' u : variant ts ts' -> regulates (fst u) -> variant ts (apply_update ts' u).
Proof.
  intros [L H] Hr. unfold apply_update. destruct (nth_error ts' (fst u)) as [t0|] eqn:E0; [|split; assumption].
  assert (Hlt : fst u < length ts') by (apply nth_error_Some; congruence).
  split; [rewrite upd_length; exact L|]. intros i t E. destruct (H i t E) as (t' & E' & S' & U' & R').
  destruct (Nat.eq_dec i (fst u)) as [->|Hi].
  - rewrite E0 in E'. injection E' as ->. exists (fst (set_tap t' (snd u))). rewrite nth_error_upd_eq by exact Hlt.
    destruct (set_tap_usable t' (snd u) U') as [A B]. refine (conj eq_refl (conj _ (conj A (or_introl Hr)))).
    destruct S' as [S1 S2], B as [B1 B2]. split; congruence.
  - exists t'. rewrite nth_error_upd_neq by auto. auto.
Qed.
Lemma variant_updates ts us ts' : variant ts ts' -> Forall (fun u => regulates (fst u)) us -> variant ts (update_state ts' us).
Proof.
  intros H Hu. unfold update_state. revert ts' H. induction Hu as [|u us Hu1 Hu IH]; intros ts' H; [exact H|].
  cbn [fold_left]. apply IH. apply variant_update; assumption.
Qed.

Lemma adjust_keys search r ts i j rg bss us bss' c us' : In rg (concat order) -> Forall (fun u => regulates (fst u)) us ->
  adjust_transformer leb voltage band strat search r ts i j rg bss us = (bss', Ok (c, us')) -> Forall (fun u => regulates (fst u)) us'.
Proof.
  intros Hin Hu. assert (Hrg : regulates (rg_trafo rg)) by (exists rg; auto).
  assert (Hs : forall p, Forall (fun u => regulates (fst u)) (us ++ [(rg_trafo rg, p)])).
  { intros p. apply Forall_app. split; [exact Hu|]. constructor; [exact Hrg|constructor]. }
  unfold adjust_transformer. destruct search.
  - unfold adjust_transformer_scan. cbv zeta. repeat match goal with |- context [if ?c then _ else _] => destruct c end; intros E; injection E as <- <- <-; auto.
  - destruct (adjust_transformer_bs leb voltage band strat r ts rg (bs_at bss i j) us) as [b o] eqn:E. intros X; injection X as <- ->.
    unfold adjust_transformer_bs in E. cbv zeta in E.
    destruct (negb (rg_connected rg)); [injection E as <- <- <-; auto|].
    destruct (bs_end (bs_at bss i j) || bs_inevitable (bs_at bss i j)); [injection E as <- <- <-; auto|].
    match type of E with context [bs_current ?x] => set (b1 := x) in E end.
    destruct (negb (bs_current b1 =? tap_pos (tap_at ts rg))%Z); [injection E as <- <- <-; auto|].
    destruct (strategy_is_fast_any strat && is_eq (compare_state leb voltage band r rg)); [injection E as <- <- <-; auto|].
    destruct (bs_repropose_tap (strategy_is_max strat) (bs_last_down b1) (bs_recalibrate (strategy_is_max strat) b1)) as [[b2 p] ch].
    match type of E with context [if ?c then _ else _] => destruct c end; [discriminate|]. injection E as <- <- <-; auto.
Qed.
Lemma adjust_rank_keys search r ts i j rgs bss c us bss' c' us' : incl rgs (concat order) -> Forall (fun u => regulates (fst u)) us ->
  adjust_rank search r ts i j rgs bss c us = (bss', Ok (c', us')) -> Forall (fun u => regulates (fst u)) us'.
Proof.
  revert j bss c us. induction rgs as [|rg rgs IH]; intros j bss c us Hin Hu; cbn [TapSearch.adjust_rank]; [intros E; injection E as <- <- <-; exact Hu|].
  destruct (adjust_transformer leb voltage band strat search r ts i j rg bss us) as [b [[ch u]|e]] eqn:E; [|discriminate].
  intros E'. apply (IH _ _ _ _ (fun x Hx => Hin x (or_intror Hx)) (adjust_keys _ _ _ _ _ _ _ _ _ _ _ (Hin rg (or_introl eq_refl)) Hu E) E').
Qed.
Lemma iterate_ranks_keys search r ts ranks i bss us bss' k us' : incl (concat ranks) (concat order) -> Forall (fun u => regulates (fst u)) us ->
  iterate_ranks search r ts i ranks bss us = (bss', Ok (k, us')) -> Forall (fun u => regulates (fst u)) us'.
Proof.
  revert i bss us. induction ranks as [|rgs ranks IH]; intros i bss us Hin Hu; cbn [TapSearch.iterate_ranks]; [intros E; injection E as <- <- <-; exact Hu|].
  cbn [concat] in Hin.
  destruct (adjust_rank search r ts i 0 rgs bss false us) as [b [[[|] u]|e]] eqn:A; intros E; try discriminate.
  - injection E as <- <- <-. apply (adjust_rank_keys _ _ _ _ _ _ _ _ _ _ _ _ (fun x Hx => Hin x (in_or_app _ _ _ (or_introl Hx))) Hu A).
  - apply (IH _ _ _ (fun x Hx => Hin x (in_or_app _ _ _ (or_intror Hx))) (adjust_rank_keys _ _ _ _ _ _ _ _ _ _ _ _ (fun x Hx => Hin x (in_or_app _ _ _ (or_introl Hx))) Hu A) E).
Qed.

(** all taps are variants of the first ones *)
Definition inv (ts : list tap) (s : opt_state (World := World)) : Prop := variant ts (os_taps s) /\ Forall (variant ts) (os_tried s).
Lemma inv_loop ts m search ranges fuel counts r s : inv ts s -> inv ts (fst (iterate_loop fuel m search ranges counts r s)).
Proof.
  revert counts r s. induction fuel as [|fuel IH]; intros counts r s [H1 H2]; cbn [TapSearch.iterate_loop]; [split; assumption|].
  destruct (iterate_ranks search r (os_taps s) 0 order (os_bs s) []) as [bss [[[k|] us]|e]] eqn:E; [|split; assumption|split; assumption].
  pose proof (variant_updates ts us (os_taps s) H1 (iterate_ranks_keys _ _ _ _ _ _ _ _ _ _ (incl_refl _) (Forall_nil _) E)) as Hv.
  destruct (2 * nth k ranges 0 <? nth k (count_iteration k counts) 0); [split; assumption|].
  unfold TapSearch.run_calculation. cbn [os_world os_taps os_bs os_tried].
  assert (Hf : Forall (variant ts) (os_tried s ++ [update_state (os_taps s) us])) by (apply Forall_app; split; [exact H2|constructor; [exact Hv|constructor]]).
  destruct (calculate (os_world s) (update_state (os_taps s) us) m) as [w [r'|e]].
  - apply IH. split; assumption.
  - split; assumption.
Qed.
Lemma inv_iterate ts m search ranges s : inv ts s -> inv ts (fst (iterate m search ranges s)).
Proof.
  intros [H1 H2]. unfold TapSearch.iterate, TapSearch.run_calculation.
  assert (Hf : Forall (variant ts) (os_tried s ++ [os_taps s])) by (apply Forall_app; split; [exact H2|constructor; [exact H1|constructor]]).
  destruct (calculate (os_world s) (os_taps s) m) as [w [r|e]]; [apply inv_loop|]; split; assumption.
Qed.
Lemma inv_fallback ts search ranges s : inv ts s -> inv ts (fst (iterate_with_fallback search ranges s)).
Proof.
  intros H. unfold TapSearch.iterate_with_fallback.
  assert (F : forall s1, inv ts s1 -> inv ts (fst (match iterate LinearMethod search ranges s1 with
      | (s2, Finished _) => iterate Requested search ranges s2
      | (s2, Thrown e) => (s2, Thrown e)
      | (s2, OutOfFuel) => (s2, OutOfFuel)
      end))).
  { intros s1 H1. pose proof (inv_iterate ts LinearMethod search ranges s1 H1) as H2.
    destruct (iterate LinearMethod search ranges s1) as [s2 [r2|e2|]]; cbn [fst] in *; [apply inv_iterate|..]; exact H2. }
  pose proof (inv_iterate ts Requested search ranges s H) as H1.
  destruct (iterate Requested search ranges s) as [s1 [r|e|]]; cbn [fst] in *; [exact H1| |exact H1].
  destruct e; try exact H1; apply F; exact H1.
Qed.
Lemma inv_regulate ts f ts' : variant ts ts' -> variant ts (regulate_transformers order f ts').
Proof.
  intros H. apply variant_updates; [exact H|]. apply Forall_forall. intros u Hu. apply in_map_iff in Hu. destruct Hu as (rg & <- & Hr). exists rg. auto.
Qed.
Lemma inv_pilot ts s : inv ts s -> inv ts (pilot_run strat order s).
Proof.
  intros [H1 H2]. split; [|exact H2]. unfold pilot_run. cbv zeta. cbn [os_taps].
  destruct (strategy_is_max strat); [apply inv_regulate; exact H1|]. destruct (strategy_is_min strat); [apply inv_regulate; exact H1|exact H1].
Qed.
Lemma inv_exploit ts s : inv ts s -> inv ts (exploit_neighborhood strat order s).
Proof.
  intros [H1 H2]. split; [|exact H2]. unfold exploit_neighborhood. cbv zeta. cbn [os_taps].
  destruct (strategy_is_max strat); [apply inv_regulate; exact H1|]. destruct (strategy_is_min strat); [apply inv_regulate; exact H1|exact H1].
Qed.
Lemma inv_inner ts ranges s : inv ts s -> inv ts (fst (optimize_inner leb calculate voltage band strat order ranges s)).
Proof.
  intros H. unfold optimize_inner.
  pose proof (inv_fallback ts (search_of strat) ranges _ (inv_pilot ts s H)) as H1.
  destruct (iterate_with_fallback (search_of strat) ranges (pilot_run strat order s)) as [s1 [r|e|]]; cbn [fst] in *; [|exact H1|exact H1].
  pose proof (inv_fallback ts LinearSearch ranges _ (inv_exploit ts s1 H1)) as H2.
  assert (P : forall p : opt_state (World := World) * outcome Result, inv ts (fst p) -> inv ts (fst (produce order p))) by (intros [s' [a|e|]] Hp; exact Hp).
  destruct strat; first [apply P; exact H1|apply P; exact H2].
Qed.

(** * Restoring *)
Lemma restore_one ts ts' k t : variant ts ts' -> nth_error ts k = Some t -> usable t ->
  apply_update ts' (k, set_if_int (tap_pos t) (tap_pos t)) = upd k t ts'.
Proof.
  intros [L H] E U. destruct (H k t E) as (t' & E' & [S1 S2] & _). unfold apply_update. cbn [fst snd]. rewrite E'. f_equal.
  destruct t as [p mn mx], t' as [p' mn' mx']. cbn [tap_min tap_max tap_pos] in *. subst mn' mx'. destruct U as (U1 & U2 & U3). cbn [tap_min tap_max tap_pos] in *.
  unfold set_tap, set_if_int, na_IntS. cbn [tap_min tap_max tap_pos].
  destruct (p =? -128)%Z eqn:P; [lia|]. rewrite P. cbn [orb]. destruct (p =? p')%Z eqn:Q; cbn [fst].
  - apply Z.eqb_eq in Q. subst. reflexivity.
  - unfold tap_limit. f_equal. lia.
Qed.
Lemma list_ext {A} (l m : list A) : length l = length m -> (forall i x, nth_error m i = Some x -> nth_error l i = Some x) -> l = m.
Proof.
  revert m. induction l as [|a l IH]; intros [|b m] L H; try discriminate; [reflexivity|].
  f_equal.
  - specialize (H 0 b eq_refl). cbn in H. congruence.
  - apply IH; [cbn in L; congruence|]. intros i x E. apply (H (S i) x E).
Qed.
Lemma restore_all ts us ts' : Forall usable ts -> variant ts ts' ->
  (forall u, In u us -> regulates (fst u) /\ exists t, nth_error ts (fst u) = Some t /\ snd u = set_if_int (tap_pos t) (tap_pos t)) ->
  forall i t, nth_error ts i = Some t ->
  nth_error (update_state ts' us) i = (if in_dec Nat.eq_dec i (map fst us) then Some t else nth_error ts' i).
Proof.
  intros Ho. revert ts'. induction us as [|[k p] us IH]; intros ts' Hv Hu i t E; [reflexivity|].
  destruct (Hu (k, p) (or_introl eq_refl)) as (Hr & t0 & E0 & P0). cbn [fst snd] in *.
  assert (Hv1 : variant ts (apply_update ts' (k, p))) by (apply variant_update; assumption).
  unfold update_state in *. cbn [fold_left]. rewrite (IH _ Hv1 (fun u Hin => Hu u (or_intror Hin)) i t E).
  cbn [map fst].
  assert (U0 : usable t0) by (rewrite Forall_forall in Ho; apply Ho, (nth_error_In _ _ E0)).
  assert (Lt : k < length ts') by (destruct Hv as [-> _]; apply nth_error_Some; congruence).
  destruct (in_dec Nat.eq_dec i (map fst us)) as [Hin|Hin], (in_dec Nat.eq_dec i (k :: map fst us)) as [Hin'|Hin']; cbn [In] in *; try reflexivity; try (exfalso; tauto).
  - destruct Hin' as [<-|]; [|tauto]. rewrite P0, (restore_one ts ts' k t0 Hv E0 U0), nth_error_upd_eq by exact Lt. congruence.
  - rewrite P0, (restore_one ts ts' k t0 Hv E0 U0), nth_error_upd_neq; [reflexivity|]. intros ->. tauto.
Qed.
Lemma restored ts ts' : Forall usable ts -> known order ts -> variant ts ts' -> update_state ts' (cache_states order ts) = ts.
Proof.
  intros Ho Hk Hv. pose proof Hv as [L H].
  assert (Hc : forall u, In u (cache_states order ts) -> regulates (fst u) /\ exists t, nth_error ts (fst u) = Some t /\ snd u = set_if_int (tap_pos t) (tap_pos t)).
  { intros u Hu. unfold cache_states in Hu. apply in_map_iff in Hu. destruct Hu as (rg & <- & Hr). cbn [fst snd]. split; [exists rg; auto|].
    apply in_concat in Hr. destruct Hr as (rgs & Hg & Hr). pose proof (Hk rgs rg Hg Hr) as Lt. exists (tap_at ts rg). split; [|reflexivity].
    apply nth_error_nth'. exact Lt. }
  assert (Hf : Forall (fun u => regulates (fst u)) (cache_states order ts)) by (apply Forall_forall; intros u Hu; apply Hc; exact Hu).
  destruct (variant_updates ts _ ts' Hv Hf) as [L' _]. apply list_ext; [exact L'|].
  intros i t E. rewrite (restore_all ts _ ts' Ho Hv Hc i t E). destruct (in_dec Nat.eq_dec i (map fst (cache_states order ts))) as [_|N]; [reflexivity|].
  destruct (H i t E) as (t' & E' & _ & _ & [(rg & Hr & Hi)|Ht]); [|rewrite <- Ht; exact E'].
  exfalso. apply N. unfold cache_states. rewrite map_map. apply in_map_iff. exists rg. auto.
Qed.

(** * The result *)
Definition calculated (m : calc_method) (ts : list tap) (r : Result) : Prop := exists w w', calculate w ts m = (w', Ok r).
Lemma loop_result m search ranges fuel counts r s s' r' : calculated m (os_taps s) r ->
  iterate_loop fuel m search ranges counts r s = (s', Finished r') ->
  calculated m (os_taps s') r' /\ exists bss bss' us, iterate_ranks search r' (os_taps s') 0 order bss [] = (bss', Ok (None, us)).
Proof.
  revert counts r s. induction fuel as [|fuel IH]; intros counts r s Hc; cbn [TapSearch.iterate_loop]; [discriminate|].
  destruct (iterate_ranks search r (os_taps s) 0 order (os_bs s) []) as [bss [[[k|] us]|e]] eqn:E; [| |discriminate].
  - destruct (2 * nth k ranges 0 <? nth k (count_iteration k counts) 0); [discriminate|].
    unfold TapSearch.run_calculation. cbn [os_world os_taps os_bs os_tried].
    destruct (calculate (os_world s) (update_state (os_taps s) us) m) as [w [r1|e]] eqn:C; [|discriminate].
    apply IH. cbn [os_taps]. exists (os_world s), w. exact C.
  - intros X; injection X as <- <-. cbn [os_taps]. split; [exact Hc|]. exists (os_bs s), bss, us. exact E.
Qed.
Lemma iterate_result m search ranges s s' r' : iterate m search ranges s = (s', Finished r') ->
  calculated m (os_taps s') r' /\ exists bss bss' us, iterate_ranks search r' (os_taps s') 0 order bss [] = (bss', Ok (None, us)).
Proof.
  unfold TapSearch.iterate, TapSearch.run_calculation. destruct (calculate (os_world s) (os_taps s) m) as [w [r|e]] eqn:C; [|discriminate].
  apply loop_result. cbn [os_taps]. exists (os_world s), w. exact C.
Qed.
Lemma fallback_result search ranges s s' r' : iterate_with_fallback search ranges s = (s', Finished r') ->
  calculated Requested (os_taps s') r' /\ exists bss bss' us, iterate_ranks search r' (os_taps s') 0 order bss [] = (bss', Ok (None, us)).
Proof.
  unfold TapSearch.iterate_with_fallback. destruct (iterate Requested search ranges s) as [s1 [r|e|]] eqn:E; [| |discriminate].
  - intros X; injection X as <- <-. apply (iterate_result _ _ _ _ _ _ E).
  - assert (F : match iterate LinearMethod search ranges s1 with
      | (s2, Finished _) => iterate Requested search ranges s2
      | (s2, Thrown e) => (s2, Thrown e)
      | (s2, OutOfFuel) => (s2, OutOfFuel)
      end = (s', Finished r') -> calculated Requested (os_taps s') r' /\ exists bss bss' us, iterate_ranks search r' (os_taps s') 0 order bss [] = (bss', Ok (None, us))).
    { destruct (iterate LinearMethod search ranges s1) as [s2 [r2|e2|]]; try discriminate. apply iterate_result. }
    destruct e; try discriminate; exact F.
Qed.
(** a pass of the linear search that changes nothing *)
Lemma rank_quiet r ts i j rgs bss c us bss' us' : adjust_rank LinearSearch r ts i j rgs bss c us = (bss', Ok (false, us')) ->
  c = false /\ forall rg, In rg rgs -> fst (adjust_transformer_scan leb voltage band r ts rg []) = false.
Proof.
  assert (Indep : forall rg us, fst (adjust_transformer_scan leb voltage band r ts rg us) = fst (adjust_transformer_scan leb voltage band r ts rg [])).
  { intros rg u. unfold adjust_transformer_scan. cbv zeta. repeat match goal with |- context [if ?c then _ else _] => destruct c end; reflexivity. }
  revert j bss c us. induction rgs as [|rg rgs IH]; intros j bss c us; cbn [TapSearch.adjust_rank adjust_transformer].
  - intros E; injection E as _ -> _. split; [reflexivity|]. intros rg [].
  - destruct (adjust_transformer_scan leb voltage band r ts rg us) as [ch u] eqn:A. intros E. destruct (IH _ _ _ _ E) as [Hc Hr].
    apply orb_false_iff in Hc. destruct Hc as [Hc ->]. split; [reflexivity|]. intros rg' [<-|Hin]; [|apply Hr; exact Hin].
    rewrite <- (Indep rg us), A. exact Hc.
Qed.
Lemma pass_quiet r ts ranks i bss us bss' us' : iterate_ranks LinearSearch r ts i ranks bss us = (bss', Ok (None, us')) ->
  forall rg, In rg (concat ranks) -> fst (adjust_transformer_scan leb voltage band r ts rg []) = false.
Proof.
  revert i bss us. induction ranks as [|rgs ranks IH]; intros i bss us; cbn [TapSearch.iterate_ranks concat]; [intros _ rg []|].
  destruct (adjust_rank LinearSearch r ts i 0 rgs bss false us) as [b [[[|] u]|e]] eqn:A; intros E rg Hin; try discriminate.
  apply in_app_or in Hin. destruct Hin as [Hin|Hin]; [apply (proj2 (rank_quiet _ _ _ _ _ _ _ _ _ _ A) rg Hin)|apply (IH _ _ _ E rg Hin)].
Qed.
Lemma compare_band_spec (laws : order_laws leb) v b : is_number leb v -> is_number leb (fst b) -> is_number leb (snd b) -> leb (fst b) (snd b) = true ->
  match compare_band leb v (fst b) (snd b) with
  | Less => below leb v b | Greater => above leb v b | Equivalent => in_band leb v b | Unordered => False
  end.
Proof.
  intros Nv Nl Nu Hlu. unfold compare_band, compare, below, above, in_band.
  destruct (ol_total leb laws v (fst b) Nv Nl) as [A|A], (ol_total leb laws v (snd b) Nv Nu) as [B|B]; rewrite A, B;
  destruct (leb (fst b) v) eqn:C; try discriminate; destruct (leb v (fst b)) eqn:C2; try discriminate; destruct (leb (snd b) v) eqn:E; destruct (leb v (snd b)) eqn:F; cbn [ordering_eqb]; try discriminate; auto;
  try (pose proof (ol_trans leb laws _ _ _ Hlu E); congruence);
  try (pose proof (ol_trans leb laws _ _ _ C2 Hlu); congruence);
  try (pose proof (ol_trans leb laws _ _ _ C Hlu); congruence).
Qed.
Lemma scan_acceptable (laws : order_laws leb) r ts rg : usable (tap_at ts rg) -> rg_connected rg = true ->
  is_number leb (voltage r rg) -> is_number leb (fst (band rg)) -> is_number leb (snd (band rg)) -> leb (fst (band rg)) (snd (band rg)) = true ->
  fst (adjust_transformer_scan leb voltage band r ts rg []) = false -> acceptable leb (voltage r rg) (band rg) (tap_at ts rg) (rg_at_tap rg).
Proof.
  intros U Hc Nv Nl Nu Hb. unfold adjust_transformer_scan. rewrite Hc. cbn [negb]. cbv zeta.
  pose proof (compare_band_spec laws _ _ Nv Nl Nu Hb) as S. unfold compare_state.
  destruct (compare_band leb (voltage r rg) (fst (band rg)) (snd (band rg))); cbn [is_gt is_lt]; [|intros _; left; exact S| |destruct S];
  match goal with |- context [(?x =? ?y)%Z] => destruct (x =? y)%Z eqn:Q end; cbn [fst]; try discriminate; intros _; right.
  - left. split; [exact S|]. apply Z.eqb_eq in Q. revert Q. unfold one_step_control_voltage_up, top, one_step_tap_up, one_step_tap_down.
    destruct (rg_at_tap rg); match goal with |- context [(?x =? ?y)%Z] => destruct (x =? y)%Z eqn:Q2 end; try lia; destruct (tap_min (tap_at ts rg) <? tap_max (tap_at ts rg))%Z; lia.
  - right. split; [exact S|]. apply Z.eqb_eq in Q. revert Q. unfold one_step_control_voltage_down, bottom, one_step_tap_up, one_step_tap_down.
    destruct (rg_at_tap rg); match goal with |- context [(?x =? ?y)%Z] => destruct (x =? y)%Z eqn:Q2 end; try lia; destruct (tap_min (tap_at ts rg) <? tap_max (tap_at ts rg))%Z; lia.
Qed.
End Facts.
