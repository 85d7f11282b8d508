(** C31: the order in which the regulated transformers are visited. *)
From Verif Require Import Common NatMap TapRank TapRankSpec TapRankFacts.

(** The groups hold every transformer that has a rank exactly once, those with equal rank together, and are ordered by rank. *)
Definition ordered_by_rank (g : grid) (gs : list (list (bool * nat))) : Prop :=
  NoDup (concat gs) /\ ~ In [] gs /\ (forall i, In i (concat gs) <-> exists r, ranked g i r) /\
  forall p q gp gq i j r s, nth_error gs p = Some gp -> nth_error gs q = Some gq -> In i gp -> In j gq -> ranked g i r -> ranked g j s -> (p < q <-> rank_lt r s = true) /\ (p = q <-> r = s).
Theorem C31_ranking g sort : well_formed g -> sources_agree g -> sorts sort ->
  (exists gs, rank_transformers sort g = Groups gs /\ ordered_by_rank g gs /\ forall i a b, passes g a b (Some i) -> fed g b -> fed g a) \/
  (exists ids, rank_transformers sort g = Refused ids /\ ids <> [] /\ forall id, In id ids <-> exists i a b, passes g a b (Some i) /\ id_of g i = Some id /\ fed g b /\ ~ fed g a).
Proof.
  intros W SA So. unfold rank_transformers, get_edge_weights. destruct (grid_distances g W SA) as [d [E Hd]]. rewrite E.
  pose proof (wrong_in g W SA d Hd) as Wr. destruct (flat_map (wrong_side d) (graph_edges (n_nodes g) (all_edges g))) as [|id ids] eqn:Ew.
  - left. set (l := flat_map (weigh d) (graph_edges (n_nodes g) (all_edges g))). assert (Hl : forall r i, In (r, i) l <-> ranked g i r) by (intros; apply weigh_in; assumption).
    eexists. refine (conj eq_refl (conj _ _)).
    + destruct (groups_ok sort l So) as [ks [L [D [In_g All]]]]. set (gs := rank_groups sort l) in *. clearbody gs.
      assert (Kp : forall p gp, nth_error gs p = Some gp -> exists k, nth_error ks p = Some k).
      { intros p gp H. destruct (nth_error ks p) as [k|] eqn:Ek; [eauto|]. apply nth_error_None in Ek. assert (p < length gs) by (apply nth_error_Some; congruence). lia. }
      assert (Gp : forall p k, nth_error ks p = Some k -> exists gp, nth_error gs p = Some gp).
      { intros p k H. destruct (nth_error gs p) as [gp|] eqn:Ek; [eauto|]. apply nth_error_None in Ek. assert (p < length ks) by (apply nth_error_Some; congruence). lia. }
      assert (Key : forall p gp i r, nth_error gs p = Some gp -> In i gp -> ranked g i r -> nth_error ks p = Some r).
      { intros p gp i r H Hi R. destruct (Kp p gp H) as [k Ek]. destruct (In_g p k gp Ek H) as [_ [_ C]]. apply C in Hi. apply Hl in Hi. rewrite Ek. f_equal. eapply ranked_unique; eassumption. }
      assert (Mono : forall p q r s, nth_error ks p = Some r -> nth_error ks q = Some s -> p < q -> rank_lt r s = true).
      { clear - D. induction D as [|k ks D IH F]; intros p q r s Ep Eq Hpq; [destruct p; discriminate|]. destruct q as [|q]; [lia|]. cbn in Eq. destruct p as [|p]; cbn in Ep; [inversion Ep; subst; rewrite Forall_forall in F; eapply F, nth_error_In; eassumption|]. eapply IH; [eassumption..|lia]. }
      assert (Ord : forall p q r s, nth_error ks p = Some r -> nth_error ks q = Some s -> (p < q <-> rank_lt r s = true) /\ (p = q <-> r = s)).
      { intros p q r s Ep Eq. assert (p < q \/ p = q \/ q < p) as [H|[H|H]] by lia.
        - pose proof (Mono _ _ _ _ Ep Eq H) as M. split; [tauto|]. split; [lia|]. intros ->. rewrite rank_lt_irrefl in M. discriminate.
        - subst q. rewrite Ep in Eq. inversion Eq; subst. rewrite rank_lt_irrefl. split; [split; [lia|discriminate]|tauto].
        - pose proof (Mono _ _ _ _ Eq Ep H) as M. split; (split; [lia|]). + intros M'. pose proof (rank_lt_trans _ _ _ M M') as Q. rewrite rank_lt_irrefl in Q. discriminate. + intros ->. rewrite rank_lt_irrefl in M. discriminate. }
      refine (conj _ (conj _ (conj _ _))).
      * assert (Hn : forall p gp, nth_error gs p = Some gp -> NoDup gp) by (intros p gp H; destruct (Kp p gp H) as [k Ek]; now destruct (In_g p k gp Ek H)).
        assert (Hx : forall p q gp gq i, nth_error gs p = Some gp -> nth_error gs q = Some gq -> In i gp -> In i gq -> p = q).
        { intros p q gp gq i Hp Hq Ip Iq. destruct (Kp p gp Hp) as [k Ek]. destruct (In_g p k gp Ek Hp) as [_ [_ C]]. apply C, Hl in Ip. pose proof (Key q gq i k Hq Iq Ip) as Eq. now apply (proj2 (Ord _ _ _ _ Ek Eq)). }
        clear - Hn Hx. induction gs as [|x gs IH]; cbn; [constructor|]. apply NoDup_app2.
        -- exact (Hn 0 x eq_refl).
        -- apply IH; [intros p gp H; exact (Hn (S p) gp H)|]. intros p q gp gq i Hp Hq Ip Iq. pose proof (Hx (S p) (S q) gp gq i Hp Hq Ip Iq). lia.
        -- intros i Ix Ic. apply in_concat in Ic. destruct Ic as [y [Hy Iy]]. apply In_nth_error in Hy. destruct Hy as [p Hp]. pose proof (Hx 0 (S p) x y i eq_refl Hp Ix Iy). lia.
      * intros H. apply In_nth_error in H. destruct H as [p Hp]. destruct (Kp p [] Hp) as [k Ek]. now destruct (In_g p k [] Ek Hp).
      * intros i. rewrite in_concat. split.
        -- intros [gp [H Hi]]. apply In_nth_error in H. destruct H as [p Hp]. destruct (Kp p gp Hp) as [k Ek]. destruct (In_g p k gp Ek Hp) as [_ [_ C]]. exists k. now apply Hl, C.
        -- intros [r R]. apply Hl in R. pose proof (All r i R) as Hk. apply In_nth_error in Hk. destruct Hk as [p Ep]. destruct (Gp p r Ep) as [gp Hp]. exists gp. split; [eapply nth_error_In; eassumption|]. now apply (In_g p r gp Ep Hp).
      * intros p q gp gq i j r s Hp Hq Ip Iq Ri Rj. apply Ord; eapply Key; eassumption.
    + intros i a b P Fb. destruct (grid_distances g W SA) as [d' [_ Hd']]. specialize (Hd' a). destruct (dist d' a) as [k|]; [destruct Hd'; eexists; eassumption|]. exfalso.
      destruct (edges_complete g W _ _ _ P) as [e [_ [_ [_ [_ [_ Id]]]]]]. apply (Wr (e_id e)). exists i, a, b. auto.
  - right. exists (id :: ids). refine (conj eq_refl (conj _ Wr)). discriminate.
Qed.
(** What has a rank: a regulated transformer that is supplied from the side that it does not control. *)
Theorem C31_supplied_is_ranked g i a b : well_formed g -> sources_agree g -> passes g a b (Some i) -> fed g a -> exists r, ranked g i r.
Proof.
  intros W SA P [k0 F]. destruct (grid_distances g W SA) as [d [_ Hd]]. pose proof (Hd a) as Ha. destruct (dist d a) as [k|]; [|destruct Ha; eexists; eassumption].
  destruct (passes_le g W SA _ _ _ _ P Ha) as [k' [Hb _]]. destruct (Nat.eq_dec k' (k + 1)) as [->|N]; [exists (At (k + 1)); eapply r_at; eassumption|exists Last; eapply r_last; eassumption].
Qed.
(** A transformer has one rank only, although a three-winding transformer passes the supply to two sides. *)
Theorem C31_one_rank g i r r' : well_formed g -> sources_agree g -> ranked g i r -> ranked g i r' -> r = r'.
Proof. intros W SA. now apply ranked_unique. Qed.
(** A transformer with the rank [At k] has the controlled side behind [k] regulated transformers at least, and behind [k] on some path that ends with it. *)
Theorem C31_rank_is_distance g i k : ranked g i (At k) -> exists a b, passes g a b (Some i) /\ path g a (k - 1) /\ distance g b k /\ 1 <= k.
Proof. intros R. inversion R as [a b k0 P D E Q|]; subst. exists a, b. replace (k0 + 1 - 1) with k0 by lia. refine (conj P (conj (proj1 D) (conj E _))). lia. Qed.

(** ** Cases that meet the hypotheses *)
Fixpoint put (x : rank * (bool * nat)) (l : list (rank * (bool * nat))) : list (rank * (bool * nat)) :=
  match l with [] => [x] | y :: r => if rank_lt (fst y) (fst x) then y :: put x r else x :: l end.
Definition insertion_sort (l : list (rank * (bool * nat))) := fold_right put [] l.
Lemma put_perm x l : Permutation (x :: l) (put x l).
Proof. induction l as [|y l IH]; cbn; [reflexivity|]. destruct (rank_lt (fst y) (fst x)); [|reflexivity]. eapply perm_trans; [apply perm_swap|]. now apply perm_skip. Qed.
Lemma rank_ge_trans a b c : rank_lt b a = false -> rank_lt c b = false -> rank_lt c a = false.
Proof. destruct a, b, c; cbn [rank_lt]; try discriminate; auto. intros. lia. Qed.
Example insertion_sorts : sorts insertion_sort.
Proof.
  intros l. induction l as [|x l [P S]]; cbn [insertion_sort fold_right]; [split; constructor|]. fold (insertion_sort l). split; [eapply perm_trans; [apply perm_skip; exact P|apply put_perm]|].
  clear P. induction S as [|y r S IH F]; cbn [put]; [repeat constructor|]. destruct (rank_lt (fst y) (fst x)) eqn:E.
  - constructor; [assumption|]. rewrite Forall_forall in *. intros z Hz. apply (Permutation_in _ (Permutation_sym (put_perm x r))) in Hz. destruct Hz as [<-|Hz]; [|now apply F].
    destruct (fst y), (fst x); cbn [rank_lt] in *; try discriminate; auto; lia.
  - constructor; [now constructor|]. constructor; [assumption|]. rewrite Forall_forall in *. intros z Hz. eapply rank_ge_trans; [exact E|]. now apply F.
Qed.
(** Source at node 0; the regulated transformers 10 (0 to 1), 11 (1 to 2), 12 (1 to 3) and 13 (2 to 3), a three-winding transformer 20 with the tap at the first side (0 to 4 and 5), a line from 5 to 6. *)
Definition ex_trafo id a b : trafo := mkTrafo id a b true true.
Definition ex_reg br id s : regulator := mkReg id br true s.
Definition ex_grid : grid := mkGrid 7 [ex_trafo 10 0 1; ex_trafo 11 1 2; ex_trafo 12 1 3; ex_trafo 13 2 3]
  [mkTrafo3 20 (fun s => match s with 0 => 0 | 1 => 4 | _ => 5 end) (fun _ => true) 0] [mkLine 5 6 true true] [] [] [] [mkSource 0 true]
  [ex_reg true 10 1; ex_reg true 11 1; ex_reg true 12 1; ex_reg true 13 1; ex_reg false 20 1].
Example ex_grid_ok : well_formed ex_grid /\ sources_agree ex_grid.
Proof.
  split; [constructor|]; cbn.
  - intros t [<-|[<-|[<-|[<-|[]]]]]; cbn; lia.
  - intros u s [<-|[]]; cbn. destruct s as [|[|]]; lia.
  - intros u [<-|[]]; cbn; lia.
  - intros l [<-|[]]; cbn; lia.
  - intros s [<-|[]]; cbn; lia.
  - repeat constructor; cbn; lia.
  - intros r [<-|[<-|[<-|[<-|[<-|[]]]]]]; cbn; lia.
  - intros s s' [<-|[]] [<-|[]]; reflexivity.
Qed.
Example ex_groups : rank_transformers insertion_sort ex_grid = Groups [[(true, 0); (false, 0)]; [(true, 1); (true, 2)]; [(true, 3)]].
Proof. vm_compute. reflexivity. Qed.
(** Transformer 10 controls its supply side: refused. *)
Definition ex_backwards : grid := mkGrid 2 [ex_trafo 10 0 1] [] [] [] [] [] [mkSource 0 true] [ex_reg true 10 0].
Example ex_refused : rank_transformers insertion_sort ex_backwards = Refused [10].
Proof. vm_compute. reflexivity. Qed.

(** ** Refuted *)
(** A disabled source hides an enabled one at the same node: the supplied transformer is not visited. *)
Definition two_sources : grid := mkGrid 2 [ex_trafo 10 0 1] [] [] [] [] [] [mkSource 0 true; mkSource 0 false] [ex_reg true 10 1].
Theorem C31_second_source_refuted : ~ forall g sort i a b, well_formed g -> sorts sort -> passes g a b (Some i) -> fed g a -> exists gs gp, rank_transformers sort g = Groups gs /\ In gp gs /\ In i gp.
Proof.
  intros H. destruct (H two_sources insertion_sort (true, 0) 0 1) as [gs [gp [E [Hg _]]]].
  - constructor; cbn.
    + intros t [<-|[]]; cbn; lia. + intros u s []. + intros u []. + intros l []. + intros s [<-|[<-|[]]]; cbn; lia. + repeat constructor; cbn; tauto. + intros r [<-|[]]; cbn; lia.
  - exact insertion_sorts.
  - apply (p_regulated two_sources 0 (ex_trafo 10 0 1) 1 eq_refl eq_refl eq_refl). exists (ex_reg true 10 1). cbn. auto 10.
  - exists 0. apply (at_source two_sources (mkSource 0 true)); [cbn; auto|reflexivity].
  - vm_compute in E. inversion E; subst. destruct Hg.
Qed.
(** Supply through an asymmetric line or a generic branch is not seen. *)
Definition electrically (g : grid) (a b : nat) : Prop :=
  (exists r, passes g a b r) \/ exists l, In l (asym_lines g ++ generic_branches g) /\ l_from_on l = true /\ l_to_on l = true /\ ((a = l_from l /\ b = l_to l) \/ (a = l_to l /\ b = l_from l)).
Inductive supplied (g : grid) : nat -> Prop :=
  | s_source s : In s (sources g) -> s_on s = true -> supplied g (s_node s)
  | s_further a b : supplied g a -> electrically g a b -> supplied g b.
Definition through_asym_line : grid := mkGrid 3 [ex_trafo 10 1 2] [] [] [] [mkLine 0 1 true true] [] [mkSource 0 true] [ex_reg true 10 1].
Theorem C31_asym_line_refuted : ~ forall g sort i a b, well_formed g -> sources_agree g -> sorts sort -> passes g a b (Some i) -> supplied g a -> exists gs gp, rank_transformers sort g = Groups gs /\ In gp gs /\ In i gp.
Proof.
  intros H. destruct (H through_asym_line insertion_sort (true, 0) 1 2) as [gs [gp [E [Hg _]]]].
  - constructor; cbn.
    + intros t [<-|[]]; cbn; lia. + intros u s []. + intros u []. + intros l []. + intros s [<-|[]]; cbn; lia. + repeat constructor; cbn; tauto. + intros r [<-|[]]; cbn; lia.
  - intros s s' [<-|[]] [<-|[]]; reflexivity.
  - exact insertion_sorts.
  - apply (p_regulated through_asym_line 0 (ex_trafo 10 1 2) 1 eq_refl eq_refl eq_refl). exists (ex_reg true 10 1). cbn. auto 10.
  - apply (s_further _ 0 1); [apply (s_source through_asym_line (mkSource 0 true)); [cbn; auto|reflexivity]|]. right. exists (mkLine 0 1 true true). cbn. auto 10.
  - vm_compute in E. inversion E; subst. destruct Hg.
Qed.
(** A three-winding transformer whose controlled side is open is visited. *)
Definition open_control : grid := mkGrid 3 [] [mkTrafo3 20 (fun s => match s with 0 => 0 | 1 => 1 | _ => 2 end) (fun s => negb (s =? 1)) 0] [] [] [] [] [mkSource 0 true] [ex_reg false 20 1].
Theorem C31_open_control_refuted : ~ forall g sort gs gp i u s, well_formed g -> sources_agree g -> sorts sort -> rank_transformers sort g = Groups gs -> In gp gs -> In (false, i) gp ->
  nth_error (trafo3s g) i = Some u -> controlled g false (u_id u) s -> u_on u s = true.
Proof.
  intros H. assert (false = true); [|discriminate].
  refine (H open_control insertion_sort [[(false, 0)]] [(false, 0)] 0 _ 1 _ _ insertion_sorts eq_refl _ _ eq_refl _).
  - constructor; cbn.
    + intros t []. + intros u s [<-|[]]; cbn. destruct s as [|[|]]; lia. + intros u [<-|[]]; cbn; lia. + intros l []. + intros s [<-|[]]; cbn; lia. + repeat constructor; cbn; tauto. + intros r [<-|[]]; cbn; lia.
  - intros s s' [<-|[]] [<-|[]]; reflexivity.
  - now left.
  - now left.
  - exists (ex_reg false 20 1). cbn. auto 10.
Qed.

Print Assumptions C31_ranking.
Print Assumptions C31_supplied_is_ranked.
Print Assumptions C31_one_rank.
Print Assumptions C31_rank_is_distance.
Print Assumptions C31_second_source_refuted.
Print Assumptions C31_asym_line_refuted.
Print Assumptions C31_open_control_refuted.
