(** Property C11: batches with several dimensions. *)
From Verif Require Import Common Container ContainerProps Component ComponentFacts MainModel UpdateData UpdateProps CacheSpec CacheProps
  JobDispatch Batch BatchProps Handle MultiDim MultiDimSpec MultiDimFacts.
From Coq Require Import String.

(** For every number of dimensions, every size of each and every pattern of failures: position p of the results holds
    the result of combination p of the scenarios (scenario p / stride of the first dimension, combination p mod stride of
    the others), and is left as it was if combination p has no result. [Good]: models on which batches with one dimension
    do what C09 and C10 say, closed under updates. *)
Theorem C11_results : forall {M D R} size updated_copy (one_dim : D -> list R -> M -> option (list R * option thrown)) what scenario
    (Good : M -> Prop) d rest out m,
  one_dim_as_specified size scenario Good one_dim ->
  (forall d i m m', Good m -> i < size d -> updated_copy d i m = Some (m', None) -> Good m') ->
  (forall d i m, Good m -> i < size d -> updated_copy d i m <> None) ->
  Good m -> List.length out = combinations size (d :: rest) ->
  exists out' t, multi_dim size updated_copy one_dim what d rest out m = Some (out', t) /\
    filled (fun p => fst (combination size updated_copy what scenario d rest p m)) out out'.
Proof. intros M D R size uc od what sc Good d rest out m H1 HG HU HGm HL. exact (results_spec size uc od what sc Good H1 HG HU rest d out m HGm HL). Qed.

(** The report. If no update of an outer dimension throws, the combinations reported are exactly the failing ones among
    the last row, that is those with the last scenario in every dimension but the innermost one, with their own index
    and message. Partial: the failures of all other combinations are not reported (C11_failures_lost_refuted), and
    updates of outer dimensions that throw are reported wrongly (C11_wrong_index_refuted). *)
Theorem C11_report_partial : forall {M D R} size updated_copy (one_dim : D -> list R -> M -> option (list R * option thrown)) what scenario
    (Good : M -> Prop) d rest out m out' t,
  one_dim_as_specified size scenario Good one_dim ->
  (forall d i m m', Good m -> i < size d -> updated_copy d i m = Some (m', None) -> Good m') ->
  Good m -> List.length out = combinations size (d :: rest) -> outer_updates_ok size updated_copy d rest m ->
  multi_dim size updated_copy one_dim what d rest out m = Some (out', t) ->
  reports (filter (fun x => combinations size (d :: rest) - size (innermost d rest) <=? fst x)
             (failing (fun p => snd (combination size updated_copy what scenario d rest p m)) (combinations size (d :: rest)))) t.
Proof. intros M D R size uc od what sc Good d rest out m out' t H1 HG HGm HL HO HE. exact (report_spec size uc od what sc Good H1 HG rest d out m out' t HGm HL HO HE). Qed.

(** In particular a batch without failures is reported as such. *)
Corollary C11_no_failures : forall {M D R} size updated_copy (one_dim : D -> list R -> M -> option (list R * option thrown)) what scenario
    (Good : M -> Prop) d rest out m out' t,
  one_dim_as_specified size scenario Good one_dim ->
  (forall d i m m', Good m -> i < size d -> updated_copy d i m = Some (m', None) -> Good m') ->
  Good m -> List.length out = combinations size (d :: rest) -> outer_updates_ok size updated_copy d rest m ->
  (forall p, p < combinations size (d :: rest) -> snd (combination size updated_copy what scenario d rest p m) = None) ->
  multi_dim size updated_copy one_dim what d rest out m = Some (out', t) -> t = None.
Proof.
  intros M D R size uc od what sc Good d rest out m out' t H1 HG HGm HL HO HN HE.
  pose proof (C11_report_partial size uc od what sc Good d rest out m out' t H1 HG HGm HL HO HE) as H.
  replace (failing _ _) with (@nil (nat * string)) in H; [exact H|]. unfold failing. symmetry.
  rewrite flat_map_concat_map. rewrite (map_ext_in _ (fun _ => [])).
  - generalize (seq 0 (combinations size (d :: rest))). intros l. induction l; auto.
  - intros p Hp. apply in_seq in Hp. rewrite HN by lia. reflexivity.
Qed.

(** A case with three dimensions of sizes 2, 1 and 2 that meets the hypotheses: a model is the list of scenarios applied
    so far, and the last combination fails. *)
Section Demo.
Definition size_d (d : nat) := d.
Definition app_d (d i : nat) (m : list nat) : option (list nat * option exn) := Some (m ++ [i], None).
Definition scenario_d (d p : nat) (m : list nat) : option (list nat) * option string :=
  if (p =? 1) && (nth 0 m 0 =? 1) then (None, Some "bad"%string) else (Some (m ++ [p]), None).
Definition one_d (d : nat) (out : list (list nat)) (m : list nat) : option (list (list nat) * option thrown) :=
  let l := failing (fun p => snd (scenario_d d p m)) d in
  Some (map (fun po => match fst (scenario_d d (fst po) m) with Some r => r | None => snd po end) (combine (seq 0 d) out),
        match l with [] => None | _ => Some (BatchCalculationError "b" (map fst l) (map snd l)) end).
Lemma one_d_spec : one_dim_as_specified size_d scenario_d (fun _ => True) one_d.
Proof.
  intros d out m _ HL. unfold size_d in HL. do 2 eexists. split; [reflexivity|]. split; [split|].
  - rewrite map_length, combine_length, seq_length. lia.
  - intros p o Hp. assert (p < d) by (rewrite <- HL; apply nth_error_Some; congruence).
    assert (X : forall (l : list (list nat)) a k, List.length l = k -> forall q x, nth_error l q = Some x -> nth_error (combine (seq a k) l) q = Some (a + q, x)).
    { clear. induction l as [|y l IH]; intros a k HL q x Hq; [destruct q; discriminate|]. destruct k as [|k]; [discriminate|].
      destruct q as [|q]; [injection Hq as ->; simpl; now rewrite Nat.add_0_r|]. simpl in *. rewrite (IH (S a) k ltac:(lia) q x Hq).
      do 2 f_equal. lia. }
    rewrite nth_error_map, (X out 0 d HL p o Hp). reflexivity.
  - unfold size_d. destruct (failing _ d); [reflexivity|]. exists "b"%string. reflexivity.
Qed.
Example C11_demo :
  multi_dim size_d app_d one_d (fun _ => EmptyString) 2 [1; 2] (repeat [9] 4) [] =
    Some ([[0; 0; 0]; [0; 0; 1]; [1; 0; 0]; [9]], Some (BatchCalculationError "b" [3] ["bad"%string])) /\
  outer_updates_ok size_d app_d 2 [1; 2] [].
Proof. split; [reflexivity|]. intros i _. eexists. split; [reflexivity|]. intros k _. eexists. split; [reflexivity|exact I]. Qed.
End Demo.

(** ** Refutations with models *)

Local Existing Instance ZOps.

(** First dimension: the tap is moved to 5 or 4; second dimension: a line is opened, or an unknown line is addressed. *)
Definition outer_taps : upd_data (O := ZOps) := fun t =>
  match t return option (@records ZOps t) with
  | Transformer => Some [[(5, mkTransformerUpd (mkBranchUpd na_IntS na_IntS) 5)]; [(5, mkTransformerUpd (mkBranchUpd na_IntS na_IntS) 4)]]%Z
  | _ => None
  end.
Definition inner_lines : upd_data (O := ZOps) := fun t =>
  match t return option (@records ZOps t) with
  | Line => Some [[(4, mkBranchUpd 0 na_IntS)]; [(4, mkBranchUpd 1 na_IntS)]]%Z
  | _ => None
  end.
Definition inner_bad : upd_data (O := ZOps) := fun t =>
  match t return option (@records ZOps t) with
  | Line => Some [[(4, mkBranchUpd 0 na_IntS)]; [(99, mkBranchUpd 0 0)]]%Z
  | _ => None
  end.
(** scenario [k] of two addresses an unknown transformer *)
Definition outer_bad (k : nat) : upd_data (O := ZOps) := fun t =>
  match t return option (@records ZOps t) with
  | Transformer =>
      let good := [(5, mkTransformerUpd (mkBranchUpd na_IntS na_IntS) 5)]%Z in
      let bad := [(77, mkTransformerUpd (mkBranchUpd na_IntS na_IntS) 5)]%Z in
      Some (if k =? 0 then [bad; good] else [good; bad])
  | _ => None
  end.
Definition show_md (d1 d2 : upd_data (O := ZOps)) :=
  multi_dim_mm show_orc tell (fun _ => "batch"%string) (fun o => o) demo_container false 4 1 one_after_the_other (d1, 2) [(d2, 2)]
    (repeat no_result 4) (fresh_mm demo_comps).

(** Without failures all four combinations get the results of their own tap position and line. *)
Example C11_demo_model :
  match show_md outer_taps inner_lines with
  | Some ([r0; r1; r2; r3], None) =>
      map taps_used [r0; r1; r2; r3] =
        map (fun z => [([Some (KTrafo true true z)], [Some (KTrafo true true z)])]) [5; 5; 4; 4]%Z /\
      map (map (fun my : list (list (option pkey)) * list (list (option pkey)) => nth (ctype_idx Line) (snd my) [])) [r0; r1; r2; r3] =
        [[[Some (KBranch false false)]]; [[Some (KBranch true false)]]; [[Some (KBranch false false)]]; [[Some (KBranch true false)]]]
  | _ => False
  end.
Proof. vm_compute. repeat split. Qed.

(** C11 is refuted: combinations 1 and 3 fail (unknown line), but only 3 is reported. *)
Theorem C11_failures_lost_refuted :
  match show_md outer_taps inner_bad with
  | Some ([_; r1; _; r3], Some (BatchCalculationError _ f m)) => r1 = no_result /\ r3 = no_result /\ f = [3] /\ m = ["id not found"%string]
  | _ => False
  end.
Proof. vm_compute. repeat split. Qed.
(** Even the whole failure is lost: the update of the first scenario of the first dimension throws, no combination of
    it is calculated, and the call succeeds without any report. *)
Theorem C11_silent_failure_refuted :
  match show_md (outer_bad 0) inner_lines with
  | Some ([r0; r1; r2; r3], None) => r0 = no_result /\ r1 = no_result /\ r2 <> no_result /\ r3 <> no_result
  | _ => False
  end.
Proof. vm_compute. repeat split; discriminate. Qed.
(** And an update that throws in the last scenario of the first dimension is reported for the wrong combinations: 2 and
    3 failed, 0 and 1 are named. *)
Theorem C11_wrong_index_refuted :
  match show_md (outer_bad 1) inner_lines with
  | Some ([r0; r1; r2; r3], Some (BatchCalculationError _ f m)) =>
      r0 <> no_result /\ r1 <> no_result /\ r2 = no_result /\ r3 = no_result /\ f = [0; 1]
  | _ => False
  end.
Proof. vm_compute. repeat split; discriminate. Qed.

Print Assumptions C11_results.
Print Assumptions C11_report_partial.
Print Assumptions C11_no_failures.
Print Assumptions C11_failures_lost_refuted.
Print Assumptions C11_silent_failure_refuted.
Print Assumptions C11_wrong_index_refuted.
