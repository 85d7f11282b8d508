(** Reading tokens in which doubles have been replaced by integers of equal value: the same result, up to those values. *)
From Coq Require Import String Ascii DecimalString.
From Verif Require Import Common Serial SerialSpec Json JsonSpec JsonFacts.
Local Open Scope nat_scope.

Definition sim {A B} (r : res A) (r' : res B) (g : A -> B) : Prop := forall x, r = Done x -> r' = Done (g x).
Lemma sim_done {A B} (x : A) (y : B) g : y = g x -> sim (Done x) (Done y) g.
Proof. intros -> z H. injection H as <-. reflexivity. Qed.
Lemma sim_bind {A B C E} (r : res A) (r' : res B) (g : A -> B) (f : A -> res C) (f' : B -> res E) h :
  sim r r' g -> (forall x, r = Done x -> sim (f x) (f' (g x)) h) -> sim (bindR r f) (bindR r' f') h.
Proof. intros S H z Hz. destruct r as [x| |]; try discriminate. rewrite (S x eq_refl). cbn [bindR] in *. apply (H x eq_refl _ Hz). Qed.
Lemma sim_same {A B C} (r : res A) (f : A -> res B) (f' : A -> res C) h : (forall x, r = Done x -> sim (f x) (f' x) h) -> sim (bindR r f) (bindR r f') h.
Proof. intros H. apply (sim_bind r r (fun x => x)); [intros x Hx; exact Hx|exact H]. Qed.
Lemma sim_get {A B} (o : option A) (g : A -> B) : sim (getR o) (getR (option_map g o)) g.
Proof. intros x H. destruct o; try discriminate. injection H as <-. reflexivity. Qed.
Lemma sim_map {A B C E} (f : A -> res C) (f' : B -> res E) (i : A -> B) g l : (forall x, sim (f x) (f' (i x)) g) -> sim (mapR f l) (mapR f' (map i l)) (map g).
Proof.
  intros H. induction l as [|a l IH]; cbn [mapR map]; [apply sim_done; reflexivity|]. eapply sim_bind; [apply H|]. intros x _. eapply sim_bind; [exact IH|]. intros xs _. apply sim_done. reflexivity.
Qed.
Lemma sim_fold {A B C E} (f : C -> A -> res C) (f' : E -> B -> res E) (i : A -> B) g l : (forall c x, sim (f c x) (f' (g c) (i x)) g) -> forall c, sim (foldR f l c) (foldR f' (map i l) (g c)) g.
Proof. intros H. induction l as [|a l IH]; intros c; cbn [foldR map]; [apply sim_done; reflexivity|]. eapply sim_bind; [apply H|]. intros x _. apply IH. Qed.
Lemma map_upd {A B} (g : A -> B) i y l : map g (upd i y l) = upd i (g y) (map g l).
Proof. revert i. induction l as [|a l IH]; intros [|i]; cbn; [reflexivity..|]. rewrite IH. reflexivity. Qed.

Section Sim.
Context {D : Type}.
Variables (nan : D) (of_int : Z -> D).
(** tokens are replaced by [rt]; doubles that are read become [canon] of what they were *)
Variables (rt : token D -> token D) (canon : D -> D).
Hypothesis rt_other : forall t, (forall d, t <> TFloat d) -> rt t = t.
Hypothesis rt_float : forall d, rt (TFloat d) = TFloat (canon d) \/ exists z, rt (TFloat d) = TInt z /\ of_int z = canon d.
Hypothesis canon_nan : canon nan = nan.
Hypothesis canon_int : forall z, canon (of_int z) = of_int z.
Notation stream := (list (token D)).
Notation ms := (map rt).
Definition on_rest {A} (r : A * stream) : A * stream := (fst r, ms (snd r)).
Definition cv (v : value D) : value D := match v with V_int z => V_int z | V_double d => V_double (canon d) | V_double3 a b c => V_double3 (canon a) (canon b) (canon c) end.
Definition cbuf (b : buffer D) : buffer D := match b with Rows rows => Rows (map (map cv) rows) | Cols cols => Cols (map (fun ac => (fst ac, map cv (snd ac))) cols) end.

Lemma rt_str s : rt (Str s) = Str s. Proof. apply rt_other. discriminate. Qed.
Lemma rt_bool b : rt (TBool b) = TBool b. Proof. apply rt_other. discriminate. Qed.
Lemma rt_nil : rt Nil = Nil. Proof. apply rt_other. discriminate. Qed.
Lemma rt_arr n : rt (ArrayH n) = ArrayH n. Proof. apply rt_other. discriminate. Qed.
Lemma rt_map n : rt (MapH n) = MapH n. Proof. apply rt_other. discriminate. Qed.
Lemma rt_int z : rt (TInt z) = TInt z. Proof. apply rt_other. discriminate. Qed.
Ltac rts := rewrite ?rt_str, ?rt_bool, ?rt_nil, ?rt_arr, ?rt_map, ?rt_int.
Lemma sim_map_array a b l : sim (parse_map_array a b l) (parse_map_array a b (ms l)) on_rest.
Proof. intros x H. destruct l as [|[| | | | |n|n] l]; try discriminate; cbn [map]; rts; cbn [parse_map_array] in *; [destruct b|destruct a]; try discriminate; injection H as <-; reflexivity. Qed.
Lemma sim_string l : sim (parse_string l) (parse_string (ms l)) on_rest.
Proof. intros x H. destruct l as [|[] l]; try discriminate. cbn [map]. rts. cbn [parse_string] in *. injection H as <-. reflexivity. Qed.
Lemma sim_bool l : sim (parse_bool l) (parse_bool (ms l)) on_rest.
Proof. intros x H. destruct l as [|[] l]; try discriminate. cbn [map]. rts. cbn [parse_bool] in *. injection H as <-. reflexivity. Qed.
Lemma rt_children t : children (rt t) = children t.
Proof. destruct t; rts; try reflexivity. destruct (rt_float d) as [-> | (z & -> & _)]; reflexivity. Qed.
Lemma rt_is_map {A} t (x y : A) : match rt t with MapH _ => x | _ => y end = match t with MapH _ => x | _ => y end.
Proof. destruct t; rts; try reflexivity. destruct (rt_float d) as [-> | (z & -> & _)]; reflexivity. Qed.
Lemma sim_skip l : forall n, sim (skip_objects n l) (skip_objects n (ms l)) on_rest.
Proof.
  induction l as [|t l IH]; intros [|n]; cbn [skip_objects map]; try (apply sim_done; reflexivity).
  - intros x H. discriminate.
  - rewrite rt_children. eapply sim_bind; [apply IH|]. intros x _. apply sim_done. rewrite rt_is_map. reflexivity.
Qed.
Lemma sim_scalar old l : sim (parse_scalar of_int old l) (parse_scalar of_int (canon old) (ms l)) (fun r => (canon (fst r), ms (snd r))).
Proof.
  intros x H. destruct l as [|[|b|z|d|s|n|n] l]; try discriminate; cbn [map]; rts; cbn [parse_scalar] in *; try (injection H as <-; cbn [fst snd]; rewrite ?canon_int; reflexivity).
  injection H as <-. destruct (rt_float d) as [-> | (z & -> & E)]; cbn [fst snd]; rewrite ?E; reflexivity.
Qed.
Lemma sim_value t old l : sim (parse_value of_int t old l) (parse_value of_int t (cv old) (ms l)) (fun r => (cv (fst r), ms (snd r))).
Proof.
  destruct t, old as [z|d|a b c]; cbn [parse_value cv]; try (intros x H; discriminate).
  - intros x H. destruct l as [|[] l]; try discriminate; cbn [map]; rts; [injection H as <-; reflexivity|]. destruct (int_range _ _); [|discriminate]. injection H as <-. reflexivity.
  - intros x H. destruct l as [|[] l]; try discriminate; cbn [map]; rts; [injection H as <-; reflexivity|]. destruct (int_range _ _); [|discriminate]. injection H as <-. reflexivity.
  - eapply sim_bind; [apply sim_scalar|]. intros x _. apply sim_done. reflexivity.
  - destruct l as [|[| | | | |n|n] l]; try (intros x H; discriminate); cbn [map]; rts; [apply sim_done; reflexivity|]. destruct (n =? 3); [|intros x H; discriminate].
    eapply sim_bind; [apply sim_scalar|]. intros x1 _. cbn [snd fst]. eapply sim_bind; [apply sim_scalar|]. intros x2 _. cbn [snd fst]. eapply sim_bind; [apply sim_scalar|]. intros x3 _. apply sim_done. reflexivity.
Qed.

(** ** the first pass *)
Definition mmeta (x : byte_meta) : byte_meta := mkMeta (bm_comp x) (bm_size x) (ms (bm_data x)) (bm_map x).
Definition minfo (i : comp_info) : comp_info := mkInfo (ci_comp i) (ci_eps i) (ci_total i) (map mmeta (ci_msg i)) (ci_indicated i) (ci_attributes i).
Definition mparsed (p : parsed) : parsed := mkParsed (pa_meta p) (pa_batch p) (pa_size p) (map minfo (pa_infos p)) (pa_attributes p).
Lemma sim_components n : forall l, sim (pre_count_components n l) (pre_count_components n (ms l)) (fun r => (map mmeta (fst r), ms (snd r))).
Proof.
  induction n as [|n IH]; intros l; cbn [pre_count_components]; [apply sim_done; reflexivity|]. eapply sim_bind; [apply sim_string|]. intros r _. cbn [on_rest snd fst]. eapply sim_bind; [apply sim_map_array|]. intros h _.
  eapply sim_bind; [apply sim_skip|]. intros k _. cbn [on_rest snd fst]. eapply sim_bind; [apply IH|]. intros rest _. apply sim_done. reflexivity.
Qed.
Lemma sim_scenario l : sim (pre_count_scenario l) (pre_count_scenario (ms l)) (fun r => (map mmeta (fst r), ms (snd r))).
Proof. unfold pre_count_scenario. eapply sim_bind; [apply sim_map_array|]. intros h _. cbn [on_rest snd fst]. apply sim_components. Qed.
Lemma sim_scenarios n : forall l, sim (pre_count_scenarios n l) (pre_count_scenarios n (ms l)) (fun r => (map (map mmeta) (fst r), ms (snd r))).
Proof.
  induction n as [|n IH]; intros l; cbn [pre_count_scenarios]; [apply sim_done; reflexivity|]. eapply sim_bind; [apply sim_scenario|]. intros r _. cbn [snd fst]. eapply sim_bind; [apply IH|]. intros rest _. apply sim_done. reflexivity.
Qed.
Lemma sim_data o l : sim (pre_count_data o l) (pre_count_data o (ms l)) (fun r => (fst (fst r), map (map mmeta) (snd (fst r)), ms (snd r))).
Proof.
  unfold pre_count_data. eapply sim_bind; [apply sim_map_array|]. intros h _. cbn [on_rest snd fst]. destruct (match o with Some b => negb (Bool.eqb b (negb (snd (fst h)))) | None => false end); [intros x H; discriminate|].
  eapply sim_bind; [destruct (negb (snd (fst h))); apply sim_scenarios|]. intros r _. apply sim_done. reflexivity.
Qed.
Lemma sim_strings n : forall l, sim (read_strings n l) (read_strings n (ms l)) on_rest.
Proof. induction n as [|n IH]; intros l; cbn [read_strings]; [apply sim_done; reflexivity|]. eapply sim_bind; [apply sim_string|]. intros r _. cbn [on_rest snd fst]. eapply sim_bind; [apply IH|]. intros rest _. apply sim_done. reflexivity. Qed.
Lemma sim_attributes n : forall l, sim (read_attributes n l) (read_attributes n (ms l)) on_rest.
Proof.
  induction n as [|n IH]; intros l; cbn [read_attributes]; [apply sim_done; reflexivity|]. eapply sim_bind; [apply sim_string|]. intros r _. cbn [on_rest snd fst]. eapply sim_bind; [apply sim_map_array|]. intros h _. cbn [on_rest snd fst].
  eapply sim_bind; [apply sim_strings|]. intros names _. cbn [on_rest snd fst]. eapply sim_bind; [apply IH|]. intros rest _. apply sim_done. reflexivity.
Qed.
Definition mroot (r : root) : root := mkRoot (ro_version r) (ro_type r) (ro_is_batch r) (ro_has_is_batch r) (ro_attributes r) (option_map (map (map mmeta)) (ro_data r)).
Lemma sim_root n : forall r l, sim (parse_root n r l) (parse_root n (mroot r) (ms l)) (fun x => (mroot (fst x), ms (snd x))).
Proof.
  induction n as [|n IH]; intros r l; cbn [parse_root]; [apply sim_done; reflexivity|]. eapply sim_bind; [apply sim_string|]. intros (key, l1) _. cbn [on_rest snd fst]. cbv beta iota.
  destruct (String.eqb key "version"); [|destruct (String.eqb key "type"); [|destruct (String.eqb key "is_batch"); [|destruct (String.eqb key "attributes"); [|destruct (String.eqb key "data")]]]].
  - eapply sim_bind; [apply sim_string|]. intros x _. cbn [on_rest snd fst]. apply IH.
  - eapply sim_bind; [apply sim_string|]. intros x _. cbn [on_rest snd fst]. apply IH.
  - eapply sim_bind; [apply sim_bool|]. intros x _. cbn [on_rest snd fst mroot ro_data ro_is_batch]. destruct (ro_data r) as [dt|] eqn:Ed; cbn [option_map].
    + destruct (negb _); [intros y H; discriminate|]. cbn [ro_version ro_type ro_is_batch ro_has_is_batch ro_attributes]. intros y Hy. apply IH in Hy. exact Hy.
    + intros y Hy. apply IH in Hy. exact Hy.
  - eapply sim_bind; [apply sim_map_array|]. intros h _. cbn [on_rest snd fst]. eapply sim_bind; [apply sim_attributes|]. intros x _. cbn [on_rest snd fst]. apply IH.
  - cbn [mroot ro_has_is_batch ro_is_batch]. eapply sim_bind; [apply sim_data|]. intros x _. cbn [snd fst]. apply IH.
  - eapply sim_bind; [apply sim_skip|]. intros x _. cbn [on_rest snd fst]. apply IH.
Qed.
Lemma scenario_meta_map name s : scenario_meta name (map mmeta s) = mmeta (scenario_meta name s).
Proof. unfold scenario_meta. induction s as [|x s IH]; [reflexivity|]. cbn [map find]. cbn [mmeta bm_comp]. destruct (String.eqb (bm_comp x) name); [reflexivity|exact IH]. Qed.
Lemma sim_count_component m seen counts k : sim (count_component m seen counts k) (count_component m seen (map (map mmeta) counts) k) minfo.
Proof.
  unfold count_component. apply sim_same. intros mc _. cbv zeta.
  assert (E : map (scenario_meta (mc_name mc)) (map (map mmeta) counts) = map mmeta (map (scenario_meta (mc_name mc)) counts)).
  { rewrite !map_map. apply map_ext. intros s. apply scenario_meta_map. }
  rewrite E. assert (E2 : map bm_size (map mmeta (map (scenario_meta (mc_name mc)) counts)) = map bm_size (map (scenario_meta (mc_name mc)) counts)) by (rewrite !map_map; reflexivity).
  rewrite E2, map_length. apply sim_same. intros eps _. apply sim_done. unfold minfo. cbn [ci_comp ci_eps ci_total ci_msg ci_indicated ci_attributes]. f_equal. f_equal. clear.
  induction (map (scenario_meta (mc_name mc)) counts) as [|x l IH]; [reflexivity|]. cbn [map existsb]. rewrite IH. reflexivity.
Qed.
Lemma sim_count_data m seen counts : sim (count_data m seen counts) (count_data m seen (map (map mmeta) counts)) (map minfo).
Proof.
  unfold count_data. eapply (sim_bind _ _ (fun x => x)).
  - intros x H. rewrite <- H. clear. induction counts as [|s counts IH]; [reflexivity|]. cbn [map mapR]. rewrite IH. f_equal.
    induction s as [|y s IHs]; [reflexivity|]. cbn [map mapR mmeta bm_comp]. rewrite IHs. reflexivity.
  - intros ks _. rewrite <- (map_id (filter _ _)) at 2. apply sim_map. intros k. apply sim_count_component.
Qed.
Lemma sim_predefined m acc x : sim (predefined m acc x) (predefined m (map minfo (fst acc), snd acc) x) (fun r => (map minfo (fst r), snd r)).
Proof.
  unfold predefined. apply sim_same. intros k _. apply sim_same. intros mc _. apply sim_same. intros attrs _. cbn [fst snd].
  assert (E : existsb (fun i => ci_comp i =? k) (map minfo (fst acc)) = existsb (fun i => ci_comp i =? k) (fst acc)) by (induction (fst acc) as [|i l IH]; [reflexivity|]; cbn [map existsb]; rewrite IH; reflexivity).
  rewrite E. destruct (existsb _ (fst acc)); [|intros y H; discriminate]. apply sim_done. cbn [fst snd]. f_equal. rewrite !map_map. apply map_ext. intros i. unfold set_indications. cbn [minfo ci_comp ci_indicated ci_eps ci_total ci_msg].
  destruct (ci_comp i =? k); [|reflexivity]. destruct (ci_indicated i); reflexivity.
Qed.
Lemma sim_pre_parse metas elide l : sim (pre_parse metas elide l) (pre_parse metas elide (ms l)) mparsed.
Proof.
  unfold pre_parse. eapply sim_bind; [apply sim_map_array|]. intros h _. cbn [on_rest snd fst].
  eapply sim_bind; [exact (sim_root (fst (fst h)) (mkRoot None None false false None None) (snd h))|]. intros (r, l1) _. cbn [fst snd mroot ro_version ro_type ro_attributes ro_data ro_has_is_batch ro_is_batch]. cbv zeta.
  destruct (ro_version r); [|intros x H; discriminate]. destruct (ro_type r); [|intros x H; discriminate]. destruct (ro_attributes r) as [attrs|]; [|intros x H; discriminate].
  destruct (ro_data r) as [counts|]; [|intros x H; discriminate]. cbn [option_map]. destruct (negb (ro_has_is_batch r)); [intros x H; discriminate|]. apply sim_same. intros m _. rewrite map_length.
  destruct (_ && _); [intros x H; discriminate|]. eapply sim_bind; [apply sim_count_data|]. intros infos _.
  eapply (sim_bind _ _ (fun r => (map minfo (fst r), snd r))).
  - rewrite <- (map_id attrs) at 2. exact (sim_fold _ _ (fun x => x) _ attrs (fun c x => sim_predefined m c x) (infos, [])).
  - intros ia _. apply sim_done. reflexivity.
Qed.

(** ** the second pass *)
Lemma cv_na t : cv (na nan t) = na nan t.
Proof. destruct t; cbn; rewrite ?canon_nan; reflexivity. Qed.
Lemma map_repeat {A B} (g : A -> B) x n : map g (repeat x n) = repeat (g x) n.
Proof. induction n; cbn; congruence. Qed.
Lemma sim_blank mc total t : sim (blank nan mc total t) (blank nan mc total t) cbuf.
Proof.
  assert (X : map (map cv) (repeat (map (fun x => na nan (ma_type x)) (mc_attrs mc)) total) = repeat (map (fun x => na nan (ma_type x)) (mc_attrs mc)) total).
  { rewrite map_repeat, map_map. f_equal. apply map_ext. intros x. apply cv_na. }
  destruct t as [| |attrs]; cbn [blank]; try (apply sim_done; cbn [cbuf]; rewrite X; reflexivity).
  eapply sim_bind.
  - rewrite <- (map_id attrs) at 2. apply (sim_map _ _ (fun x => x) (fun ac => (fst ac, map cv (snd ac)))). intros a. apply sim_same. intros ty _. apply sim_done. cbn [fst snd]. rewrite map_repeat, cv_na. reflexivity.
  - intros cols _. apply sim_done. reflexivity.
Qed.
Lemma sim_update {A B} (g : A -> B) i f f' l : (forall x, sim (f x) (f' (g x)) g) -> sim (update i f l) (update i f' (map g l)) (map g).
Proof.
  intros H. unfold update. rewrite nth_error_map. eapply sim_bind; [apply sim_get|]. intros x _. eapply sim_bind; [apply H|]. intros y _. apply sim_done. rewrite map_upd. reflexivity.
Qed.
Lemma sim_row_value rows i a : sim (row_value rows i a) (row_value (map (map cv) rows) i a) cv.
Proof.
  unfold row_value. rewrite nth_error_map. destruct (nth_error rows i) as [row|]; cbn [option_map]; [rewrite nth_error_map; apply sim_get|intros x H; discriminate].
Qed.
Lemma sim_in_row mc rows i a l : sim (parse_in_row of_int mc rows i a l) (parse_in_row of_int mc (map (map cv) rows) i a (ms l)) (fun r => (map (map cv) (fst r), ms (snd r))).
Proof.
  unfold parse_in_row. apply sim_same. intros ty _. eapply sim_bind; [apply sim_row_value|]. intros old _. eapply sim_bind; [apply sim_value|]. intros r _. cbn [fst snd].
  eapply sim_bind; [apply sim_update; intros row; apply sim_update; intros x; apply sim_done; reflexivity|]. intros rows' _. apply sim_done. reflexivity.
Qed.
Notation ccol := (fun ac : nat * list (value D) => (fst ac, map cv (snd ac))).
Lemma sim_in_col mc cols k i l : sim (parse_in_col of_int mc cols k i l) (parse_in_col of_int mc (map ccol cols) k i (ms l)) (fun r => (map ccol (fst r), ms (snd r))).
Proof.
  unfold parse_in_col. rewrite nth_error_map. eapply sim_bind; [apply sim_get|]. intros ac _. cbn [fst snd]. apply sim_same. intros ty _. rewrite nth_error_map. eapply sim_bind; [apply sim_get|]. intros old _.
  eapply sim_bind; [apply sim_value|]. intros r _. cbn [fst snd]. eapply sim_bind.
  - apply (sim_update ccol). intros x. cbn [fst snd]. eapply sim_bind; [apply (sim_update cv); intros y; apply sim_done; reflexivity|]. intros col _. apply sim_done. reflexivity.
  - intros cols' _. apply sim_done. reflexivity.
Qed.
Lemma find_col_index a cols : find_index (fun x : nat * list (value D) => fst x =? a) (map ccol cols) = find_index (fun x => fst x =? a) cols.
Proof. induction cols as [|x l IH]; [reflexivity|]. cbn [map find_index fst]. rewrite IH. reflexivity. Qed.
Lemma sim_attribute mc b i a l : sim (parse_attribute of_int mc b i a l) (parse_attribute of_int mc (cbuf b) i a (ms l)) (fun r => (cbuf (fst r), ms (snd r))).
Proof.
  unfold parse_attribute. assert (Sk : sim (bindR (skip_objects 1 l) (fun r => Done (b, snd r))) (bindR (skip_objects 1 (ms l)) (fun r => Done (cbuf b, snd r))) (fun r => (cbuf (fst r), ms (snd r)))).
  { eapply sim_bind; [apply sim_skip|]. intros r _. apply sim_done. reflexivity. }
  destruct a as [a|]; [|exact Sk]. destruct b as [rows|cols]; cbn [cbuf].
  - eapply sim_bind; [apply sim_in_row|]. intros r _. apply sim_done. reflexivity.
  - rewrite find_col_index. destruct (find_index _ cols) as [k|]; [|exact Sk]. eapply sim_bind; [apply sim_in_col|]. intros r _. apply sim_done. reflexivity.
Qed.
Lemma sim_map_element mc n : forall b i l, sim (parse_map_element of_int mc n b i l) (parse_map_element of_int mc n (cbuf b) i (ms l)) (fun r => (cbuf (fst r), ms (snd r))).
Proof.
  induction n as [|n IH]; intros b i l; cbn [parse_map_element]; [apply sim_done; reflexivity|]. eapply sim_bind; [apply sim_string|]. intros k _. cbn [on_rest fst snd]. eapply sim_bind; [apply sim_attribute|]. intros r _. cbn [fst snd]. apply IH.
Qed.
Lemma sim_parse_attributes mc attrs : forall b i l, sim (parse_attributes of_int mc attrs b i l) (parse_attributes of_int mc attrs (cbuf b) i (ms l)) (fun r => (cbuf (fst r), ms (snd r))).
Proof. induction attrs as [|a attrs IH]; intros b i l; cbn [parse_attributes]; [apply sim_done; reflexivity|]. eapply sim_bind; [apply sim_attribute|]. intros r _. cbn [fst snd]. apply IH. Qed.
Lemma no_overlap_cbuf b attrs : no_overlap (cbuf b) attrs = no_overlap b attrs.
Proof.
  destruct b as [rows|cols]; [reflexivity|]. cbn [cbuf no_overlap]. induction attrs as [|a attrs IH]; [reflexivity|]. cbn [forallb]. rewrite IH. f_equal. f_equal. clear.
  induction cols as [|x l IHl]; [reflexivity|]. cbn [map existsb fst]. rewrite IHl. reflexivity.
Qed.
Lemma sim_element mc attrs b i l : sim (parse_element of_int mc attrs b i l) (parse_element of_int mc attrs (cbuf b) i (ms l)) (fun r => (cbuf (fst r), ms (snd r))).
Proof.
  unfold parse_element. eapply sim_bind; [apply sim_map_array|]. intros ((n, m), l1) _. cbn [on_rest fst snd]. destruct m; [apply sim_map_element|]. rewrite no_overlap_cbuf. destruct (no_overlap b attrs).
  - eapply sim_bind; [apply sim_skip|]. intros r _. apply sim_done. reflexivity.
  - destruct (n =? _); [apply sim_parse_attributes|intros x H; discriminate].
Qed.
Lemma sim_elements mc attrs n : forall b i l, sim (parse_elements of_int mc attrs n b i l) (parse_elements of_int mc attrs n (cbuf b) i (ms l)) (fun r => (cbuf (fst r), ms (snd r))).
Proof. induction n as [|n IH]; intros b i l; cbn [parse_elements]; [apply sim_done; reflexivity|]. eapply sim_bind; [apply sim_element|]. intros r _. cbn [fst snd]. apply IH. Qed.
Lemma sim_parse_scenario mc attrs first x b : sim (parse_scenario of_int mc attrs first x b) (parse_scenario of_int mc attrs first (mmeta x) (cbuf b)) cbuf.
Proof.
  unfold parse_scenario. cbn [mmeta bm_size bm_map bm_data]. rewrite no_overlap_cbuf. destruct (bm_size x =? 0); [apply sim_done; reflexivity|]. destruct (_ && _); [apply sim_done; reflexivity|].
  eapply sim_bind; [apply sim_map_array|]. intros h _. cbn [on_rest fst snd]. eapply sim_bind; [apply sim_elements|]. intros r _. apply sim_done. reflexivity.
Qed.
Definition ccb (cb : comp_buffer D) : comp_buffer D := mkBuf (cb_comp cb) (cb_eps cb) (cb_indptr cb) (cbuf (cb_data cb)).
Definition cds (ds : dataset D) : dataset D := mkData (ds_meta ds) (ds_batch ds) (ds_size ds) (map ccb (ds_comps ds)).
Lemma combine_map {A B C} (g : B -> C) (l : list A) l' : combine l (map g l') = map (fun x => (fst x, g (snd x))) (combine l l').
Proof. revert l'. induction l as [|a l IH]; intros [|b l']; [reflexivity..|]. cbn. rewrite IH. reflexivity. Qed.
Lemma sim_component p i t : sim (parse_component nan of_int p i t) (parse_component nan of_int (mparsed p) (minfo i) t) (map ccb).
Proof.
  assert (X : sim (bindR (getR (nth_error (ms_comps (pa_meta p)) (ci_comp i))) (fun mc => bindR (blank nan mc (ci_total i) t) (fun b =>
        let indptr := match ci_eps i with None => 0 :: running 0 (map bm_size (ci_msg i)) | Some _ => [] end in
        let attrs := match map_find (ci_comp i) (pa_attributes p) with Some l => l | None => [] end in
        let first s := match ci_eps i with None => getR (nth_error indptr s) | Some e => Done (s * e) end in
        bindR (if ci_indicated i && no_overlap b attrs then Done b
               else foldR (fun b sx => bindR (first (fst sx)) (fun f => parse_scenario of_int mc attrs f (snd sx) b)) (combine (seq 0 (pa_size p)) (ci_msg i)) b)
          (fun b' => Done [mkBuf (ci_comp i) (ci_eps i) indptr b']))))
      (bindR (getR (nth_error (ms_comps (pa_meta (mparsed p))) (ci_comp (minfo i)))) (fun mc => bindR (blank nan mc (ci_total (minfo i)) t) (fun b =>
        let indptr := match ci_eps (minfo i) with None => 0 :: running 0 (map bm_size (ci_msg (minfo i))) | Some _ => [] end in
        let attrs := match map_find (ci_comp (minfo i)) (pa_attributes (mparsed p)) with Some l => l | None => [] end in
        let first s := match ci_eps (minfo i) with None => getR (nth_error indptr s) | Some e => Done (s * e) end in
        bindR (if ci_indicated (minfo i) && no_overlap b attrs then Done b
               else foldR (fun b sx => bindR (first (fst sx)) (fun f => parse_scenario of_int mc attrs f (snd sx) b)) (combine (seq 0 (pa_size (mparsed p))) (ci_msg (minfo i))) b)
          (fun b' => Done [mkBuf (ci_comp (minfo i)) (ci_eps (minfo i)) indptr b'])))) (map ccb)).
  { cbn [mparsed minfo pa_meta pa_size pa_attributes ci_comp ci_total ci_eps ci_msg ci_indicated]. apply sim_same. intros mc _. eapply sim_bind; [apply sim_blank|]. intros b _. cbv zeta.
    assert (E : map bm_size (map mmeta (ci_msg i)) = map bm_size (ci_msg i)) by (rewrite map_map; reflexivity). rewrite E, no_overlap_cbuf.
    eapply (sim_bind _ _ cbuf); [|intros b' _; apply sim_done; reflexivity]. destruct (_ && _); [apply sim_done; reflexivity|]. rewrite combine_map.
    apply sim_fold. intros c x. cbn [fst snd]. apply sim_same. intros f _. apply sim_parse_scenario. }
  destruct t as [| |[|a attrs]]; cbn [parse_component]; try exact X; apply sim_done; reflexivity.
Qed.
Lemma sim_parse p targets : sim (parse nan of_int p targets) (parse nan of_int (mparsed p) targets) cds.
Proof.
  unfold parse. cbn [mparsed pa_infos pa_meta pa_batch pa_size]. eapply (sim_bind _ _ (map (map ccb))).
  - apply sim_map. intros i. apply sim_component.
  - intros l _. apply sim_done. unfold cds. cbn [ds_meta ds_batch ds_size ds_comps]. rewrite concat_map. reflexivity.
Qed.
End Sim.
