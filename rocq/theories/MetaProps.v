(** C70: the meta data functions find what they are asked for, and the attributes of every component lie apart. *)
From Verif Require Import Common Handle MetaData MetaTables MetaSpec.
From Coq Require Import String.

(** ** Looking up by name *)

Lemma find_name_some : forall {A} (name : A -> string) n l i,
  find_name name n l = Some i -> exists x, nth_error l i = Some x /\ name x = n.
Proof.
  intros A name n l. unfold find_name.
  assert (G : forall l k i,
    (fix go (i : nat) (l : list A) : option nat :=
       match l with [] => None | x :: l' => if (name x =? n)%string then Some i else go (S i) l' end) k l = Some i ->
    k <= i /\ exists x, nth_error l (i - k) = Some x /\ name x = n).
  { clear l. induction l as [|x l IH]; intros k i H; [discriminate|].
    destruct (name x =? n)%string eqn:E.
    - injection H as <-. split; [lia|]. exists x. rewrite Nat.sub_diag. split; [reflexivity|apply String.eqb_eq; exact E].
    - destruct (IH (S k) i H) as (Hk & y & Hy & En). split; [lia|]. exists y.
      replace (i - k) with (S (i - S k)) by lia. split; assumption. }
  intros i H. destruct (G l 0 i H) as (_ & x & Hx & E). rewrite Nat.sub_0_r in Hx. exists x. split; assumption.
Qed.

Lemma find_name_none : forall {A} (name : A -> string) n l,
  find_name name n l = None -> forall i x, nth_error l i = Some x -> name x <> n.
Proof.
  intros A name n l. unfold find_name.
  assert (G : forall l k,
    (fix go (i : nat) (l : list A) : option nat :=
       match l with [] => None | x :: l' => if (name x =? n)%string then Some i else go (S i) l' end) k l = None ->
    forall x, In x l -> name x <> n).
  { clear l. induction l as [|y l IH]; intros k H x Hx; [destruct Hx|].
    destruct (name y =? n)%string eqn:E; [discriminate|].
    destruct Hx as [<- | Hx]; [apply String.eqb_neq; exact E|exact (IH (S k) H x Hx)]. }
  intros H i x Hx. apply (G l 0 H). apply nth_error_In in Hx. exact Hx.
Qed.

Lemma unique_position : forall {A} (name : A -> string) l i j x y,
  NoDup (map name l) -> nth_error l i = Some x -> nth_error l j = Some y -> name x = name y -> i = j.
Proof.
  intros A name l i j x y H Hi Hj E.
  assert (Li : i < List.length (map name l)) by (rewrite map_length; apply nth_error_Some; rewrite Hi; discriminate).
  apply (proj1 (NoDup_nth_error (map name l)) H i j Li).
  rewrite (map_nth_error name i l Hi), (map_nth_error name j l Hj), E. reflexivity.
Qed.

(** Any meta data with unique names, any names (null pointers too), any handle: the functions that look something up by name return
    what has exactly these names and leave no error, or there is no such thing and they return null and leave an error. *)
Theorem C70_by_name : forall md h d c a, unique_names md ->
  looks_up (dataset_named md d) (meta_get_dataset_by_name md (Some h) d) /\
  looks_up (component_named md d c) (meta_get_component_by_name md (Some h) d c) /\
  looks_up (attribute_named md d c a) (meta_get_attribute_by_name md (Some h) d c a).
Proof.
  intros md h d c a (U1 & U2 & U3).
  unfold meta_get_dataset_by_name, meta_get_component_by_name, meta_get_attribute_by_name.
  destruct d as [d|].
  2:{ cbn. repeat split; intros p Hp; unfold dataset_named, component_named, attribute_named in Hp;
      decompose [ex and] Hp; discriminate. }
  cbn [non_null thru]. unfold get_dataset. destruct (find_name md_name d md) as [i|] eqn:Ed.
  2:{ pose proof (find_name_none md_name d md Ed) as Hn. cbn [thru].
      split; [|split]; (split; [|reflexivity]); intros p Hp.
      - destruct Hp as (ds & H1 & [= ->]). exact (Hn _ _ H1 eq_refl).
      - destruct Hp as (ds & comp & H1 & H2 & [= ->] & H3). exact (Hn _ _ H1 eq_refl).
      - destruct Hp as (ds & comp & att & H1 & H2 & H3 & [= ->] & H4). exact (Hn _ _ H1 eq_refl). }
  destruct (find_name_some md_name d md i Ed) as (ds & Hds & En). cbn [thru].
  split.
  { split; [|reflexivity]. exists ds. split; [exact Hds|]. rewrite En. reflexivity. }
  assert (Same : forall p ds', nth_error md p = Some ds' -> md_name ds' = d -> p = i /\ ds' = ds).
  { intros p ds' Hp Ep. assert (p = i) by (apply (unique_position md_name md p i ds' ds); congruence).
    subst p. split; [reflexivity|congruence]. }
  pose proof (nth_error_In _ _ Hds) as Ids.
  destruct c as [c|].
  2:{ cbn. repeat split; intros p Hp; unfold dataset_named, component_named, attribute_named in Hp;
      decompose [ex and] Hp; discriminate. }
  cbn [non_null thru]. unfold get_component, the_dataset. rewrite Hds.
  destruct (find_name mc_name c (md_components ds)) as [j|] eqn:Ec.
  2:{ pose proof (find_name_none mc_name c _ Ec) as Hn. cbn [thru].
      split; (split; [|reflexivity]); intros p Hp.
      - destruct Hp as (ds' & comp & H1 & H2 & [= H3] & [= H4]). destruct (Same _ _ H1 (eq_sym H3)) as [_ ->].
        exact (Hn _ _ H2 (eq_sym H4)).
      - destruct Hp as (ds' & comp & att & H1 & H2 & _ & [= H3] & [= H4] & _). destruct (Same _ _ H1 (eq_sym H3)) as [_ ->].
        exact (Hn _ _ H2 (eq_sym H4)). }
  destruct (find_name_some mc_name c _ j Ec) as (comp & Hc & Enc). cbn [thru].
  split.
  { split; [|reflexivity]. exists ds, comp. cbn [fst snd]. rewrite En, Enc. repeat split; assumption. }
  assert (Samec : forall q comp', nth_error (md_components ds) q = Some comp' -> mc_name comp' = c -> q = j /\ comp' = comp).
  { intros q comp' Hq Eq.
    assert (q = j) by (apply (unique_position mc_name (md_components ds) q j comp' comp (U2 ds Ids)); congruence).
    subst q. split; [reflexivity|congruence]. }
  destruct a as [a|].
  2:{ cbn. repeat split; intros p Hp; unfold dataset_named, component_named, attribute_named in Hp;
      decompose [ex and] Hp; discriminate. }
  cbn [non_null thru]. unfold get_attribute, the_component, the_dataset. cbn [fst snd]. rewrite Hds, Hc.
  destruct (find_name ma_name a (mc_attributes comp)) as [k|] eqn:Ea.
  2:{ pose proof (find_name_none ma_name a _ Ea) as Hn. cbn [thru]. split; [|reflexivity]. intros p Hp.
      destruct Hp as (ds' & comp' & att & H1 & H2 & H3 & [= H4] & [= H5] & [= H6]).
      destruct (Same _ _ H1 (eq_sym H4)) as [_ ->]. destruct (Samec _ _ H2 (eq_sym H5)) as [_ ->].
      exact (Hn _ _ H3 (eq_sym H6)). }
  destruct (find_name_some ma_name a _ k Ea) as (att & Ha & Ena). cbn [thru].
  split; [|reflexivity]. exists ds, comp, att. cbn [fst snd]. rewrite En, Enc, Ena. repeat split; assumption.
Qed.

(** There is at most one such thing, so looking up the names of something returns the same pointer: the round trip. *)
Theorem C70_round_trip : forall md h p ds comp att, unique_names md ->
  nth_error md (fst (fst p)) = Some ds -> nth_error (md_components ds) (snd (fst p)) = Some comp ->
  nth_error (mc_attributes comp) (snd p) = Some att ->
  snd (meta_get_dataset_by_name md (Some h) (snd (meta_dataset_name md (Some h) (Some (fst (fst p)))))) = Some (fst (fst p)) /\
  snd (meta_get_component_by_name md (Some h) (Some (md_name ds)) (snd (meta_component_name md (Some h) (Some (fst p)))))
    = Some (fst p) /\
  snd (meta_get_attribute_by_name md (Some h) (Some (md_name ds)) (Some (mc_name comp))
         (snd (meta_attribute_name md (Some h) (Some p)))) = Some p.
Proof.
  intros md h [[i j] k] ds comp att U H1 H2 H3. cbn [fst snd] in *.
  assert (E1 : snd (meta_dataset_name md (Some h) (Some i)) = Some (md_name ds)).
  { unfold meta_dataset_name, the_dataset. cbn [non_null thru]. rewrite H1. reflexivity. }
  assert (E2 : snd (meta_component_name md (Some h) (Some (i, j))) = Some (mc_name comp)).
  { unfold meta_component_name, the_component, the_dataset. cbn [non_null thru fst snd]. rewrite H1. cbn [fst snd]. rewrite H2. reflexivity. }
  assert (E3 : snd (meta_attribute_name md (Some h) (Some (i, j, k))) = Some (ma_name att)).
  { unfold meta_attribute_name, the_attribute, the_component, the_dataset. cbn [non_null thru fst snd]. rewrite H1, H2, H3. reflexivity. }
  rewrite E1, E2, E3.
  destruct (C70_by_name md h (Some (md_name ds)) (Some (mc_name comp)) (Some (ma_name att)) U) as (B1 & B2 & B3).
  destruct U as (U1 & U2 & U3). pose proof (nth_error_In _ _ H1) as I1. pose proof (nth_error_In _ _ H2) as I2.
  assert (D : forall q ds', nth_error md q = Some ds' -> Some (md_name ds) = Some (md_name ds') -> q = i /\ ds' = ds).
  { intros q ds' Hq [= E]. assert (q = i) by (apply (unique_position md_name md q i ds' ds); congruence).
    subst q. split; [reflexivity|congruence]. }
  assert (Dc : forall q c', nth_error (md_components ds) q = Some c' -> Some (mc_name comp) = Some (mc_name c') -> q = j /\ c' = comp).
  { intros q c' Hq [= E].
    assert (q = j) by (apply (unique_position mc_name (md_components ds) q j c' comp (U2 ds I1)); congruence).
    subst q. split; [reflexivity|congruence]. }
  split; [|split].
  - destruct (meta_get_dataset_by_name _ _ _) as [[h'|] [q|]]; cbn in B1 |- *; try contradiction.
    + destruct B1 as [(ds' & Hq & E) _]. destruct (D _ _ Hq E) as [-> _]. reflexivity.
    + exfalso. apply (proj1 B1 i). exists ds. split; [exact H1|reflexivity].
  - destruct (meta_get_component_by_name _ _ _ _) as [[h'|] [[q r]|]]; cbn in B2 |- *; try contradiction.
    + destruct B2 as [(ds' & c' & Hq & Hr & E & Ec) _]. cbn [fst snd] in *.
      destruct (D _ _ Hq E) as [-> ->]. destruct (Dc _ _ Hr Ec) as [-> _]. reflexivity.
    + exfalso. apply (proj1 B2 (i, j)). exists ds, comp. repeat split; assumption.
  - destruct (meta_get_attribute_by_name _ _ _ _ _) as [[h'|] [[[q r] t]|]]; cbn in B3 |- *; try contradiction.
    + destruct B3 as [(ds' & c' & a' & Hq & Hr & Ht & E & Ec & [= Ea]) _]. cbn [fst snd] in *.
      destruct (D _ _ Hq E) as [-> ->]. destruct (Dc _ _ Hr Ec) as [-> ->].
      assert (t = k) by (apply (unique_position ma_name (mc_attributes comp) t k a' att (U3 ds comp I1 I2)); congruence).
      subst t. reflexivity.
    + exfalso. apply (proj1 B3 (i, j, k)). exists ds, comp, att. repeat split; assumption.
Qed.

(** By position: exactly the positions from 0 up to the number that the library reports. *)
Theorem C70_by_position : forall md h idx,
  looks_up (fun p => idx = Z.of_nat p /\ (idx < snd (meta_n_datasets md (Some h)))%Z) (meta_get_dataset_by_idx md (Some h) idx) /\
  (forall d ds, nth_error md d = Some ds ->
     looks_up (fun p => fst p = d /\ idx = Z.of_nat (snd p) /\ (idx < snd (meta_n_components md (Some h) (Some d)))%Z)
              (meta_get_component_by_idx md (Some h) (Some d) idx)) /\
  (forall c ds comp, nth_error md (fst c) = Some ds -> nth_error (md_components ds) (snd c) = Some comp ->
     looks_up (fun p => fst p = c /\ idx = Z.of_nat (snd p) /\ (idx < snd (meta_n_attributes md (Some h) (Some c)))%Z)
              (meta_get_attribute_by_idx md (Some h) (Some c) idx)) /\
  looks_up (fun _ => False) (meta_get_component_by_idx md (Some h) None idx) /\
  looks_up (fun _ => False) (meta_get_attribute_by_idx md (Some h) None idx).
Proof.
  intros md h idx.
  split; [|split; [|split; [|split; (split; [intros p []|reflexivity])]]].
  - unfold meta_get_dataset_by_idx, meta_n_datasets, in_range, ranged. cbn [snd].
    destruct ((0 <=? idx) && (idx <? Z.of_nat (List.length md)))%Z%bool eqn:E; cbn.
    + split; [lia|reflexivity].
    + split; [|reflexivity]. intros p Hp. lia.
  - intros d ds Hd. unfold meta_get_component_by_idx, meta_n_components, ranged, plain, the_dataset, in_range. cbn [non_null thru].
    rewrite Hd. cbn [deref thru].
    destruct ((0 <=? idx) && (idx <? Z.of_nat (List.length (md_components ds))))%Z%bool eqn:E; cbn.
    + split; [|reflexivity]. repeat split; lia.
    + split; [|reflexivity]. intros p Hp. lia.
  - intros c ds comp Hd Hc. unfold meta_get_attribute_by_idx, meta_n_attributes, ranged, plain, the_component, the_dataset, in_range.
    cbn [non_null thru]. rewrite Hd, Hc. cbn [deref thru].
    destruct ((0 <=? idx) && (idx <? Z.of_nat (List.length (mc_attributes comp))))%Z%bool eqn:E; cbn.
    + split; [|reflexivity]. repeat split; lia.
    + split; [|reflexivity]. intros p Hp. lia.
Qed.

(** ** The layout of any struct *)

Lemma falign_pos : forall t, falign t <> 0.
Proof. intros []; cbn; lia. Qed.
Lemma align_up_spec : forall o a, a <> 0 -> o <= align_up o a /\ align_up o a mod a = 0 /\ align_up o a < o + a.
Proof.
  intros o a Ha. unfold align_up. split; [|split].
  - pose proof (Nat.div_mod (o + (a - 1)) a Ha). pose proof (Nat.mod_upper_bound (o + (a - 1)) a Ha). nia.
  - apply Nat.mod_mul. exact Ha.
  - pose proof (Nat.div_mod (o + (a - 1)) a Ha). nia.
Qed.

Lemma end_of_ge : forall fs o, o <= end_of o fs.
Proof.
  induction fs as [|f fs IH]; intros o; cbn; [lia|].
  pose proof (align_up_spec o (falign (f_type f)) (falign_pos _)). 
  pose proof (IH (align_up o (falign (f_type f)) + fsize (f_type f))). lia.
Qed.

Lemma place_spec : forall fs o i f x, nth_error (place o fs) i = Some (f, x) ->
  o <= x /\ x mod falign (f_type f) = 0 /\ x + fsize (f_type f) <= end_of o fs /\ In f fs /\
  forall j g y, nth_error (place o fs) j = Some (g, y) -> i < j -> x + fsize (f_type f) <= y.
Proof.
  induction fs as [|g fs IH]; intros o i f x H; [destruct i; discriminate|].
  pose proof (align_up_spec o (falign (f_type g)) (falign_pos _)) as (A1 & A2 & A3).
  destruct i as [|i]; cbn in H.
  - injection H as <- <-. cbn [end_of]. split; [exact A1|]. split; [exact A2|]. split; [apply end_of_ge|].
    split; [left; reflexivity|]. intros [|j] k y Hj Hlt; [lia|]. cbn in Hj.
    apply (IH _ _ _ _ Hj).
  - destruct (IH _ _ _ _ H) as (B1 & B2 & B3 & B4 & B5). cbn [end_of].
    split; [lia|]. split; [exact B2|]. split; [exact B3|]. split; [right; exact B4|].
    intros [|j] k y Hj Hlt; [lia|]. cbn in Hj. apply (B5 j k y Hj). lia.
Qed.

Lemma struct_align_cases : forall fs, (struct_align fs = 1 \/ struct_align fs = 4 \/ struct_align fs = 8) /\
  forall f, In f fs -> struct_align fs mod falign (f_type f) = 0.
Proof.
  induction fs as [|g fs [IH1 IH2]]; [split; [left; reflexivity|intros f []]|].
  cbn [struct_align fold_right]. change (fold_right (fun f a => Nat.max (falign (f_type f)) a) 1 fs) with (struct_align fs).
  split.
  - destruct (f_type g); cbn [falign]; lia.
  - intros f [<- | Hf].
    + destruct (f_type g); cbn [falign]; destruct IH1 as [-> | [-> | ->]]; reflexivity.
    + specialize (IH2 f Hf). destruct (f_type g), (f_type f); cbn [falign] in *;
        destruct IH1 as [E | [E | E]]; rewrite E in *; cbn in *; try reflexivity; discriminate.
Qed.

Definition as_attribute (fs : list field) (x : field * nat) : meta_attribute :=
  mkAttribute (f_name (fst x)) (f_type (fst x)) (snd x) (fsize (f_type (fst x))) (struct_size fs).

(** The attributes of a struct with any members, if they are its members. *)
Theorem C70_layout : forall name fs,
  well_laid_out (mkComponent name (struct_size fs) (struct_align fs) (map (as_attribute fs) (place 0 fs))).
Proof.
  intros name fs. unfold well_laid_out. cbn [mc_alignment mc_size mc_attributes].
  destruct (struct_align_cases fs) as [Hc Hd].
  assert (Hnz : struct_align fs <> 0) by lia.
  pose proof (align_up_spec (end_of 0 fs) (struct_align fs) Hnz) as (A1 & A2 & _).
  split; [exact Hnz|]. split; [exact A2|]. split.
  - intros a Ha. apply in_map_iff in Ha. destruct Ha as ([f x] & <- & Hin).
    apply In_nth_error in Hin. destruct Hin as [i Hi].
    destruct (place_spec fs 0 i f x Hi) as (B1 & B2 & B3 & B4 & _).
    cbn [as_attribute ma_size ma_ctype ma_component_size ma_offset fst snd].
    split; [reflexivity|]. split; [reflexivity|]. split; [exact B2|]. split; [unfold struct_size; lia|].
    apply Hd. exact B4.
  - assert (G : forall i j a b, i < j -> nth_error (map (as_attribute fs) (place 0 fs)) i = Some a ->
              nth_error (map (as_attribute fs) (place 0 fs)) j = Some b -> ma_offset a + ma_size a <= ma_offset b).
    { intros i j a b Hlt Hi Hj. rewrite nth_error_map in Hi, Hj.
      destruct (nth_error (place 0 fs) i) as [[f x]|] eqn:Ei; [|discriminate].
      destruct (nth_error (place 0 fs) j) as [[g y]|] eqn:Ej; [|discriminate].
      cbn in Hi, Hj. injection Hi as <-. injection Hj as <-. cbn.
      apply (place_spec fs 0 i f x Ei) with (j := j) (g := g); assumption. }
    intros i j a b Hi Hj Hne x [Ha Hb]. unfold bytes in *.
    destruct (Nat.lt_total i j) as [Hlt | [Heq | Hlt]]; [|contradiction|].
    + pose proof (G i j a b Hlt Hi Hj). lia.
    + pose proof (G j i b a Hlt Hj Hi). lia.
Qed.

(** ** The tables of the library *)

(** Every attribute list consists of exactly the members of the struct, in their order, each with its own name and offset. *)
Theorem C70_library_members : Forall (fun d => Forall (fun c => match c with (name, fs, attrs) =>
    flat_map (get_meta_attribute fs) attrs = map (as_attribute fs) (place 0 fs) end) (snd d)) dataset_structs.
Proof. repeat constructor. Qed.

(** In every dataset the attributes of every component are those of its struct, and they are laid out apart. *)
Theorem C70_library_layout : forall d c, In d library -> In c (md_components d) -> well_laid_out c.
Proof.
  intros d c Hd Hc. unfold library in Hd. apply in_map_iff in Hd. destruct Hd as ([n cs] & <- & Hd).
  cbn in Hc. apply in_map_iff in Hc. destruct Hc as ([[name fs] attrs] & <- & Hc).
  pose proof (proj1 (Forall_forall _ _) C70_library_members _ Hd) as F.
  pose proof (proj1 (Forall_forall _ _) F _ Hc) as E. cbn in E.
  cbn [get_meta_component]. rewrite E. apply C70_layout.
Qed.

Definition no_dup_names (l : list string) : bool := if list_eq_dec string_dec (nodup string_dec l) l then true else false.
Lemma no_dup_names_spec : forall l, no_dup_names l = true -> NoDup l.
Proof.
  intros l H. unfold no_dup_names in H. destruct (list_eq_dec string_dec (nodup string_dec l) l) as [<-|]; [|discriminate].
  apply NoDup_nodup.
Qed.
Theorem C70_library_names : unique_names library.
Proof.
  split; [|split].
  - apply no_dup_names_spec. vm_compute. reflexivity.
  - assert (F : forallb (fun d => no_dup_names (map mc_name (md_components d))) library = true) by (vm_compute; reflexivity).
    intros d Hd. apply no_dup_names_spec. exact (proj1 (forallb_forall _ _) F d Hd).
  - assert (F : forallb (fun d => forallb (fun c => no_dup_names (map ma_name (mc_attributes c))) (md_components d)) library = true)
      by (vm_compute; reflexivity).
    intros d c Hd Hc. apply no_dup_names_spec.
    exact (proj1 (forallb_forall _ _) (proj1 (forallb_forall _ _) F d Hd) c Hc).
Qed.

(** In every dataset every component starts with its id, an int32. *)
Theorem C70_library_id : forall d c, In d library -> In c (md_components d) ->
  exists a, nth_error (mc_attributes c) 0 = Some a /\ ma_name a = "id"%string /\ ma_ctype a = FInt32 /\ ma_offset a = 0.
Proof.
  assert (F : Forall (fun d => Forall (fun c =>
    exists a, nth_error (mc_attributes c) 0 = Some a /\ ma_name a = "id"%string /\ ma_ctype a = FInt32 /\ ma_offset a = 0)
    (md_components d)) library).
  { unfold library. repeat (constructor; try (eexists; repeat split; reflexivity)). }
  intros d c Hd Hc. exact (proj1 (Forall_forall _ _) (proj1 (Forall_forall _ _) F d Hd) c Hc).
Qed.

(** All datasets have the same components in the same order; whatever can be updated is an attribute of the input with the same
    type; symmetric and asymmetric results have the same attributes. *)
Definition components_of (d : string) : list meta_component :=
  match find_name md_name d library with
  | Some i => match nth_error library i with Some x => md_components x | None => [] end
  | None => []
  end.
Definition has_attribute (c : meta_component) (n : string) (t : ftype) : bool :=
  existsb (fun b => (ma_name b =? n)%string && (ctype_code (ma_ctype b) =? ctype_code t)%Z)%bool (mc_attributes c).
Theorem C70_library_datasets :
  map md_name library = ["input"; "update"; "sym_output"; "asym_output"; "sc_output"]%string /\
  (forall d, In d library -> map mc_name (md_components d) = map mc_name (components_of "input")) /\
  (forall u i, In (u, i) (combine (components_of "update") (components_of "input")) ->
     forall a, In a (mc_attributes u) -> exists b, In b (mc_attributes i) /\ ma_name b = ma_name a /\ ma_ctype b = ma_ctype a) /\
  (forall s a, In (s, a) (combine (components_of "sym_output") (components_of "asym_output")) ->
     map ma_name (mc_attributes s) = map ma_name (mc_attributes a)).
Proof.
  split; [reflexivity|]. split; [|split].
  - assert (F : Forall (fun d => map mc_name (md_components d) = map mc_name (components_of "input")) library).
    { unfold library. repeat constructor. }
    intros d Hd. exact (proj1 (Forall_forall _ _) F d Hd).
  - assert (F : forallb (fun p => forallb (fun a => has_attribute (snd p) (ma_name a) (ma_ctype a)) (mc_attributes (fst p)))
                  (combine (components_of "update") (components_of "input")) = true) by (vm_compute; reflexivity).
    intros u i Hp a Ha.
    pose proof (proj1 (forallb_forall _ _) (proj1 (forallb_forall _ _) F _ Hp) a Ha) as E.
    unfold has_attribute in E. apply existsb_exists in E. destruct E as (b & Hb & E).
    apply andb_true_iff in E. destruct E as [E1 E2]. exists b. split; [exact Hb|].
    split; [apply String.eqb_eq; exact E1|].
    apply Z.eqb_eq in E2. destruct (ma_ctype b), (ma_ctype a); try reflexivity; discriminate.
  - assert (F : Forall (fun p => map ma_name (mc_attributes (fst p)) = map ma_name (mc_attributes (snd p)))
                  (combine (components_of "sym_output") (components_of "asym_output"))).
    { vm_compute. repeat constructor. }
    intros s a Hp. exact (proj1 (Forall_forall _ _) F _ Hp).
Qed.

(** The conversions between the structs (each is a reinterpret_cast) read and write the same members. *)
Lemma place_app : forall b r o, exists o', place o (b ++ r) = (place o b ++ place o' r)%list.
Proof.
  induction b as [|f b IH]; intros r o; [exists o; reflexivity|]. cbn.
  destruct (IH r (align_up o (falign (f_type f)) + fsize (f_type f))) as [o' E]. exists o'. rewrite E. reflexivity.
Qed.
Lemma end_of_app : forall b r o, end_of o b <= end_of o (b ++ r).
Proof. induction b as [|f b IH]; intros r o; cbn; [apply end_of_ge|apply IH]. Qed.
Lemma find_member_app : forall m l l' x, find_member m l = Some x -> find_member m (l ++ l')%list = Some x.
Proof. induction l as [|y l IH]; intros l' x H; [discriminate|]. cbn in *. destruct (f_name (fst y) =? m)%string; [exact H|apply IH; exact H]. Qed.
Lemma align_up_mono : forall o o' a a', a <> 0 -> a' <> 0 -> a' mod a = 0 -> o <= o' -> align_up o a <= align_up o' a'.
Proof.
  intros o o' a a' Ha Ha' Hd Ho.
  destruct (align_up_spec o a Ha) as (A1 & A2 & A3). destruct (align_up_spec o' a' Ha') as (B1 & B2 & _).
  apply Nat.mod_divide in Hd; [|exact Ha]. apply Nat.mod_divide in B2; [|exact Ha'].
  assert (D : Nat.divide a (align_up o' a')) by (apply (Nat.divide_trans _ a'); assumption).
  apply Nat.mod_divide in A2; [|exact Ha]. destruct D as [q Eq]. destruct A2 as [r Er]. rewrite Eq in B1. rewrite Er in A3. rewrite Eq, Er.
  assert (r < S q) by (apply (Nat.mul_lt_mono_pos_r a); lia). apply Nat.mul_le_mono_r. lia.
Qed.
Theorem C70_prefix : forall b r, usable_as (b ++ r) b.
Proof.
  intros b r. unfold usable_as. split.
  - intros m f o H. exists f. split; [|reflexivity]. destruct (place_app b r 0) as [o' ->]. apply find_member_app. exact H.
  - assert (D : struct_align (b ++ r) mod struct_align b = 0).
    { destruct (struct_align_cases b) as [C1 _]. destruct (struct_align_cases (b ++ r)) as [C2 _].
      assert (L : struct_align b <= struct_align (b ++ r)).
      { clear. unfold struct_align. induction b as [|f b IH]; cbn [app fold_right].
        - induction r as [|f r IHr]; cbn [fold_right] in *; lia.
        - lia. }
      destruct C1 as [E1 | [E1 | E1]], C2 as [E2 | [E2 | E2]]; rewrite E1, E2 in *; try reflexivity; lia. }
    split; [|exact D]. unfold struct_size. destruct (struct_align_cases b) as [C1 _].
    destruct (struct_align_cases (b ++ r)) as [C2 _]. apply align_up_mono; [lia|lia|exact D|apply end_of_app].
Qed.
Theorem C70_conversions : forall s b, In (s, b) conversions -> usable_as s b.
Proof.
  assert (F : Forall (fun x => fst x = snd x ++ skipn (List.length (snd x)) (fst x))%list conversions) by (repeat constructor).
  intros s b H. pose proof (proj1 (Forall_forall _ _) F _ H) as E. cbn [fst snd] in E. rewrite E. apply C70_prefix.
Qed.

(** A new element of a buffer has no attribute that is given: every member starts as the value for "not given" of its type. *)
Definition not_given (t : ftype) : fdefault := match t with FInt32 => DNaID | FInt8 => DNaIntS | FDouble | FDouble3 => DNan end.
Theorem C70_library_not_given : forall d n fs l f,
  In d dataset_structs -> In (n, fs, l) (snd d) -> In f fs -> f_default f = not_given (f_type f).
Proof.
  assert (F : Forall (fun d => Forall (fun c => Forall (fun f => f_default f = not_given (f_type f)) (snd (fst c))) (snd d))
                dataset_structs) by (repeat constructor).
  intros d n fs l f Hd Hc Hf.
  pose proof (proj1 (Forall_forall _ _) (proj1 (Forall_forall _ _) F d Hd) (n, fs, l) Hc) as G. cbn in G.
  exact (proj1 (Forall_forall _ _) G f Hf).
Qed.

(** From names to bytes: for every member of every struct of every dataset, the attribute that is found by the three names is described
    with the name, the type and the offset of the member, in a component with the size and alignment of the struct. *)
Lemma find_member_some : forall m l f o, find_member m l = Some (f, o) -> f_name f = m /\ exists k, nth_error l k = Some (f, o).
Proof.
  induction l as [|x l IH]; intros f o H; [discriminate|]. cbn in H. destruct (f_name (fst x) =? m)%string eqn:E.
  - injection H as ->. split; [apply String.eqb_eq; exact E|]. exists 0. reflexivity.
  - destruct (IH f o H) as (En & k & Hk). split; [exact En|]. exists (S k). exact Hk.
Qed.
Theorem C70_described : forall h ds name fs attrs m f o,
  In ds dataset_structs -> In (name, fs, attrs) (snd ds) -> find_member m (place 0 fs) = Some (f, o) ->
  exists p, snd (meta_get_attribute_by_name library (Some h) (Some (fst ds)) (Some name) (Some m)) = Some p /\
    snd (meta_attribute_name library (Some h) (Some p)) = Some m /\
    snd (meta_attribute_ctype library (Some h) (Some p)) = ctype_code (f_type f) /\
    snd (meta_attribute_offset library (Some h) (Some p)) = o /\
    snd (meta_component_name library (Some h) (Some (fst p))) = Some name /\
    snd (meta_component_size library (Some h) (Some (fst p))) = struct_size fs /\
    snd (meta_component_alignment library (Some h) (Some (fst p))) = struct_align fs.
Proof.
  intros h ds name fs attrs m f o Hds Hc Hm.
  destruct (find_member_some m _ f o Hm) as (En & k & Hk).
  pose proof (proj1 (Forall_forall _ _) C70_library_members _ Hds) as F.
  pose proof (proj1 (Forall_forall _ _) F _ Hc) as E. cbn in E.
  destruct (In_nth_error _ _ Hds) as [i Hi]. destruct (In_nth_error _ _ Hc) as [j Hj].
  assert (H1 : nth_error library i = Some (get_meta_dataset ds)) by (apply map_nth_error; exact Hi).
  assert (H2 : nth_error (md_components (get_meta_dataset ds)) j = Some (get_meta_component (name, fs, attrs)))
    by exact (map_nth_error get_meta_component j (snd ds) Hj).
  assert (H3 : nth_error (mc_attributes (get_meta_component (name, fs, attrs))) k = Some (as_attribute fs (f, o)))
    by (cbn [get_meta_component mc_attributes]; rewrite E; apply map_nth_error; exact Hk).
  destruct (C70_round_trip library h (i, j, k) _ _ _ C70_library_names H1 H2 H3) as (_ & _ & R).
  assert (N : snd (meta_attribute_name library (Some h) (Some (i, j, k))) = Some m).
  { unfold meta_attribute_name, the_attribute, the_component, the_dataset. cbn [non_null thru fst snd]. rewrite H1, H2, H3. cbn. rewrite En. reflexivity. }
  rewrite N in R. exists (i, j, k). split; [exact R|]. split; [exact N|].
  unfold meta_attribute_ctype, meta_attribute_offset, meta_component_name, meta_component_size, meta_component_alignment, the_attribute, the_component, the_dataset.
  cbn [non_null thru fst snd]. rewrite H1, H2, H3. repeat split; reflexivity.
Qed.
(** A null pointer is never followed: the functions return nothing and leave an error. *)
Theorem C70_null : forall md h,
  (snd (meta_dataset_name md (Some h) None), snd (meta_component_name md (Some h) None), snd (meta_attribute_name md (Some h) None)) = (None, None, None) /\
  forall h', In (Some h') [fst (meta_dataset_name md (Some h) None); fst (meta_n_components md (Some h) None);
    fst (meta_component_name md (Some h) None); fst (meta_component_size md (Some h) None); fst (meta_component_alignment md (Some h) None);
    fst (meta_n_attributes md (Some h) None); fst (meta_attribute_name md (Some h) None); fst (meta_attribute_ctype md (Some h) None);
    fst (meta_attribute_offset md (Some h) None)] -> h_code h' = 1%Z.
Proof.
  intros md h. split; [reflexivity|]. cbn. intros h' H. repeat (destruct H as [[= <-]|H]; [reflexivity|]). destruct H.
Qed.

(** ** Examples *)
Example C70_lookup_example : forall h,
  snd (meta_get_attribute_by_name library (Some h) (Some "input"%string) (Some "line"%string) (Some "r1"%string)) = Some (0, 1, 5) /\
  snd (meta_attribute_offset library (Some h) (Some (0, 1, 5))) = 16 /\
  snd (meta_component_size library (Some h) (Some (0, 1))) = 88 /\
  snd (meta_get_attribute_by_name library (Some h) (Some "input"%string) (Some "line"%string) (Some "r9"%string)) = None.
Proof. intros h. repeat split; vm_compute; reflexivity. Qed.

Example C70_conversion_example : In (LineInput, BranchInput) conversions /\
  find_member "to_status" (place 0 LineInput) = Some (mkField "to_status" FInt8 DNaIntS, 13).
Proof. split; [|reflexivity]. unfold conversions. cbn [In]. tauto. Qed.
Example C70_layout_example : map snd (place 0 SourceInput) = [0; 4; 8; 16; 24; 32; 40; 48] /\ struct_size SourceInput = 56.
Proof. split; reflexivity. Qed.

Print Assumptions C70_by_name.
Print Assumptions C70_round_trip.
Print Assumptions C70_by_position.
Print Assumptions C70_layout.
Print Assumptions C70_library_members.
Print Assumptions C70_library_layout.
Print Assumptions C70_library_names.
Print Assumptions C70_library_id.
Print Assumptions C70_library_datasets.
Print Assumptions C70_library_not_given.
Print Assumptions C70_described.
Print Assumptions C70_null.
Print Assumptions C70_conversions.
