(** Properties C01, C02, C03 and C46 of the component container. *)
From Verif Require Import Common Container ContainerSpec ContainerFacts.

(** A grid used as the concrete case below: three nodes, a line, a transformer, a source, a load, sensors and a
    tap regulator. *)
Definition demo (t : ctype) : list (Z * cinput) :=
  match t with
  | Node => [(1, IBare); (2, IBare); (3, IBare)]%Z
  | Line => [(4, IBranch 1 2)]%Z
  | Transformer => [(5, IBranch 2 3)]%Z
  | Source => [(6, IAppliance 1)]%Z
  | SymLoad => [(7, IAppliance 3)]%Z
  | SymPowerSensor => [(8, IPowerSensor 4 t_branch_to); (9, IPowerSensor 7 t_load)]%Z
  | SymCurrentSensor => [(10, ICurrentSensor 5 t_branch_from)]%Z
  | TransformerTapRegulator => [(11, ITapRegulator 5 1)]%Z
  | _ => []
  end.
Definition no_check (t : ctype) (id : Z) (inp : cinput) : option exn := None.
Example demo_created : exists c, create_model no_check demo = Ok c.
Proof. eexists; vm_compute; reflexivity. Qed.
Example demo_dup_rejected :
  create_model no_check (fun t => match t with Line => [(4, IBranch 1 2); (1, IBranch 1 2)]%Z | _ => demo t end)
  = Err (ConflictID 1).
Proof. vm_compute; reflexivity. Qed.

Section Props.
  (** The constructors' own numeric checks are arbitrary. *)
  Variable ck : ctype -> Z -> cinput -> option exn.
  Variable data : ctype -> list (Z * cinput).

  (** C01: a model is only created when all ids, over all types, are different; it then holds exactly the given
      records: of each type, in input order. *)
  Theorem C01_ids_unique : forall c, create_model ck data = Ok c -> ids_unique data.
  Proof. intros c H. exact (create_model_ids_unique ck data c H). Qed.

  Theorem C01_duplicate_id_rejected : ~ ids_unique data -> exists e, create_model ck data = Err e.
  Proof.
    intros H. destruct (create_model ck data) as [c|e] eqn:E; eauto.
    exfalso. exact (H (create_model_ids_unique ck data c E)).
  Qed.

  Theorem C01_model_holds_the_input : forall c, create_model ck data = Ok c ->
    forall t, map (fun e => (e_id e, e_in e)) (vec c (ctype_idx t)) = data t.
  Proof.
    intros c H t. rewrite (proj2 (create_model_ok ck data c H)). unfold entries. rewrite map_map. simpl.
    rewrite <- (map_id (data t)) at 2. apply map_ext. intros [? ?]; reflexivity.
  Qed.

  (** C46: a model is created exactly when ids are unique, every reference points to an existing record of the kind
      it must point to, no object has two regulators of one type, and no constructor objects. *)
  Theorem C46_created_iff_well_formed : layouts_ok data ->
    ((exists c, create_model ck data = Ok c) <->
     ids_unique data /\ one_regulator_each data /\
     forall t r, In r (data t) -> references_ok data (snd r) /\ ck t (fst r) (snd r) = None).
  Proof.
    intros HL. split.
    - intros [c H]. exact (create_sound ck data c H).
    - intros (H1 & H2 & H3). destruct (create_complete ck data HL H2 H3) as [H|(id & _ & t1 & n1 & t2 & n2 & R1 & R2 & Hne)].
      + exact H.
      + exfalso. destruct (H1 id t1 n1 t2 n2 R1 R2); subst; auto.
  Qed.

  (** C01: if ids are repeated and nothing else is wrong, the error is an id conflict that names a repeated id. *)
  Theorem C01_conflict_reported : layouts_ok data -> one_regulator_each data ->
    (forall t r, In r (data t) -> references_ok data (snd r) /\ ck t (fst r) (snd r) = None) ->
    ~ ids_unique data ->
    exists id t1 n1 t2 n2, create_model ck data = Err (ConflictID id) /\
      record_at data t1 n1 id /\ record_at data t2 n2 id /\ (t1, n1) <> (t2, n2).
  Proof.
    intros HL HO HR HU. destruct (create_complete ck data HL HO HR) as [[c H]|(id & H & t1 & n1 & t2 & n2 & HH)].
    - exfalso. exact (HU (create_model_ids_unique ck data c H)).
    - exists id, t1, n1, t2, n2. split; auto.
  Qed.

  (** C02: get_indexer gives for each id the position of the record with that id within its type, and reports the
      first offending id otherwise. *)
  Theorem C02_get_indexer : forall c t ids l, create_model ck data = Ok c ->
    (get_indexer c t ids = Ok l <-> Forall2 (fun id n => record_at data t n id) ids l).
  Proof. intros c t ids l H. exact (get_indexer_ok ck data c t ids l H). Qed.

  Theorem C02_get_indexer_error : forall c t ids e, create_model ck data = Ok c ->
    (get_indexer c t ids = Err e <->
     exists pre id post, ids = pre ++ id :: post /\ (forall x, In x pre -> exists n, record_at data t n x) /\
       ((e = IDNotFound id /\ forall t' n, ~ record_at data t' n id) \/
        (e = IDWrongType id /\ exists t' n, t' <> t /\ record_at data t' n id))).
  Proof. intros c t ids e H. exact (get_indexer_err ck data c t ids e H). Qed.

  (** C03: the sequence numbers of a kind of component count the records of that kind in storage order, and
      numbers and two-dimensional indices determine each other. *)
  Theorem C03_sequence_order : forall c g s, create_model ck data = Ok c ->
    option_map (fun e => (e_type e, e_id e)) (get_item_by_seq (is_base g) c s)
    = nth_error (items_of_kind data g) s.
  Proof.
    intros c g s H. rewrite item_by_seq, <- (lists_items ck data c g H). symmetry. apply nth_error_map.
  Qed.

  Theorem C03_size : forall c g, create_model ck data = Ok c ->
    size_of (is_base g) c = length (items_of_kind data g).
  Proof.
    intros c g H. now rewrite size_of_concat, <- (lists_items ck data c g H), map_length.
  Qed.

  Theorem C03_index_to_seq_to_index : forall c g t n, create_model ck data = Ok c ->
    derives g t = true -> n < length (data t) ->
    exists s, get_seq (is_base g) c (ctype_idx t, n) = Some s /\ s < length (items_of_kind data g) /\
              get_idx_2d_by_seq (is_base g) c s = Some (ctype_idx t, n).
  Proof.
    intros c g t n H Hd Hn. destruct (create_model_ok ck data c H) as [[HL _] HV].
    destruct (seq_round_trip (is_base g) c (ctype_idx t) n) as (s & H1 & H2 & H3 & _).
    - rewrite HL. apply ctype_idx_lt.
    - now rewrite is_base_idx.
    - rewrite HV. unfold entries. now rewrite map_length.
    - exists s. rewrite <- (C03_size c g H). auto.
  Qed.

  Theorem C03_seq_to_index_to_seq : forall c g s, create_model ck data = Ok c ->
    s < length (items_of_kind data g) ->
    exists t n, get_idx_2d_by_seq (is_base g) c s = Some (ctype_idx t, n) /\ derives g t = true /\
                n < length (data t) /\ get_seq (is_base g) c (ctype_idx t, n) = Some s.
  Proof.
    intros c g s H Hs. rewrite <- (C03_size c g H) in Hs.
    destruct (create_model_ok ck data c H) as [[HL _] HV].
    destruct (seq_inv _ _ _ Hs) as (gr & n & E1 & Hg & Hb & Hn & E2). rewrite HL in Hg.
    apply idx_lt_ctype in Hg as [t <-]. exists t, n. rewrite is_base_idx in Hb.
    rewrite HV in Hn. unfold entries in Hn. rewrite map_length in Hn. auto.
  Qed.
End Props.

Example demo_seq :
  match create_model no_check demo with
  | Ok c => get_seq (is_base GBranch) c (ctype_idx Transformer, 0) = Some 1 /\
            get_idx_2d_by_seq (is_base GBase) c 9 = Some (ctype_idx SymCurrentSensor, 0) /\
            get_indexer c SymPowerSensor [9; 8]%Z = Ok [1; 0] /\
            get_indexer c SymPowerSensor [9; 4]%Z = Err (IDWrongType 4)
  | Err _ => False
  end.
Proof. vm_compute; auto. Qed.
Example demo_well_formed : layouts_ok demo.
Proof. intros t r; destruct t; simpl; intuition subst; exact I. Qed.

Print Assumptions C01_ids_unique.
Print Assumptions C01_duplicate_id_rejected.
Print Assumptions C01_conflict_reported.
Print Assumptions C01_model_holds_the_input.
Print Assumptions C46_created_iff_well_formed.
Print Assumptions C02_get_indexer.
Print Assumptions C02_get_indexer_error.
Print Assumptions C03_sequence_order.
Print Assumptions C03_size.
Print Assumptions C03_index_to_seq_to_index.
Print Assumptions C03_seq_to_index_to_seq.
