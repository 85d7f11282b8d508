(** The loops of the selective inverse, refined to the recurrence. *)
From Verif Require Import Common YBusSpec YBusProps YBusFlow SparseLU SparseLUSpec SparseLUFacts SparseLUProps SelInv SelInvSpec SelInvMat.

Section Refine.
Context {T V Q : Type} (o : block_ops T V Q) (a : block_algebra T V Q) (law : block_laws o a).
Context (v : inv_ops T) (one : T) (il : inv_laws o a v one).
Variables (n : nat) (pt : pattern).
Hypothesis ok : pattern_ok n pt.
Notation at_ := (csr_at (indptr pt) (cols pt)).
Notation has i j := (exists e, at_ e i j).
Local Notation C := (pk_csr _ _ ok).
Notation add := (a_add a). Notation zero := (a_0 a). Notation mul := (b_mul o). Notation pm := (a_pm a).
Notation sumT := (sum_n add zero).
Variable F : nat -> nat -> T.
Hypothesis F0 : zero_outside a pt F.

(** the trailing part is the inverse already *)
Definition mix (p : nat) (Z : nat -> nat -> T) (i j : nat) : T := if (p <=? i) && (p <=? j) then Z i j else F i j.

Section Pivot.
Variable p : nat.
Hypothesis Hp : p < n.
Variables (lo d hi : nat).
Hypothesis Hlo : nth_error (indptr pt) p = Some lo.
Hypothesis Hhi : nth_error (indptr pt) (S p) = Some hi.
Hypothesis Hd : at_ d p p.
Variable Z : nat -> nat -> T.
Notation N := (hi - S d).
Notation seen b := (among pt (S d) (S d + b)).

Lemma dr : lo <= d < hi. Proof. exact (row_p_range pt p lo hi Hlo Hhi d p Hd). Qed.
Lemma off k : k < N -> exists c, at_ (S d + k) p c /\ get (cols pt) (S d + k) = Done c /\ p < c /\ seen k c = false /\
  forall j, seen (S k) j = seen k j || (c =? j).
Proof.
  intros Hk. pose proof dr. destruct (row_p n pt ok p lo hi Hlo Hhi (S d + k)) as (c & Hat & Hc); [lia|]. exists c. split; auto. split; [now apply get_Some|].
  split; [apply (right_at n pt ok p d Hd (S d + k) c Hat); lia|]. split.
  - apply (among_new n pt ok p (S d) (S d + k) c (S d + k) Hat); [exists lo; split; [auto|lia]|lia].
  - intros j. replace (S d + S k) with (S (S d + k)) by lia. apply among_next; [lia|exact Hc].
Qed.
Lemma off_lt k k' c c' : k < k' -> at_ (S d + k) p c -> at_ (S d + k') p c' -> c < c'.
Proof. intros H H1 H2. apply (at_lt _ _ _ C _ _ _ _ _ H1 H2). lia. Qed.
Lemma seen_0 j : seen 0 j = false. Proof. replace (S d + 0) with (S d) by lia. apply among_first. Qed.
Lemma seen_all j : p < j -> has p j -> seen N j = true.
Proof.
  intros Hj [e He]. pose proof dr. apply (among_at pt (S d) (S d + N) p j e He). pose proof (row_p_range pt p lo hi Hlo Hhi e j He).
  apply (right_at n pt ok p d Hd e j He) in Hj. lia.
Qed.
Lemma unseen_U j : p < j -> seen N j = false -> F p j = zero.
Proof. intros Hj Hs. apply F0. intros H. rewrite (seen_all j Hj H) in Hs. discriminate. Qed.
Lemma unseen_L i : p < i -> seen N i = false -> F i p = zero.
Proof. intros Hi Hs. apply F0. intros [e He]. rewrite (seen_all i Hi (pk_sym _ _ ok _ _ _ He)) in Hs. discriminate. Qed.

(** what the buffers hold *)
Definition buffered (b : nat) (l : list T) (es : list nat) : Prop := length l = b /\ length es = b /\
  forall k c, k < b -> at_ (S d + k) p c -> get l k = Done (F c p) /\ exists e, get es k = Done e /\ at_ e c p.
Lemma buffer_ok data : holds pt data (mix (S p) Z) -> exists l es, for_range 0 N (buffer_l pt p (S d) data) ([], []) = Done (l, es) /\ buffered N l es.
Proof.
  intros HD. destruct (for_range_inv (fun b s => buffered b (fst s) (snd s)) 0 N (buffer_l pt p (S d) data) ([], [])) as ([l es] & E & H).
  - lia.
  - split; [reflexivity|]. split; [reflexivity|]. intros k c Hk. lia.
  - intros k [l es] Hk (Hl & He & HB). cbn [fst snd] in *. destruct (off k) as (c & Hat & Hc & Hpc & _); [lia|].
    destruct (pk_sym _ _ ok _ _ _ Hat) as [e Hae]. pose proof (at_row _ _ _ C _ _ _ Hae) as Hcn. destruct (diag_at n pt ok c Hcn) as (dc & Hdc & Hadc).
    pose proof Hae as (_ & clo & chi & Hclo & Hchi & Hr). pose proof (row_p_range pt c clo chi Hclo Hchi dc c Hadc) as Hdr.
    unfold buffer_l. rewrite Hc. cbn [bind]. rewrite (get_Some _ _ _ Hclo), (get_Some _ _ _ Hdc). cbn [bind].
    assert (e < dc) by (apply (at_lt _ _ _ C _ _ _ _ _ Hae Hadc); auto).
    rewrite (find_entry_at n pt ok e c p clo clo dc chi Hae Hclo Hchi) by lia. cbn [bind]. rewrite (holds_get _ _ _ _ _ _ HD Hae). cbn [bind].
    eexists. split; [reflexivity|]. cbn [fst snd]. unfold buffered. rewrite !app_length. cbn [length]. split; [lia|]. split; [lia|].
    intros k' c' Hk' Hat'. destruct (Nat.eq_dec k' k) as [->|Hn].
    + destruct (at_fun _ _ _ C _ _ _ _ _ Hat Hat') as [_ <-]. unfold get. rewrite !nth_error_app2 by lia. rewrite Hl, He, Nat.sub_diag. cbn [nth_error].
      split; [|exists e; auto]. unfold mix. destruct (Nat.leb_spec (S p) p); [lia|]. now rewrite andb_false_r.
    + destruct (HB k' c') as (H1 & e' & H2 & H3); [lia|auto|]. unfold get. rewrite !nth_error_app1 by lia. split; [exact H1|]. exists e'. auto.
  - exists l, es. split; [exact E|]. exact H.
Qed.

Variables (l_col u_row : list T) (l_idx : list nat).
Hypothesis HB : buffered N l_col l_idx.
Hypothesis HU : forall k c, k < N -> at_ (S d + k) p c -> get u_row k = Done (F p c).
Notation pivot := (F p p).

Definition col_F (b i j : nat) : T := if (j =? p) && (p <? i) && seen b i then zcol o a v n F p Z i else mix (S p) Z i j.
Lemma add_step (f : nat -> T) k c : c < n -> p < c -> seen k c = false -> (forall j, seen (S k) j = seen k j || (c =? j)) ->
  sumT n (fun m => if (p <? m) && seen (S k) m then f m else zero) = add (sumT n (fun m => if (p <? m) && seen k m then f m else zero)) (f c).
Proof.
  intros Hc Hpc Hs Hn. apply (sum_one add zero (bl_comm o a law) (bl_assoc o a law) (bl_zero o a law) n _ _ c); auto.
  - rewrite Hn, Hs, Nat.eqb_refl, andb_false_r. destruct (Nat.ltb_spec p c); [|lia]. cbn [orb andb]. symmetry. apply (zero_l o a law).
  - intros m Hm Hmc. rewrite Hn. destruct (Nat.eqb_spec c m); [lia|]. now rewrite orb_false_r.
Qed.
Lemma start_sum (f : nat -> T) : sumT n (fun m => if (p <? m) && seen 0 m then f m else zero) = zero.
Proof. apply (sum_0 add zero (bl_zero o a law)). intros m Hm. now rewrite seen_0, andb_false_r. Qed.

Lemma zl_loop G data r e rhi : holds pt data G -> (forall i j, p < i -> p < j -> G i j = Z i j) -> p < r -> at_ e r p -> nth_error (indptr pt) (S r) = Some rhi ->
  exists x, for_range 0 N (add_zl o pt v data l_col (S d) r rhi) (i_zero v, e) = Done (sumT n (fun m => if p <? m then mul (Z r m) (F m p) else zero), x).
Proof.
  intros HD HG Hr He Hrhi.
  destruct (for_range_inv (fun b (s : T * nat) => fst s = sumT n (fun m => if (p <? m) && seen b m then mul (Z r m) (F m p) else zero) /\
      exists c, at_ (snd s) r c /\ forall k j, b <= k -> at_ (S d + k) p j -> c < j) 0 N (add_zl o pt v data l_col (S d) r rhi) (i_zero v, e)) as ([s x] & E & H1 & H2).
  - lia.
  - cbn [fst snd]. rewrite start_sum. split; [apply (il_zero _ _ _ _ il)|]. exists p. split; auto. intros k j _ Hat. apply (right_at n pt ok p d Hd _ j Hat). lia.
  - intros k [s x] Hk (Es & c0 & Hx & Hc0). cbn [fst snd] in *. destruct (off k) as (c & Hat & Hc & Hpc & Hs & Hn); [lia|].
    assert (Hcl : has r c). { apply (pk_closed _ _ ok p r c); auto; [|eauto]. exact (pk_sym _ _ ok _ _ _ He). }
    destruct Hcl as [z Hz]. assert (c0 < c) by (apply (Hc0 k); auto).
    assert (x < z) by (apply (at_lt _ _ _ C _ _ _ _ _ Hx Hz); auto).
    pose proof Hx as (_ & rlo & rhi' & Hrlo & Hrhi' & Hxr). assert (rhi' = rhi) by congruence. subst rhi'.
    pose proof (row_p_range pt r rlo rhi Hrlo Hrhi z c Hz) as Hzr.
    unfold add_zl. rewrite Hc. cbn [bind snd fst]. rewrite (find_entry_at n pt ok z r c rlo (S x) rhi rhi Hz Hrlo Hrhi) by lia. cbn [bind].
    rewrite (holds_get _ _ _ _ _ _ HD Hz). cbn [bind]. destruct HB as (_ & _ & HB'). destruct (HB' k c) as (-> & _); [lia|auto|]. cbn [bind].
    eexists. split; [reflexivity|]. cbn [fst snd]. split.
    + rewrite (add_step (fun m => mul (Z r m) (F m p)) k c) by (auto; exact (at_col _ _ _ C _ _ _ Hat)). rewrite (il_add _ _ _ _ il), Es, HG by auto. reflexivity.
    + exists c. split; auto. intros k' j Hk' Hat'. apply (off_lt k k'); auto.
  - cbn [fst] in H1. exists x. rewrite E. f_equal. f_equal. rewrite H1. apply sum_ext. intros m Hm.
    destruct (Nat.ltb_spec p m) as [Hpm|]; cbn [andb]; auto. destruct (seen N m) eqn:Es; auto. rewrite unseen_L by auto. symmetry. apply (mul_0 o a law).
Qed.
Lemma col_loop data : holds pt data (mix (S p) Z) ->
  exists data', for_range 0 N (column_below o pt v pivot l_col l_idx (S d) N) data = Done data' /\ holds pt data' (col_F N).
Proof.
  intros HD. apply (for_range_inv (fun b s => holds pt s (col_F b))).
  - lia.
  - revert HD. apply holds_ext. intros i j _. unfold col_F. now rewrite seen_0, andb_false_r.
  - intros k dt Hk H1. destruct (off k) as (c & Hat & Hc & Hpc & Hs & Hn); [lia|]. destruct HB as (_ & _ & HB'). destruct (HB' k c) as (_ & e & He & Hae); [lia|auto|].
    pose proof Hae as (_ & clo & chi & Hclo & Hchi & Hr).
    unfold column_below. rewrite Hc. cbn [bind]. rewrite He. cbn [bind]. rewrite (get_Some _ _ _ Hchi). cbn [bind].
    destruct (zl_loop (col_F k) dt c e chi H1) as (x & ->); auto.
    { intros i j Hi Hj. unfold col_F, mix. destruct (Nat.eqb_spec j p); [lia|]. cbn [andb]. destruct (Nat.leb_spec (S p) i), (Nat.leb_spec (S p) j); try lia. reflexivity. }
    cbn [bind fst]. destruct (holds_put n pt ok dt _ e c p (zcol o a v n F p Z c) H1 Hae) as (d1 & E1 & Hd1). unfold zcol in E1 at 1. rewrite E1. exists d1. split; [reflexivity|].
    revert Hd1. apply holds_ext. intros i j _. unfold set2, col_F. rewrite Hn.
    destruct (Nat.eqb_spec j p) as [->|]; cbn [andb]; [|now rewrite andb_false_r]. rewrite andb_true_r.
    destruct (Nat.eqb_spec i c) as [->|Hic].
    + rewrite Nat.eqb_refl, orb_true_r. destruct (Nat.ltb_spec p c); [reflexivity|lia].
    + destruct (Nat.eqb_spec c i); [lia|]. now rewrite orb_false_r.
Qed.

Definition row_F (b i j : nat) : T := if (i =? p) && (p <? j) && seen b j then zrow o a v n F p Z j else col_F N i j.
Lemma uz_loop G data r : holds pt data G -> (forall i j, p < i -> p < j -> G i j = Z i j) -> p < r -> has p r ->
  for_range 0 N (add_uz o pt v data u_row l_idx (S d) r) (i_zero v) = Done (sumT n (fun m => if p <? m then mul (F p m) (Z m r) else zero)).
Proof.
  intros HD HG Hr Hpr.
  destruct (for_range_inv (fun b s => s = sumT n (fun m => if (p <? m) && seen b m then mul (F p m) (Z m r) else zero)) 0 N (add_uz o pt v data u_row l_idx (S d) r) (i_zero v)) as (s & E & H1).
  - lia.
  - rewrite start_sum. apply (il_zero _ _ _ _ il).
  - intros k s Hk Es. destruct (off k) as (c & Hat & Hc & Hpc & Hs & Hn); [lia|]. destruct HB as (_ & _ & HB'). destruct (HB' k c) as (_ & e & He & Hae); [lia|auto|].
    pose proof Hae as (_ & clo & chi & Hclo & Hchi & Hcr).
    assert (Hcl : has c r) by (apply (pk_closed _ _ ok p c r); eauto). destruct Hcl as [z Hz].
    assert (e < z) by (apply (at_lt _ _ _ C _ _ _ _ _ Hae Hz); auto). pose proof (row_p_range pt c clo chi Hclo Hchi z r Hz).
    unfold add_uz. rewrite Hc. cbn [bind]. rewrite He. cbn [bind]. rewrite (get_Some _ _ _ Hchi). cbn [bind].
    rewrite (find_entry_at n pt ok z c r clo (S e) chi chi Hz Hclo Hchi) by lia. cbn [bind]. rewrite (holds_get _ _ _ _ _ _ HD Hz). cbn [bind].
    rewrite (HU k c) by (auto; lia). cbn [bind]. eexists. split; [reflexivity|].
    rewrite (add_step (fun m => mul (F p m) (Z m r)) k c) by (auto; exact (at_col _ _ _ C _ _ _ Hat)). rewrite (il_add _ _ _ _ il), Es, HG by auto. reflexivity.
  - rewrite E, H1. f_equal. apply sum_ext. intros m Hm.
    destruct (Nat.ltb_spec p m) as [Hpm|]; cbn [andb]; auto. destruct (seen N m) eqn:Es; auto. rewrite unseen_U by auto. symmetry. apply (mul_0_l o a law).
Qed.
Lemma row_loop data : holds pt data (col_F N) ->
  exists data', for_range 0 N (row_right o pt v pivot u_row l_idx (S d) N) data = Done data' /\ holds pt data' (row_F N).
Proof.
  intros HD. apply (for_range_inv (fun b s => holds pt s (row_F b))).
  - lia.
  - revert HD. apply holds_ext. intros i j _. unfold row_F. now rewrite seen_0, andb_false_r.
  - intros k dt Hk H1. destruct (off k) as (c & Hat & Hc & Hpc & Hs & Hn); [lia|].
    unfold row_right. rewrite Hc. cbn [bind]. rewrite (uz_loop (row_F k) dt c H1); eauto.
    2:{ intros i j Hi Hj. unfold row_F, col_F, mix. destruct (Nat.eqb_spec i p); [lia|]. destruct (Nat.eqb_spec j p); [lia|]. cbn [andb].
        destruct (Nat.leb_spec (S p) i), (Nat.leb_spec (S p) j); try lia. reflexivity. }
    cbn [bind]. destruct (holds_put n pt ok dt _ (S d + k) p c (zrow o a v n F p Z c) H1 Hat) as (d1 & E1 & Hd1). unfold zrow in E1 at 1. rewrite E1. exists d1. split; [reflexivity|].
    revert Hd1. apply holds_ext. intros i j _. unfold set2, row_F. rewrite Hn.
    destruct (Nat.eqb_spec i p) as [->|]; cbn [andb]; [|reflexivity].
    destruct (Nat.eqb_spec j c) as [->|Hic].
    + rewrite Nat.eqb_refl, orb_true_r. destruct (Nat.ltb_spec p c); [reflexivity|lia].
    + destruct (Nat.eqb_spec c j); [lia|]. now rewrite orb_false_r.
Qed.
Lemma up_loop data : holds pt data (row_F N) ->
  for_range 0 N (add_up o v data u_row l_idx) (i_zero v) = Done (sumT n (fun m => if p <? m then mul (F p m) (zcol o a v n F p Z m) else zero)).
Proof.
  intros HD.
  destruct (for_range_inv (fun b s => s = sumT n (fun m => if (p <? m) && seen b m then mul (F p m) (zcol o a v n F p Z m) else zero)) 0 N (add_up o v data u_row l_idx) (i_zero v)) as (s & E & H1).
  - lia.
  - rewrite start_sum. apply (il_zero _ _ _ _ il).
  - intros k s Hk Es. destruct (off k) as (c & Hat & Hc & Hpc & Hs & Hn); [lia|]. destruct HB as (_ & _ & HB'). destruct (HB' k c) as (_ & e & He & Hae); [lia|auto|].
    unfold add_up. rewrite (HU k c) by (auto; lia). cbn [bind]. rewrite He. cbn [bind]. rewrite (holds_get _ _ _ _ _ _ HD Hae). cbn [bind]. eexists. split; [reflexivity|].
    rewrite (add_step (fun m => mul (F p m) (zcol o a v n F p Z m)) k c) by (auto; exact (at_col _ _ _ C _ _ _ Hat)). rewrite (il_add _ _ _ _ il), Es. f_equal. f_equal.
    unfold row_F, col_F. rewrite Nat.eqb_refl. destruct (Nat.eqb_spec c p); [lia|]. destruct (Nat.ltb_spec p c); [|lia]. cbn [andb].
    rewrite seen_all; eauto.
  - rewrite E, H1. f_equal. apply sum_ext. intros m Hm.
    destruct (Nat.ltb_spec p m) as [Hpm|]; cbn [andb]; auto. destruct (seen N m) eqn:Es; auto. rewrite unseen_U by auto. symmetry. apply (mul_0_l o a law).
Qed.
End Pivot.

Lemma slice_ok (data : list T) first m : first + m <= length data -> slice first m data = Done (firstn m (skipn first data)).
Proof. intros H. unfold slice. destruct (Nat.leb_spec (first + m) (length data)); [reflexivity|lia]. Qed.
Lemma update_ok p Z data : p < n -> holds pt data (mix (S p) Z) ->
  exists data', update_pivot o pt v p data = Done data' /\ holds pt data' (mix p (Znext o a v n F p Z)).
Proof.
  intros Hp HD. destruct (diag_at n pt ok p Hp) as (d & Hd & Hat).
  destruct (ip_get _ _ _ C p) as [lo Hlo]; [lia|]. destruct (ip_get _ _ _ C (S p)) as [hi Hhi]; [lia|].
  pose proof (row_p_range pt p lo hi Hlo Hhi d p Hat) as Hdr. pose proof (ip_le _ _ _ C _ _ Hhi) as Hle.
  unfold update_pivot. rewrite (get_Some _ _ _ Hd), (get_Some _ _ _ Hhi). cbn [bind]. cbv zeta.
  rewrite (holds_get _ _ _ _ _ _ HD Hat). cbn [bind].
  assert (Epp : mix (S p) Z p p = F p p) by (unfold mix; destruct (Nat.leb_spec (S p) p); [lia|reflexivity]). rewrite Epp.
  pose proof HD as [HL HF]. rewrite slice_ok by lia. cbn [bind].
  destruct (buffer_ok p Hp lo d hi Hlo Hhi Hat Z data HD) as (l & es & -> & HB). cbn [bind fst snd].
  assert (HU : forall k c, k < hi - S d -> at_ (S d + k) p c -> get (firstn (hi - S d) (skipn (S d) data)) k = Done (F p c)).
  { intros k c Hk Hc. apply get_Some. rewrite nth_firstn_lt, nth_skipn by auto. rewrite (HF _ _ _ Hc). unfold mix. destruct (Nat.leb_spec (S p) p); [lia|reflexivity]. }
  destruct (col_loop p Hp lo d hi Hlo Hhi Hat Z l _ es HB HU data HD) as (d1 & -> & Hd1). cbn [bind].
  destruct (row_loop p Hp lo d hi Hlo Hhi Hat Z l _ es HB HU d1 Hd1) as (d2 & -> & Hd2). cbn [bind].
  rewrite (up_loop p Hp lo d hi Hlo Hhi Hat Z l _ es HB HU d2 Hd2). cbn [bind].
  destruct (holds_put n pt ok d2 _ d p p (zdiag o a v n F p Z) Hd2 Hat) as (d3 & E3 & Hd3). unfold zdiag in E3 at 1. rewrite E3. exists d3. split; [reflexivity|].
  revert Hd3. apply holds_ext. intros i j Hij. unfold set2, row_F, col_F, mix, Znext.
  assert (SA : p < j -> i = p -> among pt (S d) (S d + (hi - S d)) j = true) by (intros Hj ->; apply (seen_all p Hp lo d hi Hlo Hhi Hat); auto).
  assert (SB : p < i -> j = p -> among pt (S d) (S d + (hi - S d)) i = true).
  { intros Hi ->. apply (seen_all p Hp lo d hi Hlo Hhi Hat); auto. destruct Hij as [e He]. exact (pk_sym _ _ ok _ _ _ He). }
  destruct (Nat.eqb_spec i p) as [->|Hi].
  - rewrite Nat.leb_refl. destruct (Nat.leb_spec (S p) p); [lia|]. destruct (Nat.eqb_spec j p) as [->|Hj]; cbn [andb]; [now rewrite Nat.leb_refl|].
    destruct (Nat.ltb_spec p j) as [Hpj|Hpj], (Nat.leb_spec p j); try lia; cbn [andb]; [|reflexivity]. rewrite SA by auto. reflexivity.
  - cbn [andb]. destruct (Nat.eqb_spec j p) as [->|Hj]; cbn [andb].
    + rewrite Nat.leb_refl. destruct (Nat.ltb_spec p i), (Nat.leb_spec p i), (Nat.leb_spec (S p) i), (Nat.leb_spec (S p) p); try lia; cbn [andb]; [now rewrite SB|reflexivity].
    + destruct (Nat.leb_spec p i), (Nat.leb_spec (S p) i), (Nat.leb_spec p j), (Nat.leb_spec (S p) j); try lia; reflexivity.
Qed.

(** ** all pivots *)
Hypothesis acc : forall i, i < n -> accepted o (F i i).
Lemma pivots_ok data : holds pt data F ->
  exists data' Z, fold_left (fun r p => bind r (update_pivot o pt v p)) (rev (seq 0 n)) (Done data) = Done data' /\ holds pt data' Z /\ Zinv o a one n F 0 Z.
Proof.
  intros HD. destruct (rev_range_inv (fun p s => exists Z, holds pt s (mix p Z) /\ Zinv o a one n F p Z) (update_pivot o pt v) n data) as (data' & E & Z & H1 & H2).
  - exists (Id a one). split; [|exact (Z_start o a law v one il n F acc)]. revert HD. apply holds_ext. intros i j [e He]. unfold mix.
    pose proof (at_row _ _ _ C _ _ _ He). destruct (Nat.leb_spec n i); [lia|]. reflexivity.
  - intros p s Hp (Z & H1 & H2). destruct (update_ok p Z s Hp H1) as (s' & E & H'). exists s'. split; auto. exists (Znext o a v n F p Z). split; auto.
    now apply (Z_step o a law v one il).
  - exists data', Z. split; auto.
Qed.

(** ** undoing the permutations *)
Variable perm : list (Q * Q).
Hypothesis Hperm : length perm = n.
Definition qm (i : nat) : T := match nth_error perm i with Some pq => pm (snd pq) | None => one end.
Definition pmx (i : nat) : T := match nth_error perm i with Some pq => pm (fst pq) | None => one end.
Definition restored (Z : nat -> nat -> T) (i j : nat) : T := mul (mul (qm i) (Z i j)) (pmx j).
Definition part_F (r lo b : nat) (Z : nat -> nat -> T) (i j : nat) : T := if (i <? r) || ((i =? r) && among pt lo b j) then restored Z i j else Z i j.
Lemma restore_row_ok Z r lo hi data : r < n -> nth_error (indptr pt) r = Some lo -> nth_error (indptr pt) (S r) = Some hi ->
  holds pt data (part_F r lo lo Z) -> exists data', for_range lo hi (restore_entry o pt perm r) data = Done data' /\ holds pt data' (part_F r lo hi Z).
Proof.
  intros Hr Hlo Hhi HD. pose proof (ip_sorted _ _ _ C r (S r) lo hi ltac:(lia) Hlo Hhi). apply (for_range_inv (fun b s => holds pt s (part_F r lo b Z))); auto.
  intros e dt He H1. destruct (row_p n pt ok r lo hi Hlo Hhi e) as (j & Hat & Hj); [lia|].
  assert (Hnew : among pt lo e j = false) by (apply (among_new n pt ok r lo e j e Hat); eauto).
  pose proof (at_col _ _ _ C _ _ _ Hat) as Hjn.
  destruct (nth_error perm r) as [pr|] eqn:Er; [|apply nth_error_None in Er; lia]. destruct (nth_error perm j) as [pj|] eqn:Ej; [|apply nth_error_None in Ej; lia].
  unfold restore_entry. rewrite (holds_get _ _ _ _ _ _ H1 Hat). cbn [bind]. rewrite (get_Some _ _ _ Er). cbn [bind]. rewrite (get_Some _ _ _ Hj). cbn [bind].
  rewrite (get_Some _ _ _ Ej). cbn [bind].
  match goal with |- context [put e ?x dt] => destruct (holds_put n pt ok dt _ e r j x H1 Hat) as (d1 & -> & Hd1) end. exists d1. split; [reflexivity|].
  revert Hd1. apply holds_ext. intros i k _. unfold set2, part_F. rewrite (among_next pt lo e k j) by (auto; lia). rewrite Nat.ltb_irrefl, Nat.eqb_refl, Hnew.
  destruct (Nat.eqb_spec i r) as [->|]; cbn [andb orb]; [|reflexivity]. rewrite Nat.ltb_irrefl. cbn [orb]. destruct (Nat.eqb_spec k j) as [->|].
  - rewrite Nat.eqb_refl, orb_true_r. unfold restored, qm, pmx. rewrite Er, Ej, (bl_perm_right o a law), (bl_perm_left o a law). reflexivity.
  - destruct (Nat.eqb_spec j k); [lia|]. now rewrite orb_false_r.
Qed.
Lemma restore_all Z data : holds pt data Z -> exists data', for_range 0 n (restore_entries o pt perm) data = Done data' /\ holds pt data' (restored Z).
Proof.
  intros HD. destruct (for_range_inv (fun r s => holds pt s (fun i j => if i <? r then restored Z i j else Z i j)) 0 n (restore_entries o pt perm) data) as (d' & E & H').
  - lia.
  - exact HD.
  - intros r dt Hr H1. destruct (ip_get _ _ _ C r) as [lo Hlo]; [lia|]. destruct (ip_get _ _ _ C (S r)) as [hi Hhi]; [lia|].
    unfold restore_entries. rewrite (get_Some _ _ _ Hlo), (get_Some _ _ _ Hhi). cbn [bind].
    destruct (restore_row_ok Z r lo hi dt) as (d1 & -> & Hd1); auto; [lia| |].
    { revert H1. apply holds_ext. intros i j _. unfold part_F. rewrite among_first, andb_false_r, orb_false_r. reflexivity. }
    exists d1. split; [reflexivity|]. revert Hd1. apply holds_ext. intros i j [e He]. unfold part_F.
    destruct (Nat.eqb_spec i r) as [->|Hn].
    + rewrite (among_at pt lo hi r j e He) by (exact (row_p_range pt r lo hi Hlo Hhi e j He)). rewrite orb_true_r. destruct (Nat.ltb_spec r (S r)); [reflexivity|lia].
    + cbn [andb]. rewrite orb_false_r. destruct (Nat.ltb_spec i r), (Nat.ltb_spec i (S r)); try lia; reflexivity.
  - exists d'. split; [exact E|]. revert H'. apply holds_ext. intros i j [e He]. pose proof (at_row _ _ _ C _ _ _ He). destruct (Nat.ltb_spec i n); [reflexivity|lia].
Qed.

(** the inverse of the permuted matrix gives the inverse of the matrix *)
Lemma perm_reg x : (exists i, x = qm i \/ x = pmx i) -> exists y, mul y x = one /\ mul x y = one.
Proof.
  intros (i & [-> | ->]); [unfold qm|unfold pmx]; (destruct (nth_error perm i) as [pq|]; [apply (il_perm _ _ _ _ il)|exists one; split; apply (il_one_l _ _ _ _ il)]).
Qed.
Lemma restored_inverse A Z : (forall i j, i < n -> j < n -> mul (mul (pmx i) (A i j)) (qm j) = sumT n (fun k => mul (lower a F i k) (upper a F k j))) ->
  Zinv o a one n F 0 Z -> inverse_of o a one n A (restored Z).
Proof.
  intros HA [[HZ1 HZ2] _].
  assert (EL : forall i j, LUp o a one n F 0 i j = sumT n (fun k => mul (lower a F i k) (upper a F k j))) by reflexivity.
  assert (D : forall (x y w : T) b, mul x y = one -> mul (mul x (if b : bool then one else zero)) w = if b then mul x w else zero).
  { intros x y w [|] _; [now rewrite (il_one_r _ _ _ _ il)|now rewrite (mul_0 o a law), (mul_0_l o a law)]. }
  intros i j Hi Hj. split.
  - destruct (perm_reg (pmx i)) as (y & Hy1 & Hy2); [eauto|].
    transitivity (mul (mul y (mm o a n (LUp o a one n F 0) Z i j)) (pmx j)).
    + unfold mm. rewrite (sum_mul_l o a law), (sum_mul_r o a law). apply sum_ext. intros k Hk. rewrite EL, <- HA by auto. unfold restored.
      rewrite !(bl_mul_assoc o a law), Hy1, (il_one_l _ _ _ _ il). reflexivity.
    + rewrite (HZ1 i j Hi Hj). unfold Id. rewrite (D y (pmx i)) by auto. destruct (Nat.eqb_spec i j) as [->|]; auto.
  - destruct (perm_reg (qm j)) as (y & Hy1 & Hy2); [eauto|].
    transitivity (mul (mul (qm i) (mm o a n Z (LUp o a one n F 0) i j)) y).
    + unfold mm. rewrite (sum_mul_l o a law), (sum_mul_r o a law). apply sum_ext. intros k Hk. rewrite EL, <- HA by auto. unfold restored.
      rewrite <- !(bl_mul_assoc o a law), Hy2, (il_one_r _ _ _ _ il). reflexivity.
    + rewrite (HZ2 i j Hi Hj). unfold Id. destruct (Nat.eqb_spec i j) as [->|].
      * now rewrite (il_one_r _ _ _ _ il).
      * now rewrite (mul_0 o a law), (mul_0_l o a law).
Qed.
End Refine.
