(** C23: the dense factorisation and the triangular solves. *)
From mathcomp Require Import all_ssreflect all_fingroup all_algebra.
From Verif Require Import DenseLU DenseLUSpec.
Set Implicit Arguments. Unset Strict Implicit. Unset Printing Implicit Defensive.
Import GRing.Theory. Local Open Scope ring_scope.

Section Perms.
Variables (F : fieldType) (n : nat).
Notation PM := (@perm_matrix F n).
Lemma pm_transpose s (ij : 'I_n * 'I_n) : PM (transpose_right s ij) = PM s *m tperm_mx ij.1 ij.2.
Proof. by rewrite /perm_matrix /transpose_right invMg tpermV perm_mxM. Qed.
Lemma pm_1 : PM 1%g = 1%:M. Proof. by rewrite /perm_matrix invg1 perm_mx1. Qed.
Definition tmx (ij : 'I_n * 'I_n) : 'M[F]_n := tperm_mx ij.1 ij.2.
Lemma pm_fold ts s : PM (foldl (@transpose_right n) s ts) = PM s *m foldl (fun A ij => A *m tmx ij) 1%:M ts.
Proof.
  elim: ts s => [|ij ts IH] s /=; first by rewrite mulmx1. rewrite IH pm_transpose -mulmxA mul1mx. congr (_ *m _).
  rewrite -/(tmx ij). move: (tmx ij) => B. elim/last_ind: ts {IH} => [|ts jk IH]; first by rewrite /= mulmx1. by rewrite !foldl_rcons mulmxA IH.
Qed.
Lemma pm_cols_rcons ts ij : PM (col_permutation (rcons ts ij)) = PM (col_permutation ts) *m tmx ij.
Proof. by rewrite /col_permutation foldl_rcons pm_transpose. Qed.
Lemma pm_rows_rcons ts ij : PM (row_permutation (rcons ts ij)) = tmx ij *m PM (row_permutation ts).
Proof.
  rewrite /row_permutation rev_rcons /= pm_fold pm_transpose pm_1 mul1mx. congr (_ *m _). by rewrite pm_fold pm_1 mul1mx.
Qed.
Lemma pm_is_perm s : is_permutation (PM s). Proof. by exists (s^-1)%g. Qed.
Lemma pm_unit s : PM s \in unitmx. Proof. exact: unitmx_perm. Qed.
Lemma permute_rowsE m s (X : 'M[F]_(n, m)) : permute_rows s X = PM s *m X.
Proof. rewrite /perm_matrix -row_permE. by apply/matrixP => i j; rewrite !mxE. Qed.
Lemma permute_colsE m s (X : 'M[F]_(m, n)) : permute_cols X s = X *m PM s.
Proof. rewrite /perm_matrix -col_permE. by apply/matrixP => i j; rewrite !mxE. Qed.
End Perms.

Section Factor.
Variables (F : fieldType) (n : nat).
(** the part of the factors that is finished before pivot k, and what is left *)
Definition Lk (k : nat) (M : 'M[F]_n) : 'M[F]_n := \matrix_(i, j) if (j < k)%N then (if (j < i)%N then M i j else (i == j)%:R) else 0.
Definition Uk (k : nat) (M : 'M[F]_n) : 'M[F]_n := \matrix_(i, j) if (i < k)%N then (if (i <= j)%N then M i j else 0) else 0.
Definition Dk (k : nat) (M : 'M[F]_n) : 'M[F]_n := \matrix_(i, j) if (k <= i)%N && (k <= j)%N then M i j else 0.

Lemma Lk_full M : Lk n M = lower_of M. Proof. by apply/matrixP => i j; rewrite !mxE ltn_ord. Qed.
Lemma Uk_full M : Uk n M = upper_of M. Proof. by apply/matrixP => i j; rewrite !mxE ltn_ord. Qed.
Lemma Dk_full M : Dk n M = 0. Proof. by apply/matrixP => i j; rewrite !mxE leqNgt ltn_ord. Qed.
Lemma start_0 M : Lk 0 M *m Uk 0 M + Dk 0 M = M.
Proof.
  have -> : Lk 0 M = 0 by apply/matrixP => i j; rewrite !mxE. rewrite mul0mx add0r. by apply/matrixP => i j; rewrite !mxE.
Qed.

(** swaps of rows and columns from k on commute with the decomposition *)
Lemma tperm_ge (k : nat) (p r i : 'I_n) : (k <= p)%N -> (k <= r)%N -> (k <= tperm p r i)%N = (k <= i)%N.
Proof. move=> Hp Hr. case: tpermP => [->|->|_ _] //; by rewrite Hp Hr. Qed.
Lemma swap_rows (k : nat) (p r : 'I_n) M : (k <= p)%N -> (k <= r)%N ->
  tperm_mx p r *m (Lk k M *m Uk k M + Dk k M) = Lk k (xrow p r M) *m Uk k (xrow p r M) + Dk k (xrow p r M).
Proof.
  move=> Hp Hr. rewrite mulmxDr mulmxA. congr (_ *m _ + _).
  - rewrite -xrowE. apply/matrixP => i j. rewrite !mxE. case: (ltnP j k) => // Hj.
    case: tpermP => [->|->|Hip Hir]; rewrite ?tpermL ?tpermR.
    + have H1 : (j < r)%N by apply: leq_trans Hr. have H2 : (j < p)%N by apply: leq_trans Hp. by rewrite H1 H2.
    + have H1 : (j < r)%N by apply: leq_trans Hr. have H2 : (j < p)%N by apply: leq_trans Hp. by rewrite H1 H2.
    + done.
  - apply/matrixP => i j. rewrite !mxE. case: (ltnP i k) => // Hi. case: tpermP => [E|E|_ _] //; move: Hi; by rewrite E ltnNge ?Hp ?Hr.
  - rewrite -xrowE. apply/matrixP => i j. by rewrite !mxE tperm_ge.
Qed.
Lemma swap_cols (k : nat) (p c : 'I_n) M : (k <= p)%N -> (k <= c)%N ->
  (Lk k M *m Uk k M + Dk k M) *m tperm_mx p c = Lk k (xcol p c M) *m Uk k (xcol p c M) + Dk k (xcol p c M).
Proof.
  move=> Hp Hc. rewrite mulmxDl -mulmxA. congr (_ *m _ + _).
  - apply/matrixP => i j. rewrite !mxE. case: (ltnP j k) => // Hj. case: tpermP => [E|E|_ _] //; move: Hj; by rewrite E ltnNge ?Hp ?Hc.
  - rewrite -xcolE. apply/matrixP => i j. rewrite !mxE. case: (ltnP i k) => // Hi.
    have H1 : (i <= p)%N by apply: ltnW; apply: leq_trans Hp. have H2 : (i <= c)%N by apply: ltnW; apply: leq_trans Hc.
    case: tpermP => [->|->|Hip Hir] //; by rewrite H1 H2.
  - rewrite -xcolE. apply/matrixP => i j. by rewrite !mxE tperm_ge.
Qed.

(** one elimination step *)
Lemma gauss_step (p : 'I_n) (M : 'M[F]_n) : M p p != 0 ->
  Lk p.+1 (gauss p M) *m Uk p.+1 (gauss p M) + Dk p.+1 (gauss p M) = Lk p M *m Uk p M + Dk p M.
Proof.
  move=> Hpp. set G := gauss p M.
  have GE i j : G i j = if (p < i)%N && (p < j)%N then M i j - M i p / M p p * M p j else if (p < i)%N && (j == p) then M i j / M p p else M i j.
  { rewrite /G /gauss !mxE ltnn eqxx /= andbT. case: (ltnP p i) => //= Hi. case: (ltnP p j) => //= Hj.
    by have -> : (j == p) = false by apply/eqP => E; rewrite E ltnn in Hj. }
  clearbody G. apply/matrixP => i j. rewrite !mxE.
  rewrite (bigD1 p) //= [in RHS](bigD1 p) //= !mxE ltnSn ltnn mul0r add0r.
  have -> : \sum_(t < n | t != p) Lk p.+1 G i t * Uk p.+1 G t j = \sum_(t < n | t != p) Lk p M i t * Uk p M t j.
  { apply: eq_bigr => t Ht. rewrite !mxE ltnS leq_eqVlt. have -> : (t == p :> nat) = false by exact: negbTE. rewrite /=.
    case: (ltnP t p) => Hlt; last by rewrite !mul0r.
    have HN : (p < t)%N = false by rewrite ltnNge ltnW. rewrite !GE HN /= (negbTE Ht) !andbF.
    by []. }
  rewrite [LHS]addrC addrA [RHS]addrC. congr (_ + _).
  rewrite !GE ltnn /= ?andbT !eqxx /=.
  case: (ltngtP i p) => [Hi|Hi|Hi]; last (have Ei : i = p by apply: val_inj).
  - have -> : (i == p) = false by apply/eqP => E; rewrite E ltnn in Hi. by rewrite /= mul0r addr0.
  - rewrite /=. case: (ltngtP p j) => [Hj|Hj|Hj].
    + by rewrite subrK.
    + by rewrite mulr0 addr0.
    + have -> : j = p by apply: val_inj. by rewrite add0r mulfVK.
  - rewrite Ei eqxx /= mul1r. case: (ltngtP p j) => [Hj|Hj|Hj]; by rewrite /= add0r.
Qed.

Variables (biggest : 'I_n -> 'M[F]_n -> 'I_n * 'I_n) (perturb : F -> option F) (use_perturbation : bool) (accept : 'M[F]_n -> 'I_n -> bool).
Hypothesis Hbig : picks_biggest biggest.
Notation step := (pivot_block biggest perturb use_perturbation).
Notation PR s := (@perm_matrix F n (row_permutation (f_rows s))).
Notation PC s := (@perm_matrix F n (col_permutation (f_cols s))).

(** after k pivots: a zero on the diagonal, or an exact partial factorisation unless a pivot was perturbed *)
Definition finv (A : 'M[F]_n) (k : nat) (s : fstate F n) : Prop :=
  (exists2 p : 'I_n, (p < k)%N & f_mx s p p = 0) \/
  (f_stop s = false /\ (f_pert s = false -> PR s *m A *m PC s = Lk k (f_mx s) *m Uk k (f_mx s) + Dk k (f_mx s))).

Lemma keeps_diag (p i r c : 'I_n) (M : 'M[F]_n) : (i < p)%N -> (p <= r)%N -> (p <= c)%N -> gauss p (xcol p c (xrow p r M)) i i = M i i.
Proof.
  move=> Hi Hr Hc. rewrite /gauss !mxE. have -> : (p < i)%N = false by rewrite ltnNge ltnW. rewrite /=.
  by rewrite !tpermD // ; apply/eqP => E; move: Hi; rewrite -?E ltnNge ?leqnn ?Hr ?Hc.
Qed.
Lemma finv_step A (p : 'I_n) s : finv A p s -> finv A p.+1 (step s p).
Proof.
  rewrite /pivot_block. move: (Hbig p (f_mx s)). case: (biggest p (f_mx s)) => r c [Hr [Hc Hz]].
  case=> [[q Hq Eq]|[Hstop HE]].
  - left. exists q; first exact: ltnW. case: ifP => // _.
    case: (perturb _) => [v|] /=; rewrite keeps_diag //. rewrite !mxE. case: ifP => // /andP [/eqP E _]. by move: Hq; rewrite E ltnNge Hr.
  - rewrite Hstop /=. case: ifP => [/andP [/eqP E _]|Hgo].
    { left. exists p => //=. by apply: Hz. }
    case Ep: (perturb _) => [v|] /=; first by right.
    case E0: (f_mx s r c == 0).
    { left. exists p => //=. rewrite /gauss !mxE ltnn /= tpermL tpermL. exact/eqP. }
    right. split=> // Hf. rewrite pm_rows_rcons pm_cols_rcons /tmx /=. rewrite -!mulmxA [_ *m (A *m _)]mulmxA [PR s *m _ *m _]mulmxA.
    rewrite mulmxA (HE Hf). rewrite gauss_step; last by rewrite !mxE tpermL tpermL E0.
    by rewrite swap_rows // swap_cols.
Qed.
Lemma finv_all A : finv A n (foldl step (FState A [::] [::] false false) (enum 'I_n)).
Proof.
  have H k : (k <= n)%N -> finv A k (foldl step (FState A [::] [::] false false) (take k (enum 'I_n))).
  { elim: k => [|k IH] Hk.
    - rewrite take0 /=. right. split=> // _. by rewrite /row_permutation /col_permutation /= !pm_1 mul1mx mulmx1 start_0.
    - rewrite (take_nth (Ordinal Hk)) ?size_enum_ord // foldl_rcons.
      have -> : nth (Ordinal Hk) (enum 'I_n) k = Ordinal Hk by apply: val_inj; rewrite /= nth_enum_ord.
      apply: (@finv_step A (Ordinal Hk)). exact: IH (ltnW Hk). }
  move: (H n (leqnn n)). by rewrite take_oversize ?size_enum_ord.
Qed.

Hypothesis Haccept : forall M i, accept M i -> M i i != 0.
Lemma factorized A M p q b : factorize_block biggest perturb use_perturbation accept A = Some (M, p, q, b) ->
  (forall i, M i i != 0) /\ (b = false -> perm_matrix F p *m A *m perm_matrix F q = lower_of M *m upper_of M).
Proof.
  rewrite /factorize_block. set s := foldl _ _ _. case: allP => // Hall [<- <- <- <-].
  have Hd i : f_mx s i i != 0 by apply: Haccept; apply: Hall; rewrite mem_enum.
  split=> // Hb. case: (finv_all A) => [[i _ E]|[_ HE]]; first by move: (Hd i); rewrite E eqxx.
  by rewrite HE // Lk_full Uk_full Dk_full addr0.
Qed.
End Factor.

(** ** regular blocks are never refused *)
Section Regular.
Variables (F : fieldType) (n : nat) (biggest : 'I_n -> 'M[F]_n -> 'I_n * 'I_n).
Hypothesis Hbig : picks_biggest biggest.
Notation step := (pivot_block biggest (fun _ => None) false).
Definition rinv (A : 'M[F]_n) (k : nat) (s : fstate F n) : Prop := f_pert s = false /\
  if f_stop s then \det A = 0
  else perm_matrix F (row_permutation (f_rows s)) *m A *m perm_matrix F (col_permutation (f_cols s)) = Lk k (f_mx s) *m Uk k (f_mx s) + Dk k (f_mx s) /\
    forall p : 'I_n, (p < k)%N -> f_mx s p p != 0.
Lemma zero_row_det (p : 'I_n) (M : 'M[F]_n) : (forall j, M p j = 0) -> \det M = 0.
Proof. move=> H. rewrite (expand_det_row _ p). by apply: big1 => j _; rewrite H mul0r. Qed.
Lemma rinv_step A (p : 'I_n) s : rinv A p s -> rinv A p.+1 (step s p).
Proof.
  rewrite /pivot_block. move: (Hbig p (f_mx s)). case: (biggest p (f_mx s)) => r c [Hr [Hc Hz]] [Hf H].
  case: ifP => [Hgo|/norP [Hns Hnz]].
  - split=> //=. move: Hgo H; case: (f_stop s) => //= /andP [/eqP E _] [HE _].
    have HD : Dk p (f_mx s) = 0.
    { apply/matrixP => i j. rewrite !mxE. case: ifP => // /andP [Hi Hj]. exact: Hz. }
    have Hdet : \det (Lk p (f_mx s) *m Uk p (f_mx s) + Dk p (f_mx s)) = 0.
    { rewrite HD addr0 det_mulmx (@zero_row_det p (Uk p (f_mx s))) ?mulr0 // => j. by rewrite !mxE ltnn. }
    move: Hdet. rewrite -HE !det_mulmx => /eqP. rewrite !mulf_eq0.
    have U t : \det (perm_matrix F t) == 0 = false by apply/negbTE; rewrite -unitfE -unitmxE; apply: pm_unit.
    by rewrite !U orbF /= => /eqP.
  - move: H. rewrite (negbTE Hns) => [[HE Hd]]. split=> //=. rewrite andbT in Hnz. split.
    + rewrite pm_rows_rcons pm_cols_rcons /tmx /=. rewrite -!mulmxA [_ *m (A *m _)]mulmxA [perm_matrix _ _ *m _ *m _]mulmxA.
      rewrite mulmxA HE. rewrite gauss_step; last by rewrite !mxE tpermL tpermL.
      by rewrite swap_rows // swap_cols.
    + move=> q. rewrite ltnS leq_eqVlt => /orP [/eqP E|Hq].
      * have -> : q = p by apply: val_inj. by rewrite /gauss !mxE ltnn /= tpermL tpermL.
      * rewrite keeps_diag //. exact: Hd.
Qed.
Lemma rinv_all A : rinv A n (foldl step (FState A [::] [::] false false) (enum 'I_n)).
Proof.
  have H k : (k <= n)%N -> rinv A k (foldl step (FState A [::] [::] false false) (take k (enum 'I_n))).
  { elim: k => [|k IH] Hk.
    - rewrite take0 /=. split=> //=. split=> //. by rewrite /row_permutation /col_permutation /= !pm_1 mul1mx mulmx1 start_0.
    - rewrite (take_nth (Ordinal Hk)) ?size_enum_ord // foldl_rcons.
      have -> : nth (Ordinal Hk) (enum 'I_n) k = Ordinal Hk by apply: val_inj; rewrite /= nth_enum_ord.
      apply: (@rinv_step A (Ordinal Hk)). exact: IH (ltnW Hk). }
  move: (H n (leqnn n)). by rewrite take_oversize ?size_enum_ord.
Qed.
End Regular.

(** ** triangular solves *)
Section Triangular.
Variables (F : fieldType) (n m : nat) (lu : 'M[F]_n).
Implicit Types (X : 'M[F]_(n, m)).
Lemma sub_rows X (i : 'I_n) before : i \notin before -> forall r j,
  foldl (fun X k => sub_row lu i k X) X before r j = if r == i then X i j - \sum_(k <- before) lu i k * X k j else X r j.
Proof.
  elim: before X => [|k before IH] X; first by move=> _ r j /=; rewrite big_nil subr0; case: eqP => [->|].
  rewrite inE negb_or => /andP [Hk Hi] r j. rewrite /= IH // !mxE eqxx big_cons. case: eqP => // _.
  rewrite opprD addrA. congr (_ - _). apply: eq_big_seq => t Ht. rewrite !mxE.
  by have -> : (t == i) = false by apply/negP => /eqP E; move: Hi; rewrite -E Ht.
Qed.
Definition diag_of (upper : bool) (i : 'I_n) : F := if upper then lu i i else 1.
Lemma solve_leftP upper order : forall before X, uniq (before ++ order) -> (forall i, i \in order -> diag_of upper i != 0) ->
  let Y := solve_left lu upper before order X in
  (forall i j, i \notin order -> Y i j = X i j) /\
  (forall i j, i \in order -> diag_of upper i * Y i j + \sum_(k <- before ++ take (index i order) order) lu i k * Y k j = X i j).
Proof.
  elim: order => [|i order IH] before X Hu Hd /=; first by split.
  have Hi : i \notin before by move: Hu; rewrite cat_uniq => /and3P [_ /hasPn H _]; apply: H; rewrite inE eqxx.
  have Hi' : i \notin order by move: Hu; rewrite cat_uniq /= => /and3P [_ _ /andP []].
  set X1 := foldl _ X before. set X2 := if upper then div_row lu i X1 else X1.
  have E2 r j : X2 r j = if r == i then (X i j - \sum_(k <- before) lu i k * X k j) / diag_of upper i else X r j.
  { rewrite /X2 /diag_of. case: upper {Hd IH X2}; rewrite ?mxE /X1 !sub_rows //; case: eqP => // _; by rewrite ?eqxx ?divr1. }
  have [H1 H2] : let Y := solve_left lu upper (rcons before i) order X2 in
     (forall i j, i \notin order -> Y i j = X2 i j) /\
     (forall i0 j, i0 \in order -> diag_of upper i0 * Y i0 j + \sum_(k <- rcons before i ++ take (index i0 order) order) lu i0 k * Y k j = X2 i0 j).
  { apply: IH; first by rewrite cat_rcons. by move=> t Ht; apply: Hd; rewrite inE Ht orbT. }
  set Y := solve_left _ _ _ _ _ in H1 H2 *. split.
  - move=> r j. rewrite inE negb_or => /andP [Hr Hr']. by rewrite H1 // E2 (negbTE Hr).
  - move=> r j. rewrite inE. case: (altP (r =P i)) => [-> _|Hr /= Hro].
    + rewrite eqxx /= cats0 H1 // E2 eqxx mulrC divfK; last by apply: Hd; rewrite inE eqxx.
      rewrite -[RHS](subrK (\sum_(k <- before) lu i k * X k j)). congr (_ + _). apply: eq_big_seq => k Hk.
      have Hko : k \notin order. { apply/negP => Hko. move: Hu. rewrite cat_uniq => /and3P [_ /hasPn H _]. move: (H k). rewrite inE Hko orbT => /(_ isT) /negP. by apply. }
      rewrite H1 // E2. by have -> : (k == i) = false by apply/negP => /eqP E; move: Hi; rewrite -E Hk.
    + rewrite eq_sym (negbTE Hr) /= -cat_rcons H2 // E2 (negbTE Hr). by [].
Qed.
End Triangular.

Section Right.
Variables (F : fieldType) (n m : nat) (lu : 'M[F]_n).
Lemma solve_rightE upper order : forall before (X : 'M[F]_(m, n)), solve_right lu upper before order X = (solve_left lu^T upper before order X^T)^T.
Proof.
  elim: order => [|i order IH] before X /=; first by rewrite trmxK. rewrite IH. congr (solve_left _ _ _ _ _)^T.
  have E : forall Z : 'M[F]_(m, n), (foldl (fun X k => sub_col lu i k X) Z before)^T = foldl (fun X k => sub_row lu^T i k X) Z^T before.
  { elim: before => //= k before IHb Z. rewrite IHb. congr (foldl _ _ _). by apply/matrixP => r j; rewrite !mxE. }
  case: upper {IH}; last exact: E. rewrite -E. by apply/matrixP => r j; rewrite !mxE.
Qed.
End Right.

Section Orders.
Variable n : nat.
Lemma mem_before_forward (i k : 'I_n) : (k \in take (index i (enum 'I_n)) (enum 'I_n)) = (k < i)%N.
Proof. by rewrite in_take ?mem_enum // !index_enum_ord. Qed.
Lemma index_backward (i : 'I_n) : index i (rev (enum 'I_n)) = (n - i.+1)%N.
Proof.
  have Hs : (n - i.+1 < size (rev (enum 'I_n)))%N by rewrite size_rev size_enum_ord; case: n i => [[]//|n' i]; rewrite subSS ltnS leq_subr.
  rewrite -{1}[i](_ : nth i (rev (enum 'I_n)) (n - i.+1) = i); first by rewrite index_uniq // rev_uniq enum_uniq.
  rewrite nth_rev ?size_enum_ord; last by move: Hs; rewrite size_rev size_enum_ord.
  apply: val_inj. rewrite /= nth_enum_ord; last by case: n i {Hs} => [[]//|n' i]; rewrite subSS ltnS leq_subr.
  have Hi := ltn_ord i. rewrite -subSn // subSS subKn //. exact: ltnW.
Qed.
Lemma mem_before_backward (i k : 'I_n) : (k \in take (index i (rev (enum 'I_n))) (rev (enum 'I_n))) = (i < k)%N.
Proof. rewrite in_take ?mem_rev ?mem_enum // !index_backward. case: (ltnP i k) => H.
  - rewrite ltn_sub2l //. exact: leq_ltn_trans (ltn_ord k).
  - apply/negbTE. by rewrite -leqNgt leq_sub2l.
Qed.
End Orders.

Section Solves.
Variables (F : fieldType) (n m : nat) (M : 'M[F]_n).
Lemma sum_before (f : 'I_n -> F) (s : seq 'I_n) (P : pred 'I_n) : uniq s -> (forall k, (k \in s) = P k) -> \sum_(k <- s) f k = \sum_(k | P k) f k.
Proof. move=> Hu H. rewrite big_uniq //. exact: eq_bigl. Qed.
Lemma split_at (i : 'I_n) (f : 'I_n -> F) (P : pred 'I_n) : ~~ P i -> (forall k, k != i -> ~~ P k -> f k = 0) -> \sum_k f k = f i + \sum_(k | P k) f k.
Proof.
  move=> Hi H. rewrite (bigD1 i) //=. congr (_ + _). rewrite (bigID P) /= [X in _ + X]big1 ?addr0 => [|k /andP [H1 H2]]; last exact: H.
  apply: eq_bigl => k. case: eqP => //= ->. by rewrite (negbTE Hi).
Qed.
Lemma lower_solved (X : 'M[F]_(n, m)) : lower_of M *m solve_left_lower M X = X.
Proof.
  have [|//|_ H] := @solve_leftP F n m M false (enum 'I_n) [::] X; first by rewrite enum_uniq. move=> i _; exact: oner_neq0.
  apply/matrixP => i j. rewrite -[RHS](H i j) ?mem_enum // mxE /= (@split_at i _ (fun k => (k < i)%N)) ?ltnn //.
  - rewrite mxE ltnn eqxx. congr (_ + _). rewrite (@sum_before _ _ (fun k => (k < i)%N)); [|by rewrite take_uniq // enum_uniq|exact: mem_before_forward].
    apply: eq_bigr => k Hk. by rewrite mxE Hk.
  - move=> k Hk Hn. by rewrite mxE (negbTE Hn) eq_sym (negbTE Hk) mul0r.
Qed.
Lemma upper_solved (X : 'M[F]_(n, m)) : (forall i, M i i != 0) -> upper_of M *m solve_left_upper M X = X.
Proof.
  move=> Hd. have [|i _|_ H] := @solve_leftP F n m M true (rev (enum 'I_n)) [::] X; [by rewrite rev_uniq enum_uniq|exact: Hd|].
  apply/matrixP => i j. rewrite -[RHS](H i j) ?mem_rev ?mem_enum // mxE /= (@split_at i _ (fun k => (i < k)%N)) ?ltnn //.
  - rewrite mxE leqnn. congr (_ + _). rewrite (@sum_before _ _ (fun k => (i < k)%N)); [|by rewrite take_uniq // rev_uniq enum_uniq|exact: mem_before_backward].
    apply: eq_bigr => k Hk. by rewrite mxE ltnW.
  - move=> k Hk. rewrite -leqNgt leq_eqVlt => /orP [/eqP E|Hlt]; first by case/eqP: Hk; apply: val_inj; rewrite /= E. by rewrite mxE leqNgt Hlt mul0r.
Qed.
Lemma right_upper_solved (X : 'M[F]_(m, n)) : (forall i, M i i != 0) -> solve_right_upper M X *m upper_of M = X.
Proof.
  move=> Hd. rewrite /solve_right_upper solve_rightE. have [|i _|_ H] := @solve_leftP F n m M^T true (enum 'I_n) [::] X^T; [by rewrite enum_uniq|by rewrite /= mxE; exact: Hd|].
  apply/matrixP => j i. have HT : X j i = X^T i j by rewrite mxE. rewrite HT -(H i j) ?mem_enum // [LHS]mxE /= (@split_at i _ (fun k => (k < i)%N)) ?ltnn //.
  - rewrite !mxE leqnn [LHS]addrC [RHS]addrC mulrC. congr (_ + _). rewrite (@sum_before _ _ (fun k => (k < i)%N)); [|by rewrite take_uniq // enum_uniq|exact: mem_before_forward].
    apply: eq_bigr => k Hk. by rewrite !mxE ltnW // mulrC.
  - move=> k Hk. rewrite -leqNgt leq_eqVlt => /orP [/eqP E|Hlt]; first by case/eqP: Hk; apply: val_inj; rewrite /= E. by rewrite !mxE leqNgt Hlt mulr0.
Qed.
Lemma right_lower_solved (X : 'M[F]_(m, n)) : solve_right_lower M X *m lower_of M = X.
Proof.
  rewrite /solve_right_lower solve_rightE. have [|i _|_ H] := @solve_leftP F n m M^T false (rev (enum 'I_n)) [::] X^T; [by rewrite rev_uniq enum_uniq|exact: oner_neq0|].
  apply/matrixP => j i. have HT : X j i = X^T i j by rewrite mxE. rewrite HT -(H i j) ?mem_rev ?mem_enum // [LHS]mxE /= (@split_at i _ (fun k => (i < k)%N)) ?ltnn //.
  - rewrite !mxE ltnn eqxx [LHS]addrC [RHS]addrC mulrC. congr (_ + _). rewrite (@sum_before _ _ (fun k => (i < k)%N)); [|by rewrite take_uniq // rev_uniq enum_uniq|exact: mem_before_backward].
    apply: eq_bigr => k Hk. by rewrite !mxE Hk mulrC.
  - move=> k Hk Hn. by rewrite !mxE (negbTE Hn) (negbTE Hk) mulr0.
Qed.
End Solves.

(** ** C23 *)
Section C23.
Variables (F : fieldType) (n : nat) (biggest : 'I_n -> 'M[F]_n -> 'I_n * 'I_n) (perturb : F -> option F) (use_perturbation : bool) (accept : 'M[F]_n -> 'I_n -> bool).
Hypothesis Hbig : picks_biggest biggest.
(** a zero is not a normal number: [is_normal] refuses it *)
Hypothesis Haccept : forall M i, accept M i -> M i i != 0.
Notation factorize := (factorize_block biggest perturb use_perturbation accept).

Theorem C23_factors A M p q : factorize A = Some (M, p, q, false) ->
  is_permutation (perm_matrix F p) /\ is_permutation (perm_matrix F q) /\
  perm_matrix F p *m A *m perm_matrix F q = lower_of M *m upper_of M /\ forall i, upper_of M i i != 0.
Proof.
  case/(factorized Hbig Haccept) => Hd HE. split; first exact: pm_is_perm. split; first exact: pm_is_perm. split; first exact: HE.
  by move=> i; rewrite mxE leqnn.
Qed.
(** the four solves undo the multiplication with a factor, for every pivot that was accepted, perturbed or not *)
Theorem C23_solves A M p q b : factorize A = Some (M, p, q, b) ->
  (forall m (X : 'M[F]_(n, m)), lower_of M *m solve_left_lower M X = X /\ upper_of M *m solve_left_upper M X = X) /\
  (forall m (X : 'M[F]_(m, n)), solve_right_lower M X *m lower_of M = X /\ solve_right_upper M X *m upper_of M = X).
Proof.
  case/(factorized Hbig Haccept) => Hd _. split=> m X; split.
  - exact: lower_solved. - exact: upper_solved. - exact: right_lower_solved. - exact: right_upper_solved.
Qed.
Theorem C23_inverse A M p q : factorize A = Some (M, p, q, false) -> A \in unitmx /\ dense_inverse M p q = invmx A.
Proof.
  move=> H. have [_ [_ [HE _]]] := C23_factors H. have [HS _] := C23_solves H.
  have H1 : lower_of M *m upper_of M *m inverse_factorized_block M = 1%:M.
  { rewrite -mulmxA. have [_ ->] := HS n (solve_left_lower M 1%:M). by have [-> _] := HS n 1%:M. }
  have Hp := pm_unit F p. have Hq := pm_unit F q. have [HU _] := mulmx1_unit H1.
  have HA : A \in unitmx by move: HU; rewrite -HE !unitmx_mul Hp Hq andbT.
  split=> //. rewrite /dense_inverse permute_colsE permute_rowsE.
  have H2 : A *m (perm_matrix F q *m inverse_factorized_block M *m perm_matrix F p) = 1%:M.
  { have H3 : perm_matrix F p *m (A *m perm_matrix F q *m inverse_factorized_block M) = 1%:M by rewrite !mulmxA HE.
    by move: (mulmx1C H3); rewrite !mulmxA. }
  by rewrite -[LHS]mul1mx -(mulVmx HA) -[_ *m A *m _]mulmxA H2 mulmx1.
Qed.
(** without perturbation, and with only zeros refused, exactly the singular blocks are refused *)
Theorem C23_regular A : (A \in unitmx) = isSome (factorize_block biggest (fun _ => None) false (fun M i => M i i != 0) A).
Proof.
  rewrite /factorize_block. have [Hf H] := rinv_all Hbig A. set s := foldl _ _ _ in H Hf *. case: allP => Hall /=.
  - have E : factorize_block biggest (fun _ => None) false (fun M i => M i i != 0) A = Some (f_mx s, row_permutation (f_rows s), col_permutation (f_cols s), false).
    { rewrite /factorize_block -/s Hf. by case: allP. }
    have [_ Hx] : (forall i, f_mx s i i != 0) /\ (false = false -> perm_matrix F (row_permutation (f_rows s)) *m A *m perm_matrix F (col_permutation (f_cols s)) = lower_of (f_mx s) *m upper_of (f_mx s)).
    { by apply: (factorized Hbig _ E). }
    have Hd i : f_mx s i i != 0 by apply: Hall; rewrite mem_enum.
    have HU : lower_of (f_mx s) *m upper_of (f_mx s) \in unitmx.
    { have H1 : lower_of (f_mx s) *m upper_of (f_mx s) *m inverse_factorized_block (f_mx s) = 1%:M by rewrite -mulmxA upper_solved // lower_solved.
      by have [] := mulmx1_unit H1. }
    move: HU. rewrite -Hx // !unitmx_mul => /andP [/andP [_ ->]] //.
  - apply/negbTE. rewrite unitmxE unitfE. move: H. case: ifP => [_ ->|_ [_ Hd]]; first by rewrite eqxx. case: Hall => i _. exact: Hd.
Qed.
End C23.

(** a position as the search finds it exists for every field: the first entry of the corner that is not zero *)
Definition first_nonzero (F : fieldType) (n : nat) (p : 'I_n) (M : 'M[F]_n) : 'I_n * 'I_n :=
  odflt (p, p) [pick rc : 'I_n * 'I_n | [&& (p <= rc.1)%N, (p <= rc.2)%N & M rc.1 rc.2 != 0]].
Lemma first_nonzero_picks (F : fieldType) n : picks_biggest (@first_nonzero F n).
Proof.
  move=> p M. rewrite /first_nonzero. case: pickP => [[r c] /= /and3P [Hr Hc Hn]|H] /=.
  - split=> //. split=> //. move=> E. by rewrite E eqxx in Hn.
  - split=> //. split=> // _ i j Hi Hj. move: (H (i, j)). rewrite /= Hi Hj /=. by move/negbT; rewrite negbK => /eqP.
Qed.
(** a block with zeros on its diagonal is factored *)
Example demo_block : isSome (factorize_block (@first_nonzero [fieldType of rat] 2) (fun _ => None) false (fun M i => M i i != 0)
  (\matrix_(i, j) (i != j)%:R)).
Proof.
  rewrite -(C23_regular (@first_nonzero_picks _ 2)). set A := \matrix_(i, j) _.
  have H : A *m A = 1%:M.
  { apply/matrixP => i j. rewrite !mxE !big_ord_recl big_ord0 !mxE /=. by case: i => [[|[|//]] Hi]; case: j => [[|[|//]] Hj]; rewrite /= ?mulr1 ?mulr0 ?addr0 ?add0r. }
  by have [] := mulmx1_unit H.
Qed.
Print Assumptions C23_factors. Print Assumptions C23_solves. Print Assumptions C23_inverse. Print Assumptions C23_regular. Print Assumptions demo_block.
