(** Converting a well-formed token sequence to text and reading the text. *)
From Coq Require Import String Ascii DecimalString DecimalZ.
From Verif Require Import Common Serial SerialSpec Json JsonSpec JsonFacts.
Local Open Scope nat_scope.

Section Trip.
Context {D : Type}.
Variables (nan : D) (is_nan : D -> bool) (of_int : Z -> D) (pinf ninf : D) (inf_sign : D -> option bool).
Variables (show_double : D -> string) (read_double : string -> option D) (equal : D -> D -> Prop).
Notation rtext := (read_text pinf ninf read_double).
Notation fd := (feed pinf ninf).
Notation stl := (settle pinf ninf read_double).
Notation reread := (reread is_nan inf_sign show_double).
Notation obj := (obj is_nan).
Variable indent : Z.
Variable max_level : nat.
Notation conv := (convert inf_sign show_double indent max_level).
Notation ctoken := (convert_token inf_sign show_double indent max_level).
Notation before := (before_item indent max_level).
Notation after := (after_item indent max_level).
Notation pindent := (print_indent indent max_level).
Notation clos := (closing indent max_level).

Definition cont (st : list frame) (txt : string) (rest : list (token D)) : res string :=
  match st with [] => Done txt | _ => bindR (conv st rest) (fun s => Done (txt ++ s)%string) end.
Lemma convert_cons st t l : conv st (t :: l) = cont (snd (ctoken st t)) (fst (ctoken st t)) l.
Proof. cbn [convert]. unfold cont. destruct (snd (ctoken st t)); reflexivity. Qed.
Lemma cont_app st a b rest : bindR (cont st a rest) (fun s => Done (b ++ s)%string) = cont st (b ++ a)%string rest.
Proof. unfold cont. destruct st; [reflexivity|]. destruct (conv _ rest); cbn [bindR]; [rewrite app_assoc_s|..]; reflexivity. Qed.
Lemma cont_cons f r txt rest : cont (f :: r) txt rest = bindR (conv (f :: r) rest) (fun s => Done (txt ++ s)%string).
Proof. reflexivity. Qed.

Lemma blank_spaces n : blankS (spaces n).
Proof. induction n; cbn; auto. Qed.
Lemma print_indent_blank st : blankS (fst (pindent st)).
Proof.
  unfold print_indent. destruct (indent <? 0)%Z; [exact I|]. destruct (max_level <? List.length st).
  - destruct st as [|f r]; [exact I|]. destruct (fr_begin f); cbn; auto.
  - cbn. split; [reflexivity|]. apply blank_spaces.
Qed.
Lemma print_indent_top f r : exists ws b, pindent (f :: r) = (ws, mkFrame (fr_map f) (fr_value f) (fr_size f) (fr_empty f) b :: r) /\ blankS ws.
Proof.
  pose proof (print_indent_blank (f :: r)) as B. unfold print_indent in *. destruct f as [m v n e b]. cbn [fr_map fr_value fr_size fr_empty fr_begin] in *.
  destruct (indent <? 0)%Z; [eexists; exists b; split; [reflexivity|exact B]|]. destruct (max_level <? List.length _); [|eexists; exists b; split; [reflexivity|exact B]].
  destruct b; eexists; eexists; (split; [reflexivity|exact B]).
Qed.
Lemma closing_text f r : exists ws, clos f r = (ws ++ bracket (fr_map f) true)%string /\ blankS ws.
Proof. unfold closing. destruct (_ && _); eexists; (split; [reflexivity|]); [apply print_indent_blank|exact I]. Qed.
Lemma closing_same f g r : fr_map f = fr_map g -> fr_empty f = fr_empty g -> clos f r = clos g r.
Proof. unfold closing. intros -> ->. reflexivity. Qed.
Lemma sep_blank : blankS (key_val_sep indent).
Proof. unfold key_val_sep. destruct (indent <? 0)%Z; cbn; auto. Qed.

(** ** what the reader does with an object *)
Definition give (l : list (token D)) (x : sax (D := D)) : res (sax (D := D)) :=
  match sx_stack x, l with [], MapH _ :: _ => Done (mkSax After_value [] (sx_root x ++ l)) | _, _ => put l x end.
Lemma give_mode l m x : give l (mkSax m (sx_stack x) (sx_root x)) = give l x.
Proof. reflexivity. Qed.
Definition speaks (l : list (token D)) (d : nat) (txt : string) : Prop :=
  forall x y, wants x -> List.length (sx_stack x) + d <= 11 -> give (map reread l) x = Done y -> exists lx x2, rtext Idle x txt = Done (lx, x2) /\ stl lx x2 = Done y.

Lemma mark_bracket m c : exists ch, bracket m c = String ch EmptyString /\ mark (D := D) ch = Some (if c then L_close m else L_open m) /\ white ch = false /\ ch <> quote.
Proof. destruct m, c; cbn [bracket]; eexists; (split; [reflexivity|]); (split; [reflexivity|]); (split; [reflexivity|discriminate]). Qed.
Lemma read_bracket m c lx x x' : stl lx x = Done x' -> rtext lx x (bracket m c) = bindR (fd x' (if c then L_close m else L_open m)) (fun y => Done (Idle, y)).
Proof. intros S. destruct (mark_bracket m c) as (ch & -> & M & W & Q). rewrite (read_mark pinf ninf read_double _ _ _ _ _ _ S M W Q). reflexivity. Qed.
Lemma read_closing f r lx x x' y : stl lx x = Done x' -> fd x' (L_close (fr_map f)) = Done y -> rtext lx x (clos f r) = Done (Idle, y).
Proof.
  intros S F. destruct (closing_text f r) as (ws & -> & B). rewrite read_text_app. destruct (read_blank pinf ninf read_double ws B lx x x' S) as (lx2 & x2 & -> & S2 & _). cbn [bindR fst snd].
  rewrite (read_bracket _ true _ _ _ S2), F. reflexivity.
Qed.
Lemma finish_ok (m : bool) n buf s root y : fits n -> give ((if m then MapH n else ArrayH n) :: buf) (mkSax After_value s root) = Done y ->
  finish m (mkSax (D := D) After_value (mkJ m n buf :: s) root) = Done y /\ finish m (mkSax (D := D) First_item (mkJ m n buf :: s) root) = Done y /\ finish m (mkSax (D := D) First_key (mkJ m n buf :: s) root) = Done y.
Proof.
  intros F G. unfold finish. cbn [sx_stack jf_map jf_size jf_buf sx_root]. rewrite Bool.eqb_reflx. unfold fits in F. unfold uint32_end. replace (Z.of_nat n <? 4294967296)%Z with true by lia. cbn [negb].
  unfold give in G. cbn [sx_stack sx_root] in G. destruct s as [|j s]; destruct m; cbn [andb] in *; auto.
Qed.

(** ** items of an array *)
Section Items.
Variable d : nat.
Hypothesis IH : forall l, obj d l -> forall st rest, exists txt,
  conv st (l ++ rest) = cont (snd (after (snd (before st)))) (fst (before st) ++ txt ++ fst (after (snd (before st))))%string rest /\ speaks l d txt.

Lemma items_ok ls : ls <> [] -> Forall (obj d) ls -> forall f r rest, fr_map f = false -> fr_size f = List.length ls ->
  exists txt, conv (f :: r) (concat ls ++ rest) = cont (snd (after r)) (txt ++ clos f r ++ fst (after r))%string rest /\
  forall x j s, wants x -> sx_stack x = j :: s -> jf_map j = false -> S (List.length s) + d <= 11 ->
  exists lx x2, rtext Idle x txt = Done (lx, x2) /\
    stl lx x2 = Done (mkSax After_value (mkJ false (jf_size j + List.length ls) (jf_buf j ++ map reread (concat ls)) :: s) (sx_root x)).
Proof.
  intros N F. induction F as [|l ls O F IHl]; [congruence|]. clear N. intros f r rest Fm Fs.
  destruct (print_indent_top f r) as (ws & b & Ep & B). assert (Eb : before (f :: r) = (ws, mkFrame false (fr_value f) (fr_size f) (fr_empty f) b :: r)).
  { unfold before_item. rewrite Fm. cbn [andb]. rewrite Ep, Fm. reflexivity. }
  destruct (IH l O (f :: r) (concat ls ++ rest)) as (txt & Ec & Sp). rewrite Eb in Ec. cbn [fst snd] in Ec. cbn [concat]. rewrite <- app_assoc, Ec. clear Ec.
  assert (Head : forall x j s, wants x -> sx_stack x = j :: s -> jf_map j = false -> S (List.length s) + d <= 11 ->
    exists lx x2, rtext Idle x (ws ++ txt) = Done (lx, x2) /\ stl lx x2 = Done (mkSax After_value (mkJ false (S (jf_size j)) (jf_buf j ++ map reread l) :: s) (sx_root x))).
  { intros x j s W Es Ej Hd. rewrite read_text_app. destruct (read_blank pinf ninf read_double ws B Idle x x eq_refl) as (lx2 & x2 & -> & _ & X). destruct (X eq_refl) as (-> & ->). cbn [bindR fst snd].
    apply Sp; [exact W|rewrite Es; exact Hd|]. unfold give, put. rewrite Es, Ej. reflexivity. }
  destruct ls as [|l' ls].
  - exists (ws ++ txt)%string. split.
    + cbn [after_item fr_map fr_size andb]. rewrite Fs. cbn [List.length Nat.ltb Nat.leb fst snd]. rewrite (closing_same _ f r) by (cbn; congruence). cbn [concat app]. f_equal. rewrite !app_assoc_s. reflexivity.
    + intros x j s W Es Ej Hd. destruct (Head x j s W Es Ej Hd) as (lx & x2 & E & S2). exists lx, x2. split; [exact E|]. rewrite S2. cbn [List.length concat]. rewrite app_nil_r, Nat.add_1_r. reflexivity.
  - set (f2 := mkFrame false false (pred (fr_size f)) (fr_empty f) b).
    destruct (IHl ltac:(discriminate) f2 r rest eq_refl) as (txt2 & Ec & Rd); [cbn; rewrite Fs; reflexivity|].
    exists (ws ++ txt ++ String "," EmptyString ++ txt2)%string. split.
    + assert (Ea : after (mkFrame false (fr_value f) (fr_size f) (fr_empty f) b :: r) = (String "," EmptyString, f2 :: r)).
      { cbn [after_item fr_map fr_size fr_empty fr_begin andb]. rewrite Fs. cbn [List.length Nat.ltb Nat.leb]. unfold f2. rewrite Fs. reflexivity. }
      rewrite Ea. cbn [fst snd]. rewrite cont_cons, Ec, cont_app. rewrite (closing_same f2 f r) by (cbn; congruence). f_equal. rewrite !app_assoc_s. reflexivity.
    + intros x j s W Es Ej Hd. destruct (Head x j s W Es Ej Hd) as (lx & x2 & E & S2). rewrite <- app_assoc_s, read_text_app, E. cbn [bindR fst snd append].
      rewrite (read_mark pinf ninf read_double _ _ _ _ L_comma _ S2) by (reflexivity || discriminate). cbn [feed sx_mode sx_stack jf_map bindR sx_root].
      destruct (Rd (mkSax Want_value (mkJ false (S (jf_size j)) (jf_buf j ++ map reread l) :: s) (sx_root x)) _ s (or_introl eq_refl) eq_refl eq_refl Hd) as (lx3 & x3 & E3 & S3).
      exists lx3, x3. split; [exact E3|]. rewrite S3. cbn [jf_size jf_buf sx_root List.length concat]. rewrite !map_app, <- app_assoc, Nat.add_succ_comm. reflexivity.
Qed.

Definition pair_tokens (kl : string * list (token D)) : list (token D) := Str (fst kl) :: snd kl.
Lemma pairs_ok ls : ls <> [] -> Forall (fun kl => plain (fst kl) /\ obj d (snd kl)) ls -> forall f r rest, fr_map f = true -> fr_value f = false -> fr_size f = List.length ls ->
  exists txt, conv (f :: r) (concat (map pair_tokens ls) ++ rest) = cont (snd (after r)) (txt ++ clos f r ++ fst (after r))%string rest /\
  forall x j s, sx_mode x = First_key \/ sx_mode x = Want_key -> sx_stack x = j :: s -> jf_map j = true -> S (List.length s) + d <= 11 ->
  exists lx x2, rtext Idle x txt = Done (lx, x2) /\
    stl lx x2 = Done (mkSax After_value (mkJ true (jf_size j + List.length ls) (jf_buf j ++ map reread (concat (map pair_tokens ls))) :: s) (sx_root x)).
Proof.
  intros N F. induction F as [|[k l] ls (P & O) F IHl]; [congruence|]. clear N. cbn [fst snd] in P, O. intros f r rest Fm Fv Fs.
  destruct (print_indent_top f r) as (ws & b & Ep & B). assert (Eb : before (f :: r) = (ws, mkFrame true false (fr_size f) (fr_empty f) b :: r)).
  { unfold before_item. rewrite Fm, Fv. cbn [andb]. rewrite Ep, Fm, Fv. reflexivity. }
  set (f2 := mkFrame true true (fr_size f) (fr_empty f) b).
  destruct (IH l O (f2 :: r) (concat (map pair_tokens ls) ++ rest)) as (txt & Ec & Sp). cbn [map concat]. unfold pair_tokens at 1. cbn [fst snd app].
  rewrite convert_cons. unfold convert_token. rewrite Eb. cbn [fst snd after_item fr_map fr_value andb negb fr_size fr_empty fr_begin scalar_text]. fold f2. rewrite cont_cons, <- app_assoc.
  change (before (f2 :: r)) with (EmptyString, f2 :: r) in Ec. cbn [fst snd] in Ec. rewrite Ec, cont_app. clear Ec.
  assert (Head : forall x j s, sx_mode x = First_key \/ sx_mode x = Want_key -> sx_stack x = j :: s -> jf_map j = true -> S (List.length s) + d <= 11 ->
    exists lx x2, rtext Idle x (ws ++ quoted k ++ String ":" (key_val_sep indent) ++ txt) = Done (lx, x2) /\
      stl lx x2 = Done (mkSax After_value (mkJ true (S (jf_size j)) (jf_buf j ++ Str k :: map reread l) :: s) (sx_root x))).
  { intros x j s W Es Ej Hd. rewrite read_text_app. destruct (read_blank pinf ninf read_double ws B Idle x x eq_refl) as (lx2 & x2 & -> & _ & X). destruct (X eq_refl) as (-> & ->). cbn [bindR fst snd].
    rewrite read_text_app, (read_quoted pinf ninf read_double k x P). assert (Ek : fd x (L_string k) = put_key k x) by (unfold feed; destruct W as [-> | ->]; reflexivity). rewrite Ek. unfold put_key. rewrite Es. cbn [bindR fst snd append].
    rewrite (read_mark pinf ninf read_double Idle _ _ _ L_colon _ eq_refl) by (reflexivity || discriminate). cbn [feed sx_mode sx_stack sx_root bindR]. rewrite read_text_app.
    match goal with |- context [rtext Idle ?y (key_val_sep indent)] => destruct (read_blank pinf ninf read_double _ sep_blank Idle y y eq_refl) as (lx3 & x3 & -> & _ & X3) end.
    destruct (X3 eq_refl) as (-> & ->). cbn [bindR fst snd]. apply Sp; [left; reflexivity|exact Hd|]. unfold give, put. cbn [sx_stack jf_map jf_size jf_buf sx_root]. rewrite Ej, <- app_assoc. reflexivity. }
  destruct ls as [|kl ls].
  - exists (ws ++ quoted k ++ String ":" (key_val_sep indent) ++ txt)%string. split.
    + assert (Ea : after (f2 :: r) = ((clos f r ++ fst (after r))%string, snd (after r))).
      { rewrite (closing_same f f2 r) by (cbn; congruence). cbn [after_item]. replace (fr_map f2 && negb (fr_value f2)) with false by reflexivity. replace (1 <? fr_size f2) with false by (cbn [f2 fr_size]; rewrite Fs; reflexivity). reflexivity. }
      rewrite Ea. cbn [fst snd map concat app]. f_equal. cbn [append]. rewrite !app_assoc_s. cbn [append]. rewrite !app_assoc_s. reflexivity.
    + intros x j s W Es Ej Hd. destruct (Head x j s W Es Ej Hd) as (lx & x2 & E & S2). exists lx, x2. split; [exact E|]. rewrite S2. cbn [List.length concat map app]. unfold pair_tokens. cbn [fst snd map app]. rewrite app_nil_r, Nat.add_1_r. reflexivity.
  - set (f3 := mkFrame true false (pred (fr_size f)) (fr_empty f) b).
    destruct (IHl ltac:(discriminate) f3 r rest eq_refl eq_refl) as (txt2 & Ec & Rd); [cbn; rewrite Fs; reflexivity|].
    exists ((ws ++ quoted k ++ String ":" (key_val_sep indent) ++ txt) ++ String "," EmptyString ++ txt2)%string. split.
    + assert (Ea : after (f2 :: r) = (String "," EmptyString, f3 :: r)).
      { unfold f2; cbn [after_item fr_map fr_value fr_size fr_empty fr_begin andb negb]. rewrite Fs. cbn [List.length Nat.ltb Nat.leb]. unfold f3. rewrite Fs. reflexivity. }
      rewrite Ea. cbn [fst snd]. rewrite cont_cons, Ec, cont_app. rewrite (closing_same f3 f r) by (cbn; congruence). f_equal. cbn [append]. rewrite !app_assoc_s. cbn [append]. rewrite !app_assoc_s. reflexivity.
    + intros x j s W Es Ej Hd. destruct (Head x j s W Es Ej Hd) as (lx & x2 & E & S2). rewrite read_text_app, E. cbn [bindR fst snd append].
      rewrite (read_mark pinf ninf read_double _ _ _ _ L_comma _ S2) by (reflexivity || discriminate). cbn [feed sx_mode sx_stack jf_map bindR sx_root].
      destruct (Rd (mkSax Want_key (mkJ true (S (jf_size j)) (jf_buf j ++ Str k :: map reread l) :: s) (sx_root x)) _ s (or_intror eq_refl) eq_refl eq_refl Hd) as (lx3 & x3 & E3 & S3).
      exists lx3, x3. split; [exact E3|]. rewrite S3. cbn [jf_size jf_buf sx_root List.length map concat]. unfold pair_tokens at 2. cbn [fst snd app]. rewrite <- app_assoc. cbn [app map]. rewrite !map_app, Nat.add_succ_comm. reflexivity.
Qed.
Lemma read_container (m : bool) n buf txt f r lx x2 md x y : wants x -> List.length (sx_stack x) <= 10 -> fits n -> fr_map f = m ->
  rtext Idle (mkSax (if m then First_key else First_item) (mkJ m 0 [] :: sx_stack x) (sx_root x)) txt = Done (lx, x2) ->
  stl lx x2 = Done (mkSax md (mkJ m n buf :: sx_stack x) (sx_root x)) -> md = After_value \/ md = (if m then First_key else First_item) ->
  give ((if m then MapH n else ArrayH n) :: buf) x = Done y -> rtext Idle x (bracket m false ++ txt ++ clos f r) = Done (Idle, y).
Proof.
  intros W L F Fm E S Md G. rewrite read_text_app, (read_bracket m false Idle x x eq_refl). assert (Eo : fd x (L_open m) = start m x) by (unfold feed; destruct W as [-> | ->]; reflexivity). rewrite Eo. unfold start.
  rewrite (proj2 (Nat.ltb_ge _ _) L). cbn [bindR fst snd]. rewrite read_text_app, E. cbn [bindR fst snd]. eapply read_closing; [exact S|]. rewrite Fm.
  destruct (finish_ok m n buf (sx_stack x) (sx_root x) y F) as (X1 & X2 & X3); [rewrite give_mode; exact G|].
  destruct Md as [-> | ->]; [exact X1|]. destruct m; [exact X3|exact X2].
Qed.
Lemma array_value ls st rest : fits (List.length ls) -> Forall (obj d) ls -> exists txt,
  conv st ((ArrayH (List.length ls) :: concat ls) ++ rest) = cont (snd (after (snd (before st)))) (fst (before st) ++ txt ++ fst (after (snd (before st))))%string rest /\
  speaks (ArrayH (List.length ls) :: concat ls) (S d) txt.
Proof.
  intros Hf F. destruct ls as [|l ls].
  - set (f := open_frame false 0). exists (bracket false false ++ EmptyString ++ clos f (snd (before st)))%string. split.
    + cbn [concat List.length app]. rewrite convert_cons. unfold convert_token. cbn [Nat.eqb fst snd]. fold f. cbn [append]. rewrite !app_assoc_s. reflexivity.
    + intros x y W Hd G. exists Idle, y. split; [|reflexivity]. eapply (read_container false 0 [] EmptyString f); [exact W|lia|exact Hf|reflexivity|reflexivity|reflexivity|right; reflexivity|exact G].
  - set (n := List.length (l :: ls)). set (f := open_frame false n). destruct (items_ok (l :: ls) ltac:(discriminate) F f (snd (before st)) rest eq_refl eq_refl) as (txt & Ec & Rd).
    exists (bracket false false ++ txt ++ clos f (snd (before st)))%string. split.
    + cbn [app]. rewrite convert_cons. unfold convert_token. replace (n =? 0) with false by reflexivity. cbn [fst snd]. change (open_frame false n) with f. rewrite cont_cons, Ec, cont_app. f_equal. rewrite !app_assoc_s. reflexivity.
    + intros x y W Hd G. destruct (Rd (mkSax First_item (mkJ false 0 [] :: sx_stack x) (sx_root x)) _ _ (or_intror eq_refl) eq_refl eq_refl) as (lx & x2 & E & S2); [lia|]. exists Idle, y. split; [|reflexivity].
      eapply (read_container false n (map reread (concat (l :: ls)))); [exact W|lia|exact Hf|reflexivity|exact E|exact S2|left; reflexivity|exact G].
Qed.
Lemma map_value ls st rest : fits (List.length ls) -> Forall (fun kl => plain (fst kl) /\ obj d (snd kl)) ls -> exists txt,
  conv st ((MapH (List.length ls) :: concat (map pair_tokens ls)) ++ rest) = cont (snd (after (snd (before st)))) (fst (before st) ++ txt ++ fst (after (snd (before st))))%string rest /\
  speaks (MapH (List.length ls) :: concat (map pair_tokens ls)) (S d) txt.
Proof.
  intros Hf F. destruct ls as [|l ls].
  - set (f := open_frame true 0). exists (bracket true false ++ EmptyString ++ clos f (snd (before st)))%string. split.
    + cbn [concat map List.length app]. rewrite convert_cons. unfold convert_token. cbn [Nat.eqb fst snd]. fold f. cbn [append]. rewrite !app_assoc_s. reflexivity.
    + intros x y W Hd G. exists Idle, y. split; [|reflexivity]. eapply (read_container true 0 [] EmptyString f); [exact W|lia|exact Hf|reflexivity|reflexivity|reflexivity|right; reflexivity|exact G].
  - set (n := List.length (l :: ls)). set (f := open_frame true n). destruct (pairs_ok (l :: ls) ltac:(discriminate) F f (snd (before st)) rest eq_refl eq_refl eq_refl) as (txt & Ec & Rd).
    exists (bracket true false ++ txt ++ clos f (snd (before st)))%string. split.
    + cbn [app]. rewrite convert_cons. unfold convert_token. replace (n =? 0) with false by reflexivity. cbn [fst snd]. change (open_frame true n) with f. rewrite cont_cons, Ec, cont_app. f_equal. rewrite !app_assoc_s. reflexivity.
    + intros x y W Hd G. destruct (Rd (mkSax First_key (mkJ true 0 [] :: sx_stack x) (sx_root x)) _ _ (or_introl eq_refl) eq_refl eq_refl) as (lx & x2 & E & S2); [lia|]. exists Idle, y. split; [|reflexivity].
      eapply (read_container true n (map reread (concat (map pair_tokens (l :: ls))))); [exact W|lia|exact Hf|reflexivity|exact E|exact S2|left; reflexivity|exact G].
Qed.
End Items.

Hypothesis laws : text_laws nan is_nan of_int pinf ninf inf_sign show_double read_double equal.
Lemma scalar_value d t st rest : scalar_ok is_nan t -> exists txt,
  conv st ([t] ++ rest) = cont (snd (after (snd (before st)))) (fst (before st) ++ txt ++ fst (after (snd (before st))))%string rest /\ speaks [t] d txt.
Proof.
  intros K. destruct (scalar_text inf_sign show_double t) as [s|] eqn:Es.
  - exists s. split.
    + cbn [app]. rewrite convert_cons. unfold convert_token. rewrite Es. destruct t; try contradiction; reflexivity.
    + intros x y W _ G. destruct (read_scalar _ _ _ _ _ _ _ _ _ laws t x K W) as (s' & E1 & E2). rewrite Es in E1. injection E1 as <-. apply E2.
      unfold give in G. cbn [map] in G. destruct (sx_stack x) eqn:Ex; [|exact G]. destruct t; try contradiction; cbn [JsonFacts.reread] in *; try exact G.
      unfold reread_double in *. destruct (is_nan d0); [exact G|]. destruct (inf_sign d0); [exact G|]. destruct (NilZero.int_of_string _); exact G.
  - destruct t; try contradiction; discriminate.
Qed.
Lemma value_ok d : forall l, obj d l -> forall st rest, exists txt,
  conv st (l ++ rest) = cont (snd (after (snd (before st)))) (fst (before st) ++ txt ++ fst (after (snd (before st))))%string rest /\ speaks l d txt.
Proof.
  induction d as [|d IH]; intros l O st rest; [contradiction|]. destruct O as [(t & -> & K)|[(ls & Hf & -> & F)|(ls & Hf & -> & F)]].
  - apply scalar_value. exact K.
  - apply array_value; assumption.
  - apply map_value; assumption.
Qed.

(** a map is read back, up to the form of numbers *)
Theorem text_trip l n l' : l = MapH n :: l' -> obj 11 l -> exists txt, conv [] l = Done txt /\ json_to_msgpack pinf ninf read_double txt = Done (map reread l) /\ txt <> EmptyString.
Proof.
  intros El O. destruct (value_ok 11 l O [] []) as (txt & Ec & Sp). rewrite app_nil_r in Ec. cbn [before_item after_item fst snd append] in Ec. rewrite app_nil_r_s in Ec. exists txt. split; [exact Ec|].
  assert (R : json_to_msgpack pinf ninf read_double txt = Done (map reread l)).
  { unfold json_to_msgpack. destruct (Sp (mkSax Want_value [] []) (mkSax After_value [] (map reread l)) (or_introl eq_refl) (le_n _)) as (lx & x2 & -> & S).
    - unfold give. cbn [sx_stack]. subst l. reflexivity.
    - cbn [bindR fst snd]. rewrite S. reflexivity. }
  split; [exact R|]. intros ->. cbn in R. discriminate.
Qed.
End Trip.
