(** The JSON text of a well-formed token sequence is read back as the same tokens, up to the form of numbers. *)
From Coq Require Import String Ascii DecimalString DecimalZ.
From Verif Require Import Common Serial SerialSpec Json JsonSpec.
Local Open Scope nat_scope.

Lemma app_nil_r_s s : (s ++ EmptyString)%string = s.
Proof. induction s as [|c s IH]; [reflexivity|]. cbn. rewrite IH. reflexivity. Qed.
Lemma app_assoc_s a b c : ((a ++ b) ++ c)%string = (a ++ (b ++ c))%string.
Proof. induction a as [|x a IH]; [reflexivity|]. cbn. rewrite IH. reflexivity. Qed.
Lemma app_single a c s : (push a c ++ s)%string = (a ++ String c s)%string.
Proof. unfold push. rewrite app_assoc_s. reflexivity. Qed.

(** ** the text of integers *)
Lemma digits_word d : word_chars (NilEmpty.string_of_uint d).
Proof. induction d; cbn; auto. Qed.
Lemma digits_head d : match NilEmpty.string_of_uint d with EmptyString => d = Decimal.Nil | String c _ => c <> "n"%char /\ c <> "t"%char /\ c <> "f"%char end.
Proof. destruct d; cbn; try reflexivity; repeat split; discriminate. Qed.
Lemma show_int_ok z : show_int z <> EmptyString /\ word_chars (show_int z) /\ ~ In (show_int z) ["null"; "true"; "false"]%string.
Proof.
  unfold show_int. destruct (Z.to_int z) as [d|d]; cbn [NilZero.string_of_int]; unfold NilZero.string_of_uint.
  - pose proof (digits_head d) as H. pose proof (digits_word d) as W. destruct d; try (cbn; repeat split; [discriminate|intuition discriminate]);
      (split; [discriminate|]; split; [exact W|]; cbn; intuition discriminate).
  - pose proof (digits_word d) as W. split; [discriminate|]. split.
    + split; [reflexivity|]. destruct d; try exact W. cbn. auto.
    + cbn. intuition discriminate.
Qed.
Lemma read_int z : NilZero.int_of_string (show_int z) = Some (Z.to_int z).
Proof.
  unfold show_int. apply NilZero.isi; intros E.
  - assert (X := f_equal Z.of_int E). rewrite DecimalZ.of_to in X. cbn in X. subst z. discriminate.
  - assert (X := f_equal Z.of_int E). rewrite DecimalZ.of_to in X. cbn in X. subst z. discriminate.
Qed.

Section Facts.
Context {D : Type}.
Variables (nan : D) (is_nan : D -> bool) (of_int : Z -> D) (pinf ninf : D) (inf_sign : D -> option bool).
Variables (show_double : D -> string) (read_double : string -> option D) (equal : D -> D -> Prop).
Notation rtext := (read_text pinf ninf read_double).
Notation rchar := (read_char pinf ninf read_double).
Notation ichar := (idle_char pinf ninf).
Notation fd := (feed pinf ninf).
Notation stl := (settle pinf ninf read_double).
Notation wd := (word read_double).

(** ** reading *)
Lemma read_text_app a b lx x : rtext lx x (a ++ b) = bindR (rtext lx x a) (fun r => rtext (fst r) (snd r) b).
Proof. revert lx x. induction a as [|c a IH]; intros lx x; [reflexivity|]. cbn [append read_text]. destruct (rchar lx x c) as [r| |]; cbn [bindR]; [apply IH|reflexivity|reflexivity]. Qed.
Lemma mark_no_word c (e : lexeme (D := D)) : mark c = Some e -> word_char c = false.
Proof.
  unfold mark, word_char. cbn [existsb]. destruct (Ascii.eqb c "["), (Ascii.eqb c "]"), (Ascii.eqb c "{"), (Ascii.eqb c "}"), (Ascii.eqb c ","), (Ascii.eqb c ":"); cbn [orb negb]; rewrite ?andb_false_r; try reflexivity. discriminate.
Qed.
Lemma word_no_mark c : word_char c = true -> mark (D := D) c = None.
Proof. intros W. destruct (mark c) as [e|] eqn:E; [|reflexivity]. apply mark_no_word in E. congruence. Qed.
(** a character that ends a word *)
Lemma read_other lx x x' c : stl lx x = Done x' -> word_char c = false -> rchar lx x c = ichar x' c.
Proof.
  intros S W. destruct lx as [|s|w]; cbn [settle] in S.
  - injection S as <-. reflexivity.
  - discriminate.
  - cbn [read_char]. rewrite W. cbn [settle]. rewrite S. reflexivity.
Qed.
Lemma read_mark lx x x' c e s : stl lx x = Done x' -> mark c = Some e -> white c = false -> c <> quote -> rtext lx x (String c s) = bindR (fd x' e) (fun y => rtext Idle y s).
Proof.
  intros S M W Q. cbn [read_text]. rewrite (read_other _ _ _ _ S) by (apply (mark_no_word _ _ M)).
  unfold idle_char. rewrite W, (proj2 (Ascii.eqb_neq c quote) Q), M. destruct (fd x' e); reflexivity.
Qed.
Fixpoint blankS (s : string) : Prop := match s with EmptyString => True | String c s' => white c = true /\ blankS s' end.
Lemma read_blank s : blankS s -> forall lx x x', stl lx x = Done x' -> exists lx2 x2, rtext lx x s = Done (lx2, x2) /\ stl lx2 x2 = Done x' /\ (lx = Idle -> lx2 = Idle /\ x2 = x').
Proof.
  induction s as [|c s IH]; intros B lx x x' S.
  - exists lx, x. split; [reflexivity|]. split; [exact S|]. intros ->. cbn in S. injection S as <-. auto.
  - destruct B as (W & B). cbn [read_text]. rewrite (read_other _ _ _ _ S) by (unfold word_char; rewrite W; reflexivity).
    unfold idle_char. rewrite W. cbn [bindR fst snd]. destruct (IH B Idle x' x' eq_refl) as (lx2 & x2 & E & E2 & E3). exists lx2, x2. auto.
Qed.
Lemma read_in_word w : word_chars w -> forall v x, rtext (In_word v) x w = Done (In_word (v ++ w)%string, x).
Proof.
  induction w as [|c w IH]; intros W v x; cbn [read_text]; [rewrite app_nil_r_s; reflexivity|]. destruct W as (Wc & W). cbn [read_char]. rewrite Wc. cbn [bindR fst snd].
  rewrite (IH W), app_single. reflexivity.
Qed.
Lemma read_word w x : w <> EmptyString -> word_chars w -> rtext Idle x w = Done (In_word w, x).
Proof.
  destruct w as [|c w]; [congruence|]. intros _ (Wc & W). cbn [read_text read_char]. unfold idle_char. rewrite (word_no_mark c Wc). unfold word_char in Wc.
  destruct (white c); [discriminate|]. destruct (Ascii.eqb c quote); [discriminate|]. cbn [bindR fst snd]. rewrite (read_in_word w W). reflexivity.
Qed.
Lemma read_in_string s : plain s -> forall v x t, rtext (In_string v) x (s ++ String quote t) = bindR (fd x (L_string (v ++ s)%string)) (fun y => rtext Idle y t).
Proof.
  induction s as [|c s IH]; intros P v x t; cbn [append read_text].
  - cbn [read_char]. rewrite Ascii.eqb_refl, app_nil_r_s. destruct (fd x (L_string v)); reflexivity.
  - destruct P as (Q & B & C & P). cbn [read_char]. rewrite (proj2 (Ascii.eqb_neq c quote) Q), (proj2 (Ascii.eqb_neq c backslash) B). rewrite (proj2 (Nat.ltb_ge _ _) C).
    cbn [orb bindR fst snd]. rewrite (IH P), app_single. reflexivity.
Qed.
Lemma read_quoted s x : plain s -> rtext Idle x (quoted s) = bindR (fd x (L_string s)) (fun y => Done (Idle, y)).
Proof.
  intros P. unfold quoted. cbn [read_text read_char]. unfold idle_char. replace (white quote) with false by reflexivity. rewrite Ascii.eqb_refl. cbn [bindR fst snd].
  rewrite (read_in_string s P). cbn [append read_text]. reflexivity.
Qed.

(** ** tokens as they come back *)
Definition reread_double (d : D) : token D :=
  if is_nan d then TFloat d else match inf_sign d with Some _ => TFloat d | None => match NilZero.int_of_string (show_double d) with Some i => TInt (Z.of_int i) | None => TFloat d end end.
Definition reread (t : token D) : token D := match t with TFloat d => reread_double d | _ => t end.
Definition scalar_ok (t : token D) : Prop :=
  match t with
  | Nil | TBool _ | TInt _ => True
  | TFloat d => is_nan d = false
  | Str s => proper s
  | ArrayH _ | MapH _ => False
  end.
(** one object with at most [d] levels *)
Fixpoint obj (d : nat) (l : list (token D)) : Prop :=
  match d with
  | 0 => False
  | S d' =>
      (exists t, l = [t] /\ scalar_ok t) \/
      (exists ls, fits (List.length ls) /\ l = ArrayH (List.length ls) :: concat ls /\ Forall (obj d') ls) \/
      (exists ls, fits (List.length ls) /\ l = MapH (List.length ls) :: concat (map (fun kl => Str (fst kl) :: snd kl) ls) /\ Forall (fun kl => plain (fst kl) /\ obj d' (snd kl)) ls)
  end.

Hypothesis laws : text_laws nan is_nan of_int pinf ninf inf_sign show_double read_double equal.
Notation stext := (scalar_text inf_sign show_double).
Definition wants (x : sax (D := D)) : Prop := sx_mode x = Want_value \/ sx_mode x = First_item.
Lemma not_literal w : ~ In w ["null"; "true"; "false"]%string -> wd w = match NilZero.int_of_string w with Some i => Some (L_int (Z.of_int i)) | None => option_map L_float (read_double w) end.
Proof.
  intros H. unfold word. destruct (String.eqb_spec w "null"); [exfalso; apply H; subst; cbn; auto|]. destruct (String.eqb_spec w "true"); [exfalso; apply H; subst; cbn; auto|].
  destruct (String.eqb_spec w "false"); [exfalso; apply H; subst; cbn; auto|]. reflexivity.
Qed.
Lemma read_scalar t x : scalar_ok t -> wants x -> exists s, stext t = Some s /\
  forall y, put [reread t] x = Done y -> exists lx x2, rtext Idle x s = Done (lx, x2) /\ stl lx x2 = Done y.
Proof.
  intros K W. assert (Wd : forall w e t, w <> EmptyString -> word_chars w -> wd w = Some e -> fd x e = put [t] x -> forall y, put [t] x = Done y -> exists lx x2, rtext Idle x w = Done (lx, x2) /\ stl lx x2 = Done y).
  { intros w e t' H1 H2 H3 H4 y Hy. exists (In_word w), x. split; [apply read_word; assumption|]. cbn [settle]. rewrite H3. cbn [findR bindR]. congruence. }
  destruct t as [|b|z|d|s| |]; try contradiction; cbn [scalar_text scalar_ok] in *; eexists; (split; [reflexivity|]); cbn [reread].
  - apply (Wd _ L_null); [discriminate|cbn; auto|reflexivity|]. unfold feed. destruct W as [-> | ->]; reflexivity.
  - destruct b; [apply (Wd _ (L_bool true))|apply (Wd _ (L_bool false))]; try discriminate; try (cbn; tauto); try reflexivity; unfold feed; destruct W as [-> | ->]; reflexivity.
  - destruct (show_int_ok z) as (H1 & H2 & H3). apply (Wd _ (L_int z)); [exact H1|exact H2| |unfold feed; destruct W as [-> | ->]; reflexivity].
    rewrite (not_literal _ H3), read_int, DecimalZ.of_to. reflexivity.
  - unfold show_float, reread_double. rewrite K. destruct (inf_sign d) as [b|] eqn:Ei.
    + pose proof (tl_inf _ _ _ _ _ _ _ _ _ laws d) as X. rewrite Ei in X. intros y Hy. destruct b; subst d; (rewrite read_quoted by (cbn; repeat split; try discriminate; cbn; lia));
        exists Idle, y; (split; [|reflexivity]); cbn [feed]; destruct W as [-> | ->]; cbn [string_token String.eqb]; match goal with |- bindR ?p _ = _ => change p with (put [TFloat pinf] x) || change p with (put [TFloat ninf] x) end; rewrite Hy; reflexivity.
    + destruct (tl_show _ _ _ _ _ _ _ _ _ laws d K Ei) as (H1 & H2 & H3 & H4). destruct (NilZero.int_of_string (show_double d)) as [i|] eqn:E.
      * apply (Wd _ (L_int (Z.of_int i))); [exact H1|exact H2|rewrite (not_literal _ H3), E; reflexivity|unfold feed; destruct W as [-> | ->]; reflexivity].
      * apply (Wd _ (L_float d)); [exact H1|exact H2|rewrite (not_literal _ H3), E, H4; reflexivity|unfold feed; destruct W as [-> | ->]; reflexivity].
  - destruct K as (P & N1 & N2 & N3). intros y Hy. rewrite (read_quoted s _ P). exists Idle, y. split; [|reflexivity].
    assert (F : fd x (L_string s) = put [string_token pinf ninf s] x) by (unfold feed; destruct W as [-> | ->]; reflexivity).
    rewrite F. unfold string_token. rewrite (proj2 (String.eqb_neq _ _) N1), (proj2 (String.eqb_neq _ _) N2), (proj2 (String.eqb_neq _ _) N3). cbn [orb]. rewrite Hy. reflexivity.
Qed.
End Facts.
