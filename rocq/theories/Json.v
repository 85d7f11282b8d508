(** Model of the JSON form: the converter of serializer.hpp (78-222), the calls that return the serialised data (244-300, 394-411) and the
    JSON visitor of deserializer.hpp (66-177). The text is a string of characters. What the libraries do is modelled as follows:
    msgpack-cxx calls the visitor for the tokens in order (start_array, start_array_item, ..., end_array_item, end_array and the same for
    maps); nlohmann::json reads characters, skips white space and calls the visitor following the grammar of RFC 8259. Integers are
    printed and read in decimal; printing and reading of the other numbers is a parameter ([show_double], [read_double]). Escapes in
    strings are not modelled (the reader stops with an exception); the converter never writes them. *)
From Coq Require Import String Ascii DecimalString.
From Verif Require Import Common Serial.
Local Open Scope nat_scope.

Definition newline : ascii := ascii_of_nat 10.
Definition quote : ascii := ascii_of_nat 34.
Definition backslash : ascii := ascii_of_nat 92.
Fixpoint spaces (n : nat) : string := match n with 0 => EmptyString | S n' => String " " (spaces n') end.
Definition quoted (s : string) : string := String quote (s ++ String quote EmptyString)%string.
(** white space and , : [ ] { } and the quote end a word *)
Definition white (c : ascii) : bool := Ascii.eqb c " " || Ascii.eqb c newline || Ascii.eqb c (ascii_of_nat 9) || Ascii.eqb c (ascii_of_nat 13).
Definition word_char (c : ascii) : bool := negb (white c) && negb (Ascii.eqb c quote) && negb (existsb (Ascii.eqb c) ["["; "]"; "{"; "}"; ","; ":"]%char).

Section Json.
Context {D : Type}.
Variable of_int : Z -> D.
Variables pinf ninf : D.
(** std::isinf and the sign: Some true is +inf *)
Variable inf_sign : D -> option bool.
Variable show_double : D -> string.
Variable read_double : string -> option D.

(** ** serializer.hpp *)
Section Converter.
Variable indent : Z.
Variable max_level : nat.
(** 80-86 (size, empty, begin), and where the msgpack parser is: in a map, at a value (not at a key) *)
Record frame := mkFrame { fr_map : bool; fr_value : bool; fr_size : nat; fr_empty : bool; fr_begin : bool }.
Definition open_frame (m : bool) (n : nat) : frame := mkFrame m false n (n =? 0) true.
(** 102-117 *)
Definition print_indent (st : list frame) : string * list frame :=
  if (indent <? 0)%Z then (EmptyString, st)
  else if max_level <? List.length st then
    match st with
    | f :: r => if fr_begin f then (EmptyString, mkFrame (fr_map f) (fr_value f) (fr_size f) (fr_empty f) false :: r) else (String " " EmptyString, st)
    | [] => (EmptyString, [])
    end
  else (String newline (spaces (List.length st * Z.to_nat indent)), st).
(** 119-124 *)
Definition key_val_sep : string := if (indent <? 0)%Z then EmptyString else String " " EmptyString.
(** 126-160 *)
Definition show_int (z : Z) : string := NilZero.string_of_int (Z.to_int z).
Definition show_float (d : D) : string :=
  match inf_sign d with Some true => quoted "inf" | Some false => quoted "-inf" | None => show_double d end.
Definition scalar_text (t : token D) : option string :=
  match t with
  | Nil => Some "null"%string
  | TBool b => Some (if b then "true" else "false")%string
  | TInt z => Some (show_int z)
  | TFloat d => Some (show_float d)
  | Str s => Some (quoted s)
  | ArrayH _ | MapH _ => None
  end.
Definition bracket (m close : bool) : string := (if m then if close then "}" else "{" else if close then "]" else "[")%string.
(** 165-168, 191-194 *)
Definition before_item (st : list frame) : string * list frame :=
  match st with f :: _ => if fr_map f && fr_value f then (EmptyString, st) else print_indent st | [] => (EmptyString, []) end.
(** 176-184, 208-216: [r] is the stack after the pop *)
Definition closing (f : frame) (r : list frame) : string :=
  ((if (List.length r <? max_level)%nat && negb (fr_empty f) then fst (print_indent r) else EmptyString) ++ bracket (fr_map f) true)%string.
(** 169-175, 195-207; when the last item is complete, so is the array or map, which is an item itself *)
Fixpoint after_item (st : list frame) : string * list frame :=
  match st with
  | [] => (EmptyString, [])
  | f :: r =>
      if fr_map f && negb (fr_value f) then (String ":" key_val_sep, mkFrame true true (fr_size f) (fr_empty f) (fr_begin f) :: r)
      else if 1 <? fr_size f then (String "," EmptyString, mkFrame (fr_map f) false (pred (fr_size f)) (fr_empty f) (fr_begin f) :: r)
      else let x := after_item r in ((closing f r ++ fst x)%string, snd x)
  end.
(** one token: the text and the new stack *)
Definition convert_token (st : list frame) (t : token D) : string * list frame :=
  let b := before_item st in
  match t with
  | ArrayH n | MapH n =>
      let f := open_frame (match t with MapH _ => true | _ => false end) n in
      if n =? 0 then let a := after_item (snd b) in ((fst b ++ bracket (fr_map f) false ++ closing f (snd b) ++ fst a)%string, snd a)
      else ((fst b ++ bracket (fr_map f) false)%string, f :: snd b)
  | _ => let a := after_item (snd b) in ((fst b ++ match scalar_text t with Some x => x | None => EmptyString end ++ fst a)%string, snd a)
  end.
(** msgpack::parse stops after one object; running out of bytes is an exception *)
Fixpoint convert (st : list frame) (l : list (token D)) : res string :=
  match l with
  | [] => Thrown
  | t :: l' =>
      let x := convert_token st t in
      match snd x with [] => Done (fst x) | st' => bindR (convert st' l') (fun s => Done (fst x ++ s)%string) end
  end.
End Converter.

(** ** the calls: 244-275, 394-411. The state: use_compact_list_, msgpack_buffer_ (None: empty) and json_buffer_. *)
Variable is_nan : D -> bool.
Record serializer := mkSer { se_compact : bool; se_msgpack : option (list (token D)); se_json : string; se_indent : Z }.
(** 290-292: the indent is never assigned *)
Definition new_serializer : serializer := mkSer false None EmptyString (-1).
(** an exception leaves the state as it is here; in the code it leaves a part of the data in the buffer *)
Definition get_msgpack (ds : dataset D) (compact : bool) (s : serializer) : res (list (token D) * serializer) :=
  match se_msgpack s with
  | Some l => if Bool.eqb (se_compact s) compact then Done (l, s)
              else bindR (serialize is_nan ds compact) (fun l => Done (l, mkSer compact (Some l) (se_json s) (se_indent s)))
  | None => bindR (serialize is_nan ds compact) (fun l => Done (l, mkSer compact (Some l) (se_json s) (se_indent s)))
  end.
Definition get_json (ds : dataset D) (compact : bool) (indent : Z) (s : serializer) : res (string * serializer) :=
  if String.eqb (se_json s) EmptyString || negb (Bool.eqb (se_compact s) compact) || negb (Z.eqb (se_indent s) indent) then
    bindR (get_msgpack ds compact s) (fun r =>
    bindR (convert indent (if ds_batch ds then 4 else 3) [] (fst r)) (fun txt => Done (txt, mkSer (se_compact (snd r)) (se_msgpack (snd r)) txt (se_indent (snd r)))))
  else Done (se_json s, s).
(** 281-309: the calls of a user. The format is chosen at construction; [indent] of the binary form is -1. *)
Inductive format := F_json | F_msgpack.
Inductive request := Get_binary (compact : bool) | Get_string (compact : bool) (indent : Z).
Inductive reply := R_text (s : string) | R_tokens (l : list (token D)).
Definition request_reply (f : format) (ds : dataset D) (q : request) (s : serializer) : res (reply * serializer) :=
  match f, q with
  | F_json, Get_binary compact => bindR (get_json ds compact (-1) s) (fun r => Done (R_text (fst r), snd r))
  | F_json, Get_string compact indent => bindR (get_json ds compact indent s) (fun r => Done (R_text (fst r), snd r))
  | F_msgpack, Get_binary compact => bindR (get_msgpack ds compact s) (fun r => Done (R_tokens (fst r), snd r))
  | F_msgpack, Get_string _ _ => Thrown
  end.
(** the serializer after a number of calls; a refused call leaves it as it is *)
Fixpoint after_requests (f : format) (ds : dataset D) (qs : list request) (s : serializer) : serializer :=
  match qs with
  | [] => s
  | q :: qs' => after_requests f ds qs' (match request_reply f ds q s with Done r => snd r | _ => s end)
  end.

(** ** deserializer.hpp *)
(** JsonMapArrayData (69-79), with the kind of bracket, which the parser knows *)
Record jframe := mkJ { jf_map : bool; jf_size : nat; jf_buf : list (token D) }.
Inductive mode := Want_value | First_item | First_key | Want_key | Want_colon | After_value.
Record sax := mkSax { sx_mode : mode; sx_stack : list jframe; sx_root : list (token D) }.
Inductive lexeme := L_open (m : bool) | L_close (m : bool) | L_comma | L_colon | L_string (s : string) | L_null | L_bool (b : bool) | L_int (z : Z) | L_float (d : D).
(** 104-112 *)
Definition string_token (s : string) : token D :=
  if String.eqb s "inf" || String.eqb s "+inf" then TFloat pinf else if String.eqb s "-inf" then TFloat ninf else Str s.
(** 84-103 *)
Definition put (l : list (token D)) (x : sax) : res sax :=
  match sx_stack x with
  | [] => Thrown
  | f :: r => Done (mkSax After_value (mkJ (jf_map f) (S (jf_size f)) (jf_buf f ++ l) :: r) (sx_root x))
  end.
(** 119-123, 140-144, 166-170 *)
Definition start (m : bool) (x : sax) : res sax :=
  if 10 <? List.length (sx_stack x) then Thrown
  else Done (mkSax (if m then First_key else First_item) (mkJ m 0 [] :: sx_stack x) (sx_root x)).
(** 124-139, 145-155 *)
Definition finish (m : bool) (x : sax) : res sax :=
  match sx_stack x with
  | [] => Thrown
  | f :: r =>
      if negb (Bool.eqb m (jf_map f)) then Thrown
      else if negb (Z.of_nat (jf_size f) <? uint32_end)%Z then Thrown
      else if m && match r with [] => true | _ => false end then Done (mkSax After_value [] (sx_root x ++ MapH (jf_size f) :: jf_buf f))
      else put ((if m then MapH (jf_size f) else ArrayH (jf_size f)) :: jf_buf f) (mkSax After_value r (sx_root x))
  end.
(** 113-116 *)
Definition put_key (s : string) (x : sax) : res sax :=
  match sx_stack x with [] => Thrown | f :: r => Done (mkSax Want_colon (mkJ (jf_map f) (jf_size f) (jf_buf f ++ [Str s]) :: r) (sx_root x)) end.
(** the grammar *)
Definition feed (x : sax) (e : lexeme) : res sax :=
  match e, sx_mode x with
  | L_open m, (Want_value | First_item) => start m x
  | L_close m, (After_value | First_item | First_key) => finish m x
  | L_comma, After_value => match sx_stack x with [] => Thrown | f :: _ => Done (mkSax (if jf_map f then Want_key else Want_value) (sx_stack x) (sx_root x)) end
  | L_colon, Want_colon => Done (mkSax Want_value (sx_stack x) (sx_root x))
  | L_string s, (First_key | Want_key) => put_key s x
  | L_string s, (Want_value | First_item) => put [string_token s] x
  | L_null, (Want_value | First_item) => put [Nil] x
  | L_bool b, (Want_value | First_item) => put [TBool b] x
  | L_int z, (Want_value | First_item) => put [TInt z] x
  | L_float d, (Want_value | First_item) => put [TFloat d] x
  | _, _ => Thrown
  end.
(** characters to lexemes *)
Inductive lexer := Idle | In_string (s : string) | In_word (s : string).
Definition mark (c : ascii) : option lexeme :=
  if Ascii.eqb c "[" then Some (L_open false) else if Ascii.eqb c "]" then Some (L_close false)
  else if Ascii.eqb c "{" then Some (L_open true) else if Ascii.eqb c "}" then Some (L_close true)
  else if Ascii.eqb c "," then Some L_comma else if Ascii.eqb c ":" then Some L_colon else None.
Definition word (w : string) : option lexeme :=
  if String.eqb w "null" then Some L_null else if String.eqb w "true" then Some (L_bool true) else if String.eqb w "false" then Some (L_bool false)
  else match NilZero.int_of_string w with
       | Some i => Some (L_int (Z.of_int i))
       | None => option_map L_float (read_double w)
       end.
Definition push (s : string) (c : ascii) : string := (s ++ String c EmptyString)%string.
Definition settle (lx : lexer) (x : sax) : res sax :=
  match lx with Idle => Done x | In_word w => bindR (findR (word w)) (feed x) | In_string _ => Thrown end.
Definition idle_char (x : sax) (c : ascii) : res (lexer * sax) :=
  if white c then Done (Idle, x)
  else if Ascii.eqb c quote then Done (In_string EmptyString, x)
  else match mark c with
       | Some e => bindR (feed x e) (fun x' => Done (Idle, x'))
       | None => Done (In_word (String c EmptyString), x)
       end.
Definition read_char (lx : lexer) (x : sax) (c : ascii) : res (lexer * sax) :=
  match lx with
  | Idle => idle_char x c
  | In_string s =>
      if Ascii.eqb c quote then bindR (feed x (L_string s)) (fun x' => Done (Idle, x'))
      else if Ascii.eqb c backslash || (nat_of_ascii c <? 32) then Thrown
      else Done (In_string (push s c), x)
  | In_word w => if word_char c then Done (In_word (push w c), x) else bindR (settle lx x) (fun x' => idle_char x' c)
  end.
Fixpoint read_text (lx : lexer) (x : sax) (s : string) : res (lexer * sax) :=
  match s with EmptyString => Done (lx, x) | String c s' => bindR (read_char lx x c) (fun r => read_text (fst r) (snd r) s') end.
(** 553-558 *)
Definition json_to_msgpack (s : string) : res (list (token D)) :=
  bindR (read_text Idle (mkSax Want_value [] []) s) (fun r => bindR (settle (fst r) (snd r)) (fun x =>
    match sx_mode x, sx_stack x with After_value, [] => Done (sx_root x) | _, _ => Thrown end)).
End Json.
Arguments serializer : clear implicits.
Arguments reply : clear implicits.
