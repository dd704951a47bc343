(** Lexical grammar of tpl texts, stated on bytes and independently of the scanner's code.
    [text] is the spelling of a token, [after] the rest of the source behind it. *)
From Verif Require Import Base Token Utf8 Utf8Proofs.

Definition ws (b : Z) : Prop := b = 32 \/ b = 9 \/ b = 10 \/ b = 13.
Definition blank (b : Z) : Prop := b = 32 \/ b = 9 \/ b = 13.

(** Longest match: [text] is in the language [L] and no longer prefix of the source is. *)
Definition longest (L : bytes -> Prop) (text after : bytes) : Prop :=
  L text /\ forall x y, after = x ++ y -> x <> [] -> ~ L (text ++ x).

(** The text is a sequence of characters satisfying [p]. *)
Inductive chars (p : Z -> Prop) : bytes -> Prop :=
| Chars_nil : chars p []
| Chars_cons : forall t, t <> [] -> p (first t) -> chars p (skipn (width t) t) -> chars p t.

(** Valid text: encodings of Unicode scalar values other than NUL and the byte order mark. *)
Definition scalar (r : Z) : Prop := 0 < r <= 1114111 /\ ~ (55296 <= r <= 57343) /\ r <> 65279.
Inductive clean : bytes -> Prop :=
| Clean_nil : clean []
| Clean_cons : forall r l, scalar r -> clean l -> clean (EncodeRune r ++ l).

(** * Comments *)
Definition has_close (l : bytes) : Prop := exists a b, l = a ++ 42 :: 47 :: b.
Definition line_comment (t : bytes) : Prop := exists body, t = 47 :: 47 :: body /\ ~ In 10 body.
Definition sharp_comment (t : bytes) : Prop := exists body, t = 35 :: body /\ ~ In 10 body.
(** closed by the first star-slash after the opening *)
Definition closed_comment (t : bytes) : Prop :=
  exists body, t = 47 :: 42 :: body ++ [42; 47] /\ ~ has_close (body ++ [42]).
Definition open_comment (t : bytes) : Prop := exists body, t = 47 :: 42 :: body /\ ~ has_close body.
Definition at_line_end (after : bytes) : Prop := after = [] \/ exists r, after = 10 :: r.

(** A comment in the source, up to its end. *)
Definition comment (t after : bytes) : Prop :=
  ((line_comment t \/ sharp_comment t) /\ at_line_end after) \/
  closed_comment t \/ (open_comment t /\ after = []).

(** White space and comments between two tokens. *)
Inductive gap : bytes -> bytes -> Prop :=
| Gap_nil : forall after, gap [] after
| Gap_ws : forall b g after, ws b -> gap g after -> gap (b :: g) after
| Gap_comment : forall c g after, comment c (g ++ after) -> gap g after -> gap (c ++ g) after.

(** The same with every block comment closed. *)
Definition ended_comment (t after : bytes) : Prop :=
  ((line_comment t \/ sharp_comment t) /\ at_line_end after) \/ closed_comment t.
Inductive closed_gap : bytes -> bytes -> Prop :=
| CGap_nil : forall after, closed_gap [] after
| CGap_ws : forall b g after, ws b -> closed_gap g after -> closed_gap (b :: g) after
| CGap_comment : forall c g after, ended_comment c (g ++ after) -> closed_gap g after -> closed_gap (c ++ g) after.

(** * Numbers *)
Definition digit (b : Z) : Prop := 48 <= b <= 57.
Definition hexdigit (b : Z) : Prop := digit b \/ 97 <= b <= 102 \/ 65 <= b <= 70.
Definition exponent (t : bytes) : Prop :=
  t = [] \/ exists e sg ds, t = e :: sg ++ ds /\ (e = 101 \/ e = 69) /\
    (sg = [] \/ sg = [43] \/ sg = [45]) /\ Forall digit ds.
Definition imag (t : bytes) : Prop := t = [] \/ t = [105].
Definition fraction (t : bytes) : Prop := t = [] \/ exists ds, t = 46 :: ds /\ Forall digit ds.
Definition is_nil (t : bytes) : bool := match t with [] => true | _ => false end.
Definition number_kind (fr ex im : bytes) : Z :=
  if negb (is_nil im) then IMAG else if is_nil fr && is_nil ex then INT else FLOAT.

(** Spelling of a number and its kind. *)
Inductive number : Z -> bytes -> Prop :=
| Num_hex : forall x hs, x = 120 \/ x = 88 -> Forall hexdigit hs -> number INT (48 :: x :: hs)
| Num_dec : forall ds fr ex im, ds <> [] -> Forall digit ds -> fraction fr -> exponent ex -> imag im ->
    number (number_kind fr ex im) (ds ++ fr ++ ex ++ im)
| Num_point : forall d ds ex im, digit d -> Forall digit ds -> exponent ex -> imag im ->
    number (if is_nil im then FLOAT else IMAG) (46 :: d :: ds ++ ex ++ im).

(** * Quoted literals.  A backslash protects the next character. *)
Inductive quoted (q : Z) : bytes -> Prop :=
| Q_nil : quoted q []
| Q_plain : forall b l, b <> q -> b <> 92 -> b <> 10 -> quoted q l -> quoted q (b :: l)
| Q_esc : forall c l, c <> 10 -> quoted q l -> quoted q (92 :: c :: l).

(** Terminated by the first unprotected quote, or broken off at the end of the line. *)
Definition quoted_lit (q : Z) (t after : bytes) : Prop :=
  (exists body, t = q :: body ++ [q] /\ quoted q body) \/
  (exists body, (t = q :: body \/ t = q :: body ++ [92]) /\ quoted q body /\ at_line_end after).
Definition raw_lit (t after : bytes) : Prop :=
  (exists body, t = 96 :: body ++ [96] /\ ~ In 96 body) \/
  (exists body, t = 96 :: body /\ ~ In 96 body /\ after = []).

(** Well-formed escape sequences (behind the backslash) and literal bodies of [n] characters. *)
Definition hexval (b : Z) : Z := if b <=? 57 then b - 48 else if b <=? 70 then b - 55 else b - 87.
Definition value (base : Z) (ds : bytes) : Z := fold_left (fun x d => x * base + hexval d) ds 0.
Definition codepoint (x : Z) : Prop := x <= 1114111 /\ ~ (55296 <= x < 57344).
Inductive esc (q : Z) : bytes -> Prop :=
| Esc_char : forall c, In c [97; 98; 102; 110; 114; 116; 118; 92; q] -> esc q [c]
| Esc_oct : forall a b c, Forall (fun d => 48 <= d <= 55) [a; b; c] -> value 8 [a; b; c] <= 255 -> esc q [a; b; c]
| Esc_x : forall ds, length ds = 2%nat -> Forall hexdigit ds -> esc q (120 :: ds)
| Esc_u : forall ds, length ds = 4%nat -> Forall hexdigit ds -> codepoint (value 16 ds) -> esc q (117 :: ds)
| Esc_U : forall ds, length ds = 8%nat -> Forall hexdigit ds -> codepoint (value 16 ds) -> esc q (85 :: ds).
Inductive good_quoted (q : Z) : nat -> bytes -> Prop :=
| GQ_nil : good_quoted q 0 []
| GQ_char : forall t n l, t <> [] -> length t = width t -> first t <> q -> first t <> 92 -> first t <> 10 ->
    good_quoted q n l -> good_quoted q (S n) (t ++ l)
| GQ_esc : forall e n l, esc q e -> good_quoted q n l -> good_quoted q (S n) (92 :: e ++ l).

(** An integer with a leading 0 and a digit 8 or 9. *)
Definition bad_octal (t : bytes) : Prop :=
  exists ds, t = 48 :: ds /\ Forall digit ds /\ (In 56 ds \/ In 57 ds).

(** What a token looks like when no error was reported. *)
Definition well_formed (k : Z) (t : bytes) : Prop :=
  (k = STRING -> (exists n body, t = 34 :: body ++ [34] /\ good_quoted 34 n body) \/
                 (exists body, t = 96 :: body ++ [96] /\ ~ In 96 body)) /\
  (k = CHAR -> exists body, t = 39 :: body ++ [39] /\ good_quoted 39 1 body) /\
  (k = INT -> t <> [48; 120] /\ t <> [48; 88] /\ ~ bad_octal t) /\
  (k = COMMENT -> line_comment t \/ sharp_comment t \/ closed_comment t) /\
  (k = ILLEGAL -> t = [46; 46]).

(** * Operators: the spelling of the token table without its quotes. *)
Definition op_spelling (k : Z) (t : bytes) : Prop :=
  exists q, (q = 39 \/ q = 34) /\ In (k, q :: t ++ [q]) toktab.
Definition operator (t : bytes) : Prop := exists k, op_spelling k t.

(** A point not starting a number or another point, a slash not starting a comment. *)
Definition op_alone (t : bytes) (c : Z) : Prop :=
  (t = [46] -> c <> 46 /\ ~ digit c) /\ (t = [47] -> c <> 47 /\ c <> 42).

(** Characters that start no token. *)
Definition stray (c : Z) : Prop :=
  128 <= c \/ 0 <= c <= 8 \/ c = 11 \/ c = 12 \/ 14 <= c <= 31 \/ c = 36 \/ c = 92 \/ c = 127.

Section Lexemes.
Variables isL isD : Z -> bool.

Definition letter (c : Z) : Prop :=
  97 <= c <= 122 \/ 65 <= c <= 90 \/ c = 95 \/ (128 <= c /\ isL c = true).
Definition letter_or_digit (c : Z) : Prop := letter c \/ digit c \/ (128 <= c /\ isD c = true).
Definition ident (t : bytes) : Prop := t <> [] /\ letter (first t) /\ chars letter_or_digit t.

(** [lexeme kind lit text after]: [text], in front of [after], is a token of that kind and Literal. *)
Inductive lexeme : Z -> bytes -> bytes -> bytes -> Prop :=
| Lx_ident : forall t after, ident t -> ~ letter_or_digit (first after) -> lexeme IDENT t t after
| Lx_number : forall k t after, number k t -> longest (fun t => exists k, number k t) t after ->
    lexeme k t t after
| Lx_string : forall t after, quoted_lit 34 t after -> lexeme STRING t t after
| Lx_char : forall t after, quoted_lit 39 t after -> lexeme CHAR t t after
| Lx_raw : forall t after, raw_lit t after ->
    lexeme STRING (filter (fun b => negb (b =? 13)) t) t after
| Lx_op : forall k t after, k <> SEMICOLON -> op_spelling k t -> longest operator t after -> op_alone t (first after) ->
    lexeme k [] t after
| Lx_semi : forall after, lexeme SEMICOLON [59] [59] after
| Lx_dots : forall after, (forall r, after <> 46 :: r) -> lexeme ILLEGAL [] [46; 46] after
| Lx_stray : forall c t after, stray c -> ~ letter c -> t = firstn (width (t ++ after)) (t ++ after) ->
    first (t ++ after) = c -> lexeme ILLEGAL (EncodeRune c) t after
| Lx_comment : forall t after, comment t after -> (forall b, t <> 35 :: b) ->
    lexeme COMMENT (filter (fun b => negb (b =? 13)) t) t after
| Lx_sharp : forall t after, sharp_comment t -> at_line_end after -> lexeme COMMENT t t after
| Lx_eof : lexeme EOF [] [] [].

(** * Semicolon insertion *)
(** Tokens after which a line end becomes a semicolon. *)
Definition line_final (k : Z) : Prop :=
  k = IDENT \/ k = INT \/ k = FLOAT \/ k = IMAG \/ k = CHAR \/ k = STRING \/
  k = RPAREN \/ k = RBRACK \/ k = RBRACE \/ k = INC \/ k = DEC.

(** The line ends here: only blanks and one-line block comments before a newline, the end of file, a
    line comment, or a block comment with a newline. *)
Inductive line_ends_c : bytes -> Prop :=
| LE_blank : forall b l, blank b -> line_ends_c l -> line_ends_c (b :: l)
| LE_eof : line_ends_c []
| LE_nl : forall l, line_ends_c (10 :: l)
| LE_line : forall l, line_ends_c (47 :: 47 :: l)
| LE_block_nl : forall body l, ~ has_close body -> line_ends_c (47 :: 42 :: body ++ 10 :: l)
| LE_block_open : forall body, ~ has_close body -> line_ends_c (47 :: 42 :: body)
| LE_block : forall body l, ~ has_close (body ++ [42]) -> line_ends_c l ->
    line_ends_c (47 :: 42 :: body ++ 42 :: 47 :: l).

(** ... or, directly after blanks, a # comment. *)
Definition line_ends (l : bytes) : Prop :=
  line_ends_c l \/ exists bl r, l = bl ++ 35 :: r /\ Forall blank bl.

(** * Scanning a text *)
(** A token with the white space in front of it and its spelling in the source. *)
Record piece : Type := mkPiece { p_gap : bytes; p_text : bytes; p_tok : token }.
Definition flat (ps : list piece) : bytes := flat_map (fun p => p_gap p ++ p_text p) ps.

Definition auto_semi (t : token) : Prop := tkind t = SEMICOLON /\ tlit t = [10].

(** Is a line end after these pieces (latest first) a semicolon?  An illegal character keeps the status
    if only blanks separate it from its predecessor. *)
Fixpoint pending (before : list piece) : Prop :=
  match before with
  | [] => False
  | p :: b => line_final (tkind (p_tok p)) \/
      (tkind (p_tok p) = ILLEGAL /\ tlit (p_tok p) <> [] /\ Forall blank (p_gap p) /\ pending b)
  end.

Variables comments semis : bool.

(** [scanned before o ps after]: behind the pieces [before] (latest first), the text [flat ps ++ after] at
    offset [o] splits into the pieces [ps] and the rest [after]. *)
Inductive scanned : list piece -> nat -> list piece -> bytes -> Prop :=
| Sc_nil : forall b o after, scanned b o [] after
| Sc_tok : forall b o p ps after,
    ~ (semis = true /\ pending b /\ line_ends (p_gap p ++ p_text p ++ flat ps ++ after)) ->
    gap (p_gap p) (p_text p ++ flat ps ++ after) ->
    (comments = true -> Forall ws (p_gap p)) ->
    (tkind (p_tok p) = COMMENT -> comments = true) ->
    lexeme (tkind (p_tok p)) (tlit (p_tok p)) (p_text p) (flat ps ++ after) ->
    tpos (p_tok p) = S (o + length (p_gap p)) ->
    scanned (p :: b) (o + length (p_gap p) + length (p_text p)) ps after ->
    scanned b o (p :: ps) after
| Sc_semi : forall b o p ps after,
    semis = true -> pending b -> line_ends (p_gap p ++ p_text p ++ flat ps ++ after) ->
    Forall blank (p_gap p) ->
    auto_semi (p_tok p) ->
    (p_text p = [10] \/
     (p_text p = [] /\ (flat ps ++ after = [] \/ exists c r, flat ps ++ after = c :: r /\ (c = 47 \/ c = 35)))) ->
    tpos (p_tok p) = S (o + length (p_gap p)) ->
    scanned (p :: b) (o + length (p_gap p) + length (p_text p)) ps after ->
    scanned b o (p :: ps) after.
End Lexemes.

(** The byte order mark a file may start with. *)
Definition bom_text : bytes := [239; 187; 191].
Definition has_bom (b r : bytes) : Prop := b = bom_text \/ (b = [] /\ forall x, r <> bom_text ++ x).
