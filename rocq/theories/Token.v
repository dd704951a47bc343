(** Model of tpl/token.go and of the Token type of tpl/scanner.go. *)
From Verif Require Import Base.
From Coq Require Import String Ascii.

(** Byte string of a Coq string literal (notation helper, no counterpart in the code). *)
Fixpoint s2b (s : string) : bytes :=
  match s with
  | EmptyString => []
  | String c s' => Z.of_nat (nat_of_ascii c) :: s2b s'
  end.

(** tpl/scanner.go:15-19 Token.  [tpos] is the token.Pos, which is 1 + file offset because
    Tokenize adds the file to a fresh FileSet (match.go:40-41). *)
Record token : Type := mkTok { tkind : Z; tpos : nat; tlit : bytes }.

(** tpl/token.go:10-51 token numbers below 0x80. *)
Definition ILLEGAL := 0.
Definition EOF := 1.
Definition COMMENT := 2.
Definition IDENT := 3.
Definition INT := 4.
Definition FLOAT := 5.
Definition IMAG := 6.
Definition CHAR := 7.
Definition STRING := 8.
Definition ADD := 43.
Definition SUB := 45.
Definition MUL := 42.
Definition QUO := 47.
Definition REM := 37.
Definition AND := 38.
Definition OR := 124.
Definition XOR := 94.
Definition LSS := 60.
Definition GTR := 62.
Definition ASSIGN := 61.
Definition NOT := 33.
Definition LPAREN := 40.
Definition LBRACK := 91.
Definition LBRACE := 123.
Definition COMMA := 44.
Definition PERIOD := 46.
Definition RPAREN := 41.
Definition RBRACK := 93.
Definition RBRACE := 125.
Definition SEMICOLON := 59.
Definition COLON := 58.
Definition QUESTION := 63.
Definition TILDE := 126.
Definition AT := 64.

(** tpl/token.go:53-87 (operator_beg = 0x80, then iota). *)
Definition SHL := 129.
Definition SHR := 130.
Definition AND_NOT := 131.
Definition ADD_ASSIGN := 132.
Definition SUB_ASSIGN := 133.
Definition MUL_ASSIGN := 134.
Definition QUO_ASSIGN := 135.
Definition REM_ASSIGN := 136.
Definition AND_ASSIGN := 137.
Definition OR_ASSIGN := 138.
Definition XOR_ASSIGN := 139.
Definition SHL_ASSIGN := 140.
Definition SHR_ASSIGN := 141.
Definition AND_NOT_ASSIGN := 142.
Definition LAND := 143.
Definition LOR := 144.
Definition ARROW := 145.
Definition INC := 146.
Definition DEC := 147.
Definition EQ := 148.
Definition NE := 149.
Definition LE := 150.
Definition GE := 151.
Definition DEFINE := 152.
Definition ELLIPSIS := 153.
Definition USER_TOKEN_BEGIN := 176.

(** tpl/token.go:91-163 the table [tokens] (entries that are not listed are ""). *)
Definition toktab : list (Z * bytes) := Eval vm_compute in [
  (ILLEGAL, s2b "ILLEGAL"); (EOF, s2b "EOF"); (COMMENT, s2b "COMMENT");
  (IDENT, s2b "IDENT"); (INT, s2b "INT"); (FLOAT, s2b "FLOAT"); (IMAG, s2b "IMAG");
  (CHAR, s2b "CHAR"); (STRING, s2b "STRING");
  (ADD, s2b "'+'"); (SUB, s2b "'-'"); (MUL, s2b "'*'"); (QUO, s2b "'/'"); (REM, s2b "'%'");
  (AND, s2b "'&'"); (OR, s2b "'|'"); (XOR, s2b "'^'");
  (LSS, s2b "'<'"); (GTR, s2b "'>'"); (ASSIGN, s2b "'='"); (NOT, s2b "'!'");
  (LPAREN, s2b "'('"); (LBRACK, s2b "'['"); (LBRACE, s2b "'{'"); (COMMA, s2b "','");
  (PERIOD, s2b "'.'");
  (RPAREN, s2b "')'"); (RBRACK, s2b "']'"); (RBRACE, s2b "'}'"); (SEMICOLON, s2b "';'");
  (COLON, s2b "':'"); (QUESTION, s2b "'?'"); (TILDE, s2b "'~'"); (AT, s2b "'@'");
  (SHL, s2b """<<"""); (SHR, s2b """>>"""); (AND_NOT, s2b """&^""");
  (ADD_ASSIGN, s2b """+="""); (SUB_ASSIGN, s2b """-="""); (MUL_ASSIGN, s2b """*=""");
  (QUO_ASSIGN, s2b """/="""); (REM_ASSIGN, s2b """%=""");
  (AND_ASSIGN, s2b """&="""); (OR_ASSIGN, s2b """|="""); (XOR_ASSIGN, s2b """^=""");
  (SHL_ASSIGN, s2b """<<="""); (SHR_ASSIGN, s2b """>>="""); (AND_NOT_ASSIGN, s2b """&^=""");
  (LAND, s2b """&&"""); (LOR, s2b """||"""); (ARROW, s2b """<-"""); (INC, s2b """++""");
  (DEC, s2b """--""");
  (EQ, s2b """=="""); (NE, s2b """!="""); (LE, s2b """<="""); (GE, s2b """>=""");
  (DEFINE, s2b """:="""); (ELLIPSIS, s2b """...""")
].

(** len(tokens): one more than the largest index of the array literal (token.go:91). *)
Definition ntokens : Z := 154.

(** tokens[tok] for an index within the array. *)
Fixpoint assocZ (k : Z) (l : list (Z * bytes)) : bytes :=
  match l with
  | [] => []
  | (k', s) :: l' => if k =? k' then s else assocZ k l'
  end.
Definition tokens_at (tok : Z) : bytes := assocZ tok toktab.

(** A Go call that may panic. *)
Inductive mayp (X : Type) : Type := Val (x : X) | Crash.
Arguments Val {X}.
Arguments Crash {X}.

(** tpl/token.go:169-174 TokenLen.  tokens[tok] crashes when tok = len(tokens). *)
Definition TokenLen (tok : Z) : mayp Z :=
  if (32 <? tok) && (tok <=? ntokens) then
    if tok <? ntokens then Val (Z.of_nat (List.length (tokens_at tok)) - 2) else Crash
  else Val 0.

(** tpl/token.go:179-186 Token2Lit. *)
Definition Token2Lit (tok : Z) : mayp bytes :=
  if tok <? ntokens then Val (tokens_at tok) else Crash.

(** tpl/token.go:188-202 rtokens and Lit2Token: the map filled from the table; 0 when absent. *)
Fixpoint rassoc (s : bytes) (l : list (Z * bytes)) : Z :=
  match l with
  | [] => ILLEGAL
  | (k, s') :: l' => if beq s s' then k else rassoc s l'
  end.
Definition Lit2Token (lit : bytes) : Z := rassoc lit toktab.

(** tpl/scanner.go:22-24 Token.End. *)
Definition tok_End (t : token) : mayp Z :=
  match TokenLen (tkind t) with
  | Val n => Val (Z.of_nat (tpos t) + (Z.of_nat (List.length (tlit t)) + n))
  | Crash => Crash
  end.
