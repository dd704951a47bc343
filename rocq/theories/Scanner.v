(** Model of tpl/scanner.go: the scanner, function by function.

    Conventions
    - the source is [src : list Z] (bytes), offsets are [nat], runes are [Z], -1 is end of file;
    - [isL], [isD] stand for unicode.IsLetter, unicode.IsDigit on runes >= 0x80;
    - [mComments], [mSemis] are the mode bits ScanComments, InsertSemis (scanner.go:98-104);
    - every error-handler call is appended to [errs]; the handler is the recording one of
      Matcher.Tokenize (a nil handler only drops the records);
    - [lines] is the line table of token.File, latest line first;
    - loops take fuel; running out sets [stuck] (Props show it never happens).
    //line comments are recorded with the file name as it is written (bytes.TrimSpace, filepath.Clean and filepath.Join left out). *)
From Verif Require Import Base Token Utf8.

(** Error messages (scanner.go: the msg arguments of s.error). *)
Inductive smsg : Type :=
| ENul | EUtf8 | EBom | ECommentTerm | EHex | EOctal | EEscUnknown | EEscTerm | EEscChar (c : Z)
| EEscUnicode | ERuneTerm | ERune | EStringTerm | ERawTerm | EIllegal (c : Z).

(** scanner.go:37-54 the scanning state. *)
Record sc : Type := mkSc {
  ch : Z;                      (* current character *)
  off : nat;                   (* character offset *)
  rd : nat;                    (* reading offset *)
  lineOff : nat;               (* current line offset *)
  isemi : bool;                (* insert a semicolon before next newline *)
  ecount : Z;                  (* ErrorCount *)
  errs : list (nat * smsg);    (* calls of the error handler, oldest first: (offset, message) *)
  lines : list nat;            (* line table of the file, latest first *)
  infos : list (nat * bytes * Z); (* line infos of the file, latest first: (offset, file name, line) *)
  stuck : bool                 (* model only: a loop ran out of fuel *)
}.

(** scanner.go:56 *)
Definition bom : Z := 65279.

Section Scanner.
Variables isL isD : Z -> bool.
Variables mComments mSemis : bool.
Variable src : bytes.

Definition fuel : nat := S (length src).

Definition set_stuck (s : sc) : sc :=
  mkSc (ch s) (off s) (rd s) (lineOff s) (isemi s) (ecount s) (errs s) (lines s) (infos s) true.
Definition set_isemi (b : bool) (s : sc) : sc :=
  mkSc (ch s) (off s) (rd s) (lineOff s) b (ecount s) (errs s) (lines s) (infos s) (stuck s).
(** s.ch = c; s.offset = o; s.rdOffset = r (scanner.go:227-229, 717-719, 737-739) *)
Definition set_cur (c : Z) (o r : nat) (s : sc) : sc :=
  mkSc c o r (lineOff s) (isemi s) (ecount s) (errs s) (lines s) (infos s) (stuck s).

(** scanner.go:145-150 error. *)
Definition error (o : nat) (m : smsg) (s : sc) : sc :=
  mkSc (ch s) (off s) (rd s) (lineOff s) (isemi s) (ecount s + 1) (errs s ++ [(o, m)]) (lines s) (infos s) (stuck s).

(** go/token File.AddLine: the offset is added if it is beyond the last line start and within the file. *)
Definition AddLine (o : nat) (ls : list nat) : list nat :=
  match ls with
  | [] => if (o <? length src)%nat then [o] else []
  | l :: _ => if (l <? o)%nat && (o <? length src)%nat then o :: ls else ls
  end.

(** scanner.go:64-67, 85-88: at a newline, remember the line start. *)
Definition newline (o : nat) (s : sc) : sc :=
  if ch s =? 10 then mkSc (ch s) (off s) (rd s) o (isemi s) (ecount s) (errs s) (AddLine o (lines s)) (infos s) (stuck s)
  else s.

(** scanner.go:61-91 next. *)
Definition next (s : sc) : sc :=
  match skipn (rd s) src with
  | b :: r =>
      let o := rd s in
      let s1 := newline o s in
      let '(c, w, s2) :=
        if b =? 0 then (b, 1%nat, error o ENul s1)
        else if 128 <=? b then
          let '(c, w) := DecodeRune (b :: r) in
          (c, w, if (c =? RuneError) && (w =? 1)%nat then error o EUtf8 s1
                 else if (c =? bom) && (0 <? o)%nat then error o EBom s1 else s1)
        else (b, 1%nat, s1) in
      set_cur c o (o + w) s2
  | [] => let s1 := newline (length src) s in set_cur (-1) (length src) (rd s) s1
  end.

(** scanner.go:121-143 Init (the file size check cannot fail in Tokenize, match.go:41). *)
Definition Init (old : sc) : sc :=
  let s := next (mkSc 32 0 0 0 false 0 [] [0%nat] [] false) in
  if ch s =? bom then next s else s.

(** for p(s.ch) { s.next() } *)
Fixpoint while (k : nat) (p : Z -> bool) (s : sc) : sc :=
  if p (ch s) then match k with O => set_stuck s | S k' => while k' p (next s) end else s.

(** scanner.go:503-513 stripCR. *)
Definition stripCR (b : bytes) : bytes := filter (fun c => negb (c =? 13)) b.

(** scanner.go:184-189 the loop of a //-comment; the flag is hasCR. *)
Fixpoint lcom_loop (k : nat) (cr : bool) (s : sc) : bool * sc :=
  if negb (ch s =? 10) && (0 <=? ch s) then
    match k with
    | O => (cr, set_stuck s)
    | S k' => lcom_loop k' (cr || (ch s =? 13)) (next s)
    end
  else (cr, s).

(** scanner.go:199-209 the loop of a block comment: (closed, hasCR, state). *)
Fixpoint bcom_loop (k : nat) (cr : bool) (s : sc) : bool * bool * sc :=
  if 0 <=? ch s then
    match k with
    | O => (false, cr, set_stuck s)
    | S k' =>
        let c := ch s in
        let cr' := cr || (c =? 13) in
        let s1 := next s in
        if (c =? 42) && (ch s1 =? 47) then (true, cr', next s1) else bcom_loop k' cr' s1
    end
  else (false, cr, s).

(** bytes.LastIndex(text, {':'}) *)
Fixpoint last_colon (t : bytes) : option nat :=
  match t with
  | [] => None
  | c :: t' => match last_colon t' with Some i => Some (S i) | None => if c =? 58 then Some 0%nat else None end
  end.
(** strconv.Atoi of digits that may be signed, and positive: None otherwise *)
Fixpoint digits (v : Z) (t : bytes) : option Z :=
  match t with
  | [] => Some v
  | c :: t' => if (48 <=? c) && (c <=? 57) then digits (v * 10 + (c - 48)) t' else None
  end.
Definition posAtoi (t : bytes) : option Z :=
  let t := match t with 43 :: t' => t' | _ => t end in
  match t with
  | [] => None
  | _ => match digits 0 t with Some v => if (0 <? v) && (v <? 2 ^ 63) then Some v else None | None => None end
  end.
(** scanner.go:152 prefix *)
Definition line_prefix : bytes := [47; 47; 108; 105; 110; 101; 32].
(** go/token File.AddLineInfo: the offset must be beyond that of the last info and within the file *)
Definition AddLineInfo (o : nat) (name : bytes) (n : Z) (l : list (nat * bytes * Z)) : list (nat * bytes * Z) :=
  if match l with [] => true | (o1, _, _) :: _ => (o1 <? o)%nat end && (o <? length src)%nat then (o, name, n) :: l else l.
(** scanner.go:154-174 interpretLineComment; the file name as it is written (bytes.TrimSpace, filepath.Clean and filepath.Join
    are left out) *)
Definition interpretLineComment (text : bytes) (s : sc) : sc :=
  if beq (firstn 7 text) line_prefix then
    match last_colon text with
    | Some i =>
        match posAtoi (skipn (S i) text) with
        | Some n => mkSc (ch s) (off s) (rd s) (lineOff s) (isemi s) (ecount s) (errs s) (lines s)
                         (AddLineInfo (lineOff s + length text + 1) (sub text 7 i) n (infos s)) (stuck s)
        | None => s
        end
    | None => s
    end
  else s.

(** scanner.go:176-220 scanComment. *)
Definition scanComment (s : sc) : bytes * sc :=
  let offs := (off s - 1)%nat in
  let '(cr, s') :=
    if ch s =? 47 then
      let '(cr, s1) := lcom_loop fuel false (next s) in
      (cr, if (offs =? lineOff s1)%nat then interpretLineComment (sub src offs (off s1)) s1 else s1)
    else
      let '(closed, cr, s1) := bcom_loop fuel false (next s) in
      if closed then (cr, s1) else (cr, error offs ECommentTerm s1) in
  let lit := sub src offs (off s') in
  (if cr then stripCR lit else lit, s').

(** scanner.go:543-547 skipWhitespace. *)
Definition is_white (semi : bool) (c : Z) : bool :=
  (c =? 32) || (c =? 9) || ((c =? 10) && negb semi) || (c =? 13).
Definition skipWhitespace (s : sc) : sc := while fuel (is_white (isemi s)) s.

(** scanner.go:241-251 inner loop of findLineEnd; the flag says "return true". *)
Fixpoint fle_block (k : nat) (s : sc) : bool * sc :=
  if 0 <=? ch s then
    match k with
    | O => (false, set_stuck s)
    | S k' =>
        let c := ch s in
        if c =? 10 then (true, s)
        else
          let s1 := next s in
          if (c =? 42) && (ch s1 =? 47) then (false, next s1) else fle_block k' s1
    end
  else (false, s).

(** scanner.go:234-263 outer loop of findLineEnd. *)
Fixpoint fle_loop (k : nat) (s : sc) : bool * sc :=
  if ch s =? 47 then (true, s)
  else if ch s =? 42 then
    match k with
    | O => (false, set_stuck s)
    | S k' =>
        let '(r, s1) := fle_block fuel (next s) in
        if r then (true, s1)
        else
          let s2 := skipWhitespace s1 in
          if (ch s2 <? 0) || (ch s2 =? 10) then (true, s2)
          else if negb (ch s2 =? 47) then (false, s2)
          else fle_loop k' (next s2)
    end
  else (false, s).

(** scanner.go:222-264 findLineEnd, with the deferred reset. *)
Definition findLineEnd (s : sc) : bool * sc :=
  let offs := (off s - 1)%nat in
  let '(r, s1) := fle_loop fuel s in
  (r, next (set_cur 47 offs (offs + 1) s1)).

(** scanner.go:266-272 isLetter, isDigit. *)
Definition isLetter (c : Z) : bool :=
  ((97 <=? c) && (c <=? 122)) || ((65 <=? c) && (c <=? 90)) || (c =? 95) || ((128 <=? c) && isL c).
Definition isDigit (c : Z) : bool := ((48 <=? c) && (c <=? 57)) || ((128 <=? c) && isD c).

(** scanner.go:274-280 scanIdentifier. *)
Definition scanIdentifier (s : sc) : bytes * sc :=
  let offs := off s in
  let s' := while fuel (fun c => isLetter c || isDigit c) s in
  (sub src offs (off s'), s').

(** scanner.go:282-292 digitVal. *)
Definition digitVal (c : Z) : Z :=
  if (48 <=? c) && (c <=? 57) then c - 48
  else if (97 <=? c) && (c <=? 102) then c - 97 + 10
  else if (65 <=? c) && (c <=? 70) then c - 65 + 10
  else 16.

(** scanner.go:294-298 scanMantissa. *)
Definition scanMantissa (base : Z) (s : sc) : sc := while fuel (fun c => digitVal c <? base) s.

(** scanner.go:354-367 label exponent. *)
Definition scan_exponent (tok : Z) (s : sc) : Z * sc :=
  let '(tok1, s1) :=
    if (ch s =? 101) || (ch s =? 69) then
      let s1 := next s in
      let s2 := if (ch s1 =? 45) || (ch s1 =? 43) then next s1 else s1 in
      (FLOAT, scanMantissa 10 s2)
    else (tok, s) in
  if ch s1 =? 105 then (IMAG, next s1) else (tok1, s1).

(** scanner.go:347-352 label fraction, falling through to exponent. *)
Definition scan_fraction (tok : Z) (s : sc) : Z * sc :=
  if ch s =? 46 then scan_exponent FLOAT (scanMantissa 10 (next s)) else scan_exponent tok s.

(** scanner.go:300-371 scanNumber. *)
Definition scanNumber (seenDecimalPoint : bool) (s : sc) : Z * bytes * sc :=
  let offs := if seenDecimalPoint then (off s - 1)%nat else off s in
  let '(tok, s') :=
    if seenDecimalPoint then scan_exponent FLOAT (scanMantissa 10 s)
    else if ch s =? 48 then
      let o := off s in
      let s1 := next s in
      if (ch s1 =? 120) || (ch s1 =? 88) then
        let s2 := scanMantissa 16 (next s1) in
        (INT, if (off s2 - o <=? 2)%nat then error o EHex s2 else s2)
      else
        let s2 := scanMantissa 8 s1 in
        let '(seen, s3) :=
          if (ch s2 =? 56) || (ch s2 =? 57) then (true, scanMantissa 10 s2) else (false, s2) in
        if (ch s3 =? 46) || (ch s3 =? 101) || (ch s3 =? 69) || (ch s3 =? 105) then scan_fraction INT s3
        else (INT, if seen then error o EOctal s3 else s3)
    else scan_fraction INT (scanMantissa 10 s) in
  (tok, sub src offs (off s'), s').

(** scanner.go:406-420 the digit loop of scanEscape: None after an error. *)
Fixpoint esc_loop (n : nat) (base x : Z) (s : sc) : option Z * sc :=
  match n with
  | O => (Some x, s)
  | S n' =>
      let d := digitVal (ch s) in
      if base <=? d then
        (None, error (off s) (if ch s <? 0 then EEscTerm else EEscChar (ch s)) s)
      else esc_loop n' base (x * base + d) (next s)
  end.

(** scanner.go:377-428 scanEscape. *)
Definition scanEscape (quote : Z) (s : sc) : bool * sc :=
  let offs := off s in
  let c := ch s in
  let digits n base max s1 :=
    let '(r, s2) := esc_loop n base 0 s1 in
    match r with
    | None => (false, s2)
    | Some x =>
        if (max <? x) || ((55296 <=? x) && (x <? 57344)) then (false, error offs EEscUnicode s2)
        else (true, s2)
    end in
  if (c =? 97) || (c =? 98) || (c =? 102) || (c =? 110) || (c =? 114) || (c =? 116) || (c =? 118)
     || (c =? 92) || (c =? quote) then (true, next s)
  else if (48 <=? c) && (c <=? 55) then digits 3%nat 8 255 s
  else if c =? 120 then digits 2%nat 16 255 (next s)
  else if c =? 117 then digits 4%nat 16 1114111 (next s)
  else if c =? 85 then digits 8%nat 16 1114111 (next s)
  else (false, error offs (if c <? 0 then EEscTerm else EEscUnknown) s).

(** scanner.go:434-457 loop of scanRune: (valid, n, state). *)
Fixpoint rune_loop (k : nat) (offs : nat) (valid : bool) (n : nat) (s : sc) : bool * nat * sc :=
  let c := ch s in
  if (c =? 10) || (c <? 0) then
    if valid then (false, n, error offs ERuneTerm s) else (valid, n, s)
  else
    match k with
    | O => (valid, n, set_stuck s)
    | S k' =>
        let s1 := next s in
        if c =? 39 then (valid, n, s1)
        else if c =? 92 then
          let '(ok, s2) := scanEscape 39 s1 in
          rune_loop k' offs (valid && ok) (S n) s2
        else rune_loop k' offs valid (S n) s1
    end.

(** scanner.go:430-464 scanRune. *)
Definition scanRune (s : sc) : bytes * sc :=
  let offs := (off s - 1)%nat in
  let '(valid, n, s1) := rune_loop fuel offs true 0 s in
  let s2 := if valid && negb (n =? 1)%nat then error offs ERune s1 else s1 in
  (sub src offs (off s2), s2).

(** scanner.go:466-479 scanSharpComment. *)
Definition scanSharpComment (s : sc) : bytes * sc :=
  let offs := (off s - 1)%nat in
  let s1 := while fuel (fun c => negb ((c =? 10) || (c <? 0))) s in
  (sub src offs (off s1), s1).

(** scanner.go:485-498 loop of scanString. *)
Fixpoint str_loop (k : nat) (offs : nat) (s : sc) : sc :=
  let c := ch s in
  if (c =? 10) || (c <? 0) then error offs EStringTerm s
  else
    match k with
    | O => set_stuck s
    | S k' =>
        let s1 := next s in
        if c =? 34 then s1
        else if c =? 92 then let '(_, s2) := scanEscape 34 s1 in str_loop k' offs s2
        else str_loop k' offs s1
    end.

(** scanner.go:481-501 scanString. *)
Definition scanString (s : sc) : bytes * sc :=
  let offs := (off s - 1)%nat in
  let s1 := str_loop fuel offs s in
  (sub src offs (off s1), s1).

(** scanner.go:520-533 loop of scanRawString. *)
Fixpoint raw_loop (k : nat) (offs : nat) (cr : bool) (s : sc) : bool * sc :=
  let c := ch s in
  if c <? 0 then (cr, error offs ERawTerm s)
  else
    match k with
    | O => (cr, set_stuck s)
    | S k' =>
        let s1 := next s in
        if c =? 96 then (cr, s1) else raw_loop k' offs (cr || (c =? 13)) s1
    end.

(** scanner.go:515-541 scanRawString. *)
Definition scanRawString (s : sc) : bytes * sc :=
  let offs := (off s - 1)%nat in
  let '(cr, s1) := raw_loop fuel offs false s in
  let lit := sub src offs (off s1) in
  (if cr then stripCR lit else lit, s1).

(** scanner.go:555-589 switch2, switch3, switch4. *)
Definition switch2 (tok0 tok1 : Z) (s : sc) : Z * sc :=
  if ch s =? 61 then (tok1, next s) else (tok0, s).
Definition switch3 (tok0 tok1 ch2 tok2 : Z) (s : sc) : Z * sc :=
  if ch s =? 61 then (tok1, next s)
  else if ch s =? ch2 then (tok2, next s)
  else (tok0, s).
Definition switch4 (tok0 tok1 ch2 tok2 tok3 : Z) (s : sc) : Z * sc :=
  if ch s =? 61 then (tok1, next s)
  else if ch s =? ch2 then
    let s1 := next s in
    if ch s1 =? 61 then (tok3, next s1) else (tok2, s1)
  else (tok0, s).

(** Result of one pass through Scan's body: a token, or "goto scanAgain". *)
Inductive pass : Type := Tok (t : token) (s : sc) | Again (s : sc).

(** scanner.go:792-794: s.insertSemi = insertSemi in InsertSemis mode, then return. *)
Definition finish (pos : nat) (semi : bool) (kind : Z) (lit : bytes) (s : sc) : pass :=
  Tok (mkTok kind pos lit) (if mSemis then set_isemi semi s else s).

(** an operator: kind and state from one of the switches *)
Definition fin_op (pos : nat) (semi : bool) (r : Z * sc) : pass :=
  finish pos semi (fst r) [] (snd r).

(** scanner.go:621-796: the body of Scan after label scanAgain. *)
Definition scan_pass (s0 : sc) : pass :=
  let s := skipWhitespace s0 in
  let pos := S (off s) in
  let c := ch s in
  if isLetter c then
    let '(lit, s1) := scanIdentifier s in finish pos true IDENT lit s1
  else if (48 <=? c) && (c <=? 57) then
    let '(k, lit, s1) := scanNumber false s in finish pos true k lit s1
  else
    let s1 := next s in
    if c =? -1 then
      if isemi s1 then Tok (mkTok SEMICOLON pos [10]) (set_isemi false s1)
      else finish pos false EOF [] s1
    else if c =? 10 then Tok (mkTok SEMICOLON pos [10]) (set_isemi false s1)
    else if c =? 34 then let '(lit, s2) := scanString s1 in finish pos true STRING lit s2
    else if c =? 39 then let '(lit, s2) := scanRune s1 in finish pos true CHAR lit s2
    else if c =? 96 then let '(lit, s2) := scanRawString s1 in finish pos true STRING lit s2
    else if c =? 58 then fin_op pos false (switch2 COLON DEFINE s1)
    else if c =? 46 then
      if (48 <=? ch s1) && (ch s1 <=? 57) then
        let '(k, lit, s2) := scanNumber true s1 in finish pos true k lit s2
      else if ch s1 =? 46 then
        let s2 := next s1 in
        if ch s2 =? 46 then finish pos false ELLIPSIS [] (next s2) else finish pos false ILLEGAL [] s2
      else finish pos false PERIOD [] s1
    else if c =? 44 then finish pos false COMMA [] s1
    else if c =? 59 then finish pos false SEMICOLON [59] s1
    else if c =? 40 then finish pos false LPAREN [] s1
    else if c =? 41 then finish pos true RPAREN [] s1
    else if c =? 91 then finish pos false LBRACK [] s1
    else if c =? 93 then finish pos true RBRACK [] s1
    else if c =? 123 then finish pos false LBRACE [] s1
    else if c =? 125 then finish pos true RBRACE [] s1
    else if c =? 43 then let r := switch3 ADD ADD_ASSIGN 43 INC s1 in fin_op pos (fst r =? INC) r
    else if c =? 45 then let r := switch3 SUB SUB_ASSIGN 45 DEC s1 in fin_op pos (fst r =? DEC) r
    else if c =? 42 then fin_op pos false (switch2 MUL MUL_ASSIGN s1)
    else if c =? 47 then
      if (ch s1 =? 47) || (ch s1 =? 42) then
        let '(le, s2) := if isemi s1 then findLineEnd s1 else (false, s1) in
        if le then
          Tok (mkTok SEMICOLON pos [10]) (set_isemi false (set_cur 47 (off s) (off s + 1) s2))
        else
          let '(lit, s3) := scanComment s2 in
          if mComments then finish pos false COMMENT lit s3 else Again (set_isemi false s3)
      else fin_op pos false (switch2 QUO QUO_ASSIGN s1)
    else if c =? 35 then
      if isemi s1 then
        Tok (mkTok SEMICOLON pos [10]) (set_isemi false (set_cur 35 (off s) (off s + 1) s1))
      else
        let '(lit, s2) := scanSharpComment s1 in
        if mComments then finish pos false COMMENT lit s2 else Again s2
    else if c =? 37 then fin_op pos false (switch2 REM REM_ASSIGN s1)
    else if c =? 94 then fin_op pos false (switch2 XOR XOR_ASSIGN s1)
    else if c =? 60 then
      if ch s1 =? 45 then finish pos false ARROW [] (next s1)
      else fin_op pos false (switch4 LSS LE 60 SHL SHL_ASSIGN s1)
    else if c =? 62 then fin_op pos false (switch4 GTR GE 62 SHR SHR_ASSIGN s1)
    else if c =? 61 then fin_op pos false (switch2 ASSIGN EQ s1)
    else if c =? 33 then fin_op pos false (switch2 NOT NE s1)
    else if c =? 38 then
      if ch s1 =? 94 then fin_op pos false (switch2 AND_NOT AND_NOT_ASSIGN (next s1))
      else fin_op pos false (switch3 AND AND_ASSIGN 38 LAND s1)
    else if c =? 124 then fin_op pos false (switch3 OR OR_ASSIGN 124 LOR s1)
    else if c =? 63 then finish pos false QUESTION [] s1
    else if c =? 126 then finish pos false TILDE [] s1
    else if c =? 64 then finish pos false AT [] s1
    else
      let s2 := if c =? bom then s1 else error (off s) (EIllegal c) s1 in
      finish pos (isemi s2) ILLEGAL (EncodeRune c) s2.

(** scanner.go:619-797 Scan. *)
Fixpoint scan_loop (k : nat) (s : sc) : token * sc :=
  match scan_pass s with
  | Tok t s' => (t, s')
  | Again s' =>
      match k with
      | O => (mkTok ILLEGAL 0 [], set_stuck s')
      | S k' => scan_loop k' s'
      end
  end.
Definition Scan (s : sc) : token * sc := scan_loop fuel s.

End Scanner.
