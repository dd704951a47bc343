(** Model of Matcher.Tokenize (tpl/match.go:37-63) and AutoKwScanner (tpl/compiler.go:16-65). *)
From Verif Require Import Base Token Utf8 Scanner.

(** ** AutoKwScanner *)
(** compiler.go:17-21: the fields added to Scanner.  [kw_map] is the map keywords; None is the nil map. *)
Record akw : Type := mkKw { kw_toks : list bytes; kw_map : option (list (bytes * Z)) }.
Definition new_akw : akw := mkKw [] None.

Fixpoint lookup (k : bytes) (m : list (bytes * Z)) : option Z :=
  match m with
  | [] => None
  | (k', v) :: m' => if beq k k' then Some v else lookup k m'
  end.
(** p.keywords[lit] (reading a nil map finds nothing). *)
Definition kw_find (k : akw) (lit : bytes) : option Z :=
  match kw_map k with Some m => lookup lit m | None => None end.

(** compiler.go:24-29 Init: what it does to the added fields. *)
Definition KwInit (k : akw) : akw :=
  match kw_map k with Some _ => k | None => mkKw (kw_toks k) (Some []) end.

(** compiler.go:32-40 Scan: what it does to the token scanned by Scanner. *)
Definition KwScan (k : akw) (t : token) : token :=
  if tkind t =? IDENT then
    match kw_find k (tlit t) with Some tok => mkTok tok (tpos t) (tlit t) | None => t end
  else t.

(** compiler.go:43-48 Ttol. *)
Definition KwTtol (k : akw) (tok : Z) : mayp bytes :=
  if USER_TOKEN_BEGIN <=? tok then
    match nth_error (kw_toks k) (Z.to_nat (tok - USER_TOKEN_BEGIN)) with Some l => Val l | None => Crash end
  else Token2Lit tok.

(** compiler.go:51-65 Ltot.  Crashes: lit[0] of "", lit[1:0] of a single quote, assignment to a nil map. *)
Definition KwLtot (k : akw) (lit : bytes) : mayp (Z * akw) :=
  let tok := Lit2Token lit in
  if negb (tok =? ILLEGAL) then Val (tok, k)
  else
    match lit with
    | [] => Crash
    | q :: r =>
        if q =? 34 then
          match r with
          | [] => Crash
          | _ =>
              let kw := removelast r in
              match kw_find k kw with
              | Some tok => Val (tok, k)
              | None =>
                  match kw_map k with
                  | None => Crash
                  | Some m =>
                      let tok := USER_TOKEN_BEGIN + Z.of_nat (length (kw_toks k)) in
                      Val (tok, mkKw (kw_toks k ++ [lit]) (Some ((kw, tok) :: m)))
                  end
              end
          end
        else Val (ILLEGAL, k)
    end.

(** ** Tokeners: the plain scanner and the keyword scanner *)
Inductive tokener : Type := Plain | AutoKw (k : akw).
Definition tk_scan (k : tokener) (t : token) : token := match k with Plain => t | AutoKw k => KwScan k t end.
Definition tk_init (k : tokener) : tokener := match k with Plain => Plain | AutoKw k => AutoKw (KwInit k) end.
Definition tk_ltot (k : tokener) (lit : bytes) : mayp (Z * tokener) :=
  match k with
  | Plain => Val (Lit2Token lit, Plain)
  | AutoKw k => match KwLtot k lit with Val (tok, k') => Val (tok, AutoKw k') | Crash => Crash end
  end.
Definition tk_ttol (k : tokener) (tok : Z) : mayp bytes :=
  match k with Plain => Token2Lit tok | AutoKw k => KwTtol k tok end.

(** ** Tokenize *)
(** TzOk: the tokens, and the EOF token left in the array behind them.
    TzErr: the tokens before the failing Scan and the last error reported. TzStuck: out of fuel. *)
Inductive tzres : Type :=
| TzOk (ts : list token) (eof : token)
| TzErr (ts : list token) (e : nat * smsg)
| TzStuck.

Section Tokenize.
Variables isL isD : Z -> bool.
Variables mComments mSemis : bool.
Variable src : bytes.
Variable tk : tokener.

(** match.go:49-61; the error handler keeps the last error (match.go:44-46). *)
Fixpoint tz_loop (n : nat) (s : sc) (acc : list token) : tzres :=
  match n with
  | O => TzStuck
  | S n' =>
      let '(t0, s1) := Scan isL isD mComments mSemis src s in
      let t := tk_scan tk t0 in
      match rev (errs s1) with
      | e :: _ => TzErr acc e
      | [] => if tkind t =? EOF then TzOk acc t else tz_loop n' s1 (acc ++ [t])
      end
  end.
End Tokenize.

(** match.go:37-63 Tokenize; [old] is the previous state of the tokener's Scanner. *)
Definition Tokenize (isL isD : Z -> bool) (mComments mSemis : bool) (tk : tokener) (old : sc) (src : bytes) : tzres :=
  tz_loop isL isD mComments mSemis src (tk_init tk) (2 * length src + 2) (Init src old) [].
