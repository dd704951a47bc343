(** Model of what a tokener keeps of its last text (tpl/scanner.go:121-144 Init, tpl/match.go:37-63 Tokenize, tpl/compiler.go:77-111 EvalSub), and of
    Source, FileLine, MatchError.Error (tpl/grammar.go:63-84, 111-142) and RuntimeError.Error (tpl/interpreter/interpreter.go:102-112), which ask it.
    The text of the numbers and of Code is left out. *)
From Verif Require Import Base Token Utf8 Scanner ScannerSpec Tokenize Grammar Matcher PropScan PropLine.
Local Open Scope list_scope. Local Open Scope Z_scope.

(** t.Source(): the file (its name; its line table and //line infos are in the scanner's state) and the text of the last Init *)
Record held : Type := mkHeld { h_name : bytes; h_text : bytes; h_sc : sc }.

Section Reuse.
Variables isL isD : Z -> bool.
Variables mC mS : bool.
(** match.go:49-61: the state of the scanner when the loop of Tokenize ends *)
Fixpoint tz_state (src : bytes) (tk : tokener) (n : nat) (s : sc) : sc :=
  match n with
  | O => s
  | S n' =>
      let '(t0, s1) := Scan isL isD mC mS src s in
      match rev (errs s1) with
      | _ :: _ => s1
      | [] => if tkind (tk_scan tk t0) =? EOF then s1 else tz_state src tk n' s1
      end
  end.
Definition state_after (tk : tokener) (old : sc) (src : bytes) : sc := tz_state src (tk_init tk) (2 * length src + 2) (Init src old).

(** what is done with a matcher or an engine: a text is scanned (Match, MatchExactly, Eval, EvalSub of a text; the keywords may have changed), or
    tokens are matched that were scanned before (EvalSub of tokens, compiler.go:85-96) *)
Inductive event : Type := EText (tk : tokener) (name src : bytes) | ETokens (doc : list token).
Definition happen (h : held) (e : event) : held :=
  match e with EText tk name src => mkHeld name src (state_after tk (h_sc h) src) | ETokens _ => h end.
Definition after (h : held) (es : list event) : held := fold_left happen es h.

(** grammar.go:64-74 *)
Definition SourceNow (h : held) (arr : list token) (i j : nat) : mayp bytes := Source (h_text h) arr i j.
(** grammar.go:77-84; go/token File.Line with //line infos *)
Definition LineNow (h : held) (pos : nat) : mayp Z := do o <- Offset (h_text h) pos; Val (snd (file_position (h_name h) (h_sc h) o)).
Definition FileLineNow (h : held) (doc : list token) : mayp (bytes * Z) :=
  match doc with [] => Val ([], 0) | a :: _ => do n <- LineNow h (tpos a); Val (h_name h, n) end.
(** grammar.go:124-142 calcErrorInfo *)
Definition ErrorInfoNow (h : held) (doc : list token) (eof : token) (idxErr : nat) : mayp (Z * bytes) :=
  match doc with
  | [] => Val (0, [])
  | d0 :: _ =>
      let arr := doc ++ [eof] in
      do start <- Offset (h_text h) (tpos d0);
      do end_ <- Offset (h_text h) (tpos eof);
      match nth_error arr (idxErr + 1), nth_error arr idxErr with
      | Some e1, Some e0 =>
          do errpos <- Offset (h_text h) (tpos e1);
          do all <- slice (h_text h) start end_;
          let text := nextLines 9 all in
          do text' <- (if (length text <? errpos - start)%nat then slice (h_text h) start errpos else Val text);
          do line <- LineNow h (tpos e0);
          Val (line, text')
      | _, _ => Crash
      end
  end.
(** interpreter.go:102-112 RuntimeError.Error: what it writes before ": runtime error": nothing for a nil Ctx, else the line, with the file's name if it has one *)
Definition RuntimeErrorNow (ctx : bool) (h : held) (src : list token) : mayp (option (option bytes * Z)) :=
  if ctx then
    do fl <- FileLineNow h src;
    Val (Some (match fst fl with [] => None | f => Some f end, snd fl))
  else Val None.
End Reuse.
