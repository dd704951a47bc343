(** Model of the interactive calculators: tpl/examples/calculator/main.go, tpl/examples/ratcalc/bigcalc.go,
    tpl/examples/cmplxcalc/cmplx_calc.go.  The lines are the ones bufio.Scanner delivers; the text of numbers and error messages is not modelled. *)
From Verif Require Import Base Token Scanner Tokenize Grammar Matcher Compiler Interp Calc PropCalc.
Local Open Scope Z_scope.

(** main.go:26 strings.Trim(line, " \t\r\n") *)
Definition is_trimmed (c : Z) : bool := (c =? 32) || (c =? 9) || (c =? 13) || (c =? 10).
Fixpoint trim_left (l : bytes) : bytes := match l with c :: r => if is_trimmed c then trim_left r else l | [] => [] end.
Definition Trim (l : bytes) : bytes := rev (trim_left (rev (trim_left l))).

Section Repl.
Context {F X E : Type}.
Variable k : calc F X E.
Variable to_float : val F X unit E -> F.
Variable of_int : Z -> F.
Variable parse_float : bytes -> F + nerr.
Variables isL isD : Z -> bool.
Variable root : gr bytes Empty_set.
Variable d : dst bytes Empty_set unit.
Notation S := (est unit E unit).
(** printing a value panics if it is a nil *big.Rat (bigcalc.go:37 v.IsInt()) *)
Variable printable : E -> bool.

(** What a line makes the program write: nothing, an error (standard error), or a value. *)
Inductive answer : Type := Silent | Complaint | Printed (v : E).
(** main.go:18-38, bigcalc.go:18-42, cmplx_calc.go:18-42 eval, with its recover; [None]: out of fuel *)
Definition eval (f : nat) (old : sc) (line : bytes) (s : st S) : option (answer * st S) :=
  match Trim line with
  | [] => Some (Silent, s)
  | code =>
      match Eval k to_float of_int parse_float isL isD root d f old code s with
      | MNil s' =>
          let (v, x) := Ret (ust s') in
          let s'' := mkSt (lens s') x in
          match v with Some e => if printable e then Some (Printed e, s'') else Some (Complaint, s'') | None => Some (Complaint, s'') end
      | MNext _ s' | MNoGrammar s' | MTokErr _ s' | MFail _ s' | MPanic _ s' => Some (Complaint, s')
      | MFuel => None
      end
  end.
(** main.go:48-51: the loop over the lines *)
Inductive session : st S -> list bytes -> list answer -> st S -> Prop :=
| session_end : forall s, session s [] [] s
| session_line : forall s line a s1 lines l s2 f old, eval f old line s = Some (a, s1) -> session s1 lines l s2 -> session s (line :: lines) (a :: l) s2.
End Repl.
Arguments Silent {E}. Arguments Complaint {E}. Arguments Printed {E} v.
