(** Running qlang programs in examples: a small library, and what a program leaves. *)
From Coq Require Import String SpecFloat.
From Verif Require Import Base Token Utf8 Scanner Tokenize Grammar Matcher PegSpec MatchProofs Compiler Interp QValue Qlang QlangTop PropScan.
Local Open Scope Z_scope.

(** panic, true, false, nil, undefined and unset; everything else of the library is missing *)
Definition L0 : qlib unit := mkLib unit
  (fun n => if beq n (s2b "panic") || beq n (s2b "unset") then Some (VGo n)
            else if beq n (s2b "true") then Some (VBool true) else if beq n (s2b "false") then Some (VBool false)
            else if beq n (s2b "nil") then Some VNil else if beq n (s2b "undefined") then Some VUndefined else None)
  (fun _ => None) (fun _ _ => false) (fun _ _ w => (inr PvFuel, w)) (fun _ w => (inr PvFuel, w)) (fun _ _ w => (inr PvFuel, w)) (fun _ _ _ w => (inr PvFuel, w))
  (fun b => Some (removelast (tl b))) (fun _ => None) (fun _ => inr NSyntax).
(** the text of a program, executed in a new interpreter *)
Definition exec (t : string) := Exec L0 (fun _ => false) (fun _ => false) 200 false PropScan.fresh (s2b t) (q_start tt).
(** Fine; Failed: an error was returned; Panicked with this value, if it is one of the program or of the interpreter *)
Inductive outcome := Fine | Failed | Panicked (v : value).
Definition panic_value (e : panicq) : value :=
  match e with
  | PUser (PvErr (EOther v)) | PUser (PvStr (SOther v)) | PUser (PvOther v) | PUser (PvRuntime (EOther v) _) | PUser (PvRuntime (EOfStr (SOther v)) _) => v
  | _ => VNil
  end.
(** how it ended, the stack, and the global variables [names] *)
Definition leaves (t : string) (names : list string) : outcome * list value * list (option value) :=
  let vars := fun s => map (fun n => find (s2b n) (fr_vars (getf 0 s))) names in
  match exec t with
  | inl (None, s) => (Fine, e_stk s, vars s)
  | inl (Some _, s) => (Failed, e_stk s, vars s)
  | inr (p, s) => (Panicked (panic_value p), e_stk s, vars s)
  end.
