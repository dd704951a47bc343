(** How a Go program uses a qlang engine: variables set and read from outside, values of programs.  And what it may expect of it:
    the specification for Property C91. *)
From Coq Require Import String SpecFloat.
From Verif Require Import Base Token Scanner Tokenize Grammar Compiler Interp QValue Qlang QlangSpec QlangTop QExpr.
Local Open Scope Z_scope.

(** ** Model *)
Section Embed.
Context {W : Type}.
Variable L : qlib W.
Notation St := (est nat value (@rest W)).
(** qlang.go:310-313 Vars, 315-319 Var: those of the outermost frame *)
Definition Vars (s : St) : list (bytes * value) := fr_vars (getf 0 s).
Definition Var (n : bytes) (s : St) : option value := find n (Vars s).
(** qlang.go:321-324 SetVar *)
Definition SetVar (n : bytes) (v : value) (s : St) : St := updf 0 (fun f => set_vars (set_key n v (fr_vars f)) f) s.
(** qlang.go:331-336 Ret: Pop and Clear (function.go:31-34, 43-46).  Clear makes the stack as long as the base: if that is one more
    than Pop has left, the value popped is on the stack again, as Pop has not overwritten it.  A base above the stack as it was
    before Pop does not occur ([C91_usable]); for it the model has a run-time error, where Go would have one only if the base
    is above the capacity. *)
Definition Ret (s : St) : (option value * St) + (panicq * St) :=
  let b := fr_base (getf 0 s) in
  if (b <=? length (e_stk s))%nat then inl (hd_error (e_stk s), set_stk (skipn (length (e_stk s) - b) (e_stk s)) s) else inr (PUser rt_error, set_stk (tl (e_stk s)) s).
(** engine.go:61-64 SafeEval: the name of the file, here the empty one, is used in no message that is modelled *)
Variables isL isD : Z -> bool.
Definition SafeEval (n : nat) (semis : bool) (old : sc) (src : bytes) (s : St) := SafeExec L isL isD n semis old src s.

(** a host program: it sets a variable, reads one, or has a text evaluated and takes the value, unless there is an error *)
Inductive action : Type := ASet (n : bytes) (v : value) | AGet (n : bytes) | AEval (old : sc) (src : bytes).
Inductive seen : Type := SNothing | SVar (o : option value) | SValue (o : option value) | SError (e : panicq + (nat * smsg)) | SPanic (e : panicq).
Definition perform (n : nat) (semis : bool) (a : action) (s : St) : seen * St :=
  match a with
  | ASet x v => (SNothing, SetVar x v s)
  | AGet x => (SVar (Var x s), s)
  | AEval old src =>
      match SafeEval n semis old src s with
      | inl (None, s1) => match Ret s1 with inl (o, s2) => (SValue o, s2) | inr (e, s2) => (SPanic e, s2) end
      | inl (Some e, s1) => (SError e, s1)
      | inr (e, s1) => (SPanic e, s1)
      end
  end.
Fixpoint host (n : nat) (semis : bool) (l : list action) (s : St) : list seen * St :=
  match l with
  | [] => ([], s)
  | a :: l' => let (x, s1) := perform n semis a s in let (xs, s2) := host n semis l' s1 in (x :: xs, s2)
  end.

(** ** Specification *)
(** the variables as a map *)
Definition env : Type := bytes -> option value.
Definition no_vars : env := fun _ => None.
Definition with_var (x : bytes) (v : value) (g : env) : env := fun n => if beq n x then Some v else g n.
(** the value of an expression *)
Fixpoint xval (g : env) (e : ex) : value + pvq :=
  match e with
  | XLit v => inl v
  | XVar n =>
      if beq n n_unset then inl (VUnset 0)
      else match g n with
      | Some v => inl v
      | None => match n with
                | [] => inr rt_error
                | _ => match l_fnval L n with Some v => inl v | None => inr (msg m_nosym [VStr n]) end
                end
      end
  | XUn f a => match xval g a with inl v => f v | inr q => inr q end
  | XBin f a b => match xval g a with inl v => match xval g b with inl w => f v w | inr q => inr q end | inr q => inr q end
  | XAnd a b => match xval g a with inl (VBool false) => inl (VBool false) | inl (VBool true) => xval g b | inl _ => inr (msg m_and []) | inr q => inr q end
  | XOr a b => match xval g a with inl (VBool true) => inl (VBool true) | inl (VBool false) => xval g b | inl _ => inr (msg m_or []) | inr q => inr q end
  end.
(** what the host wants done, in other words: the text of [AEval] is an expression, or  x = e *)
Inductive request : Type := RSet (n : bytes) (v : value) | RGet (n : bytes) | RValue (e : ex) | RLet (x : bytes) (e : ex).
Inductive requests (semis : bool) : action -> request -> Prop :=
| rq_set : forall n v, plain v -> requests semis (ASet n v) (RSet n v)
| rq_get : forall n, requests semis (AGet n) (RGet n)
| rq_value : forall old src ts eof e, Tokenize isL isD false semis (AutoKw q_akw) old src = TzOk ts eof -> written L 5 e ts ->
    requests semis (AEval old src) (RValue e)
| rq_let : forall old src t t1 ts eof e, Tokenize isL isD false semis (AutoKw q_akw) old src = TzOk (t :: t1 :: ts) eof ->
    tkind t = IDENT -> tlit t <> [] -> tkind t1 = ASSIGN -> written L 5 e ts -> requests semis (AEval old src) (RLet (tlit t) e).
(** what the host sees of a request, and the variables after it *)
Inductive answer : Type := ANothing | AVar (o : option value) | AValue (v : value) | AFailed (q : pvq) | APanicked (v : value).  (* the last: the host panics, with this value; not in C91 and C92 *)
Definition answered (g : env) (r : request) : answer * env :=
  match r with
  | RSet x v => (ANothing, with_var x v g)
  | RGet x => (AVar (g x), g)
  | RValue e => match xval g e with inl v => (AValue v, g) | inr q => (AFailed q, g) end
  | RLet x e => match xval g e with inl v => (AValue v, with_var x v g) | inr q => (AFailed q, g) end
  end.
Fixpoint answers (g : env) (l : list request) : list answer * env :=
  match l with
  | [] => ([], g)
  | r :: l' => let (a, g1) := answered g r in let (al, g2) := answers g1 l' in (a :: al, g2)
  end.
(** the error of a failed evaluation also tells where in the text the failure was *)
Inductive looks : answer -> seen -> Prop :=
| k_nothing : looks ANothing SNothing
| k_var : forall o, looks (AVar o) (SVar o)
| k_value : forall v, looks (AValue v) (SValue (Some v))
| k_failed : forall q ts, looks (AFailed q) (SError (inl (wrap ts (PUser q))))
| k_panicked : forall v, looks (APanicked v) (SPanic (PUser (PvOther v))).
End Embed.
