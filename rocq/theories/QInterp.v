(** Model of tpl/qlang/cl/interpreter/interpret.go: engines whose interpreter is an object of a qlang program.

    Conventions
    - calling a qlang function (Function.Call) is a parameter [fcall]; in PropObj.v it is Qlang.FnCall;
    - calling another Go function (reflect's Call) is a parameter of the function, [gf_call], including what reflect
      panics with when an argument has a wrong type; its result is the first result, None if there is none;
    - what a slice or a map[string]interface{} holds is a parameter: it depends on the state;
    - a function is a method of a class (Function.Cls, class.go:92) when it is one of the functions of the class;
    - a table entry that is nil is rejected as one that is not a function (Go: a nil pointer, also an error of New);
    - println of /_tr is left out. *)
From Coq Require Import String SpecFloat.
From Verif Require Import Base Token Utf8 Scanner Tokenize Grammar Matcher Compiler Interp QValue Qlang QlangTop.
Local Open Scope Z_scope.

(** interpret.go:27-31 Engine: the interpreter (an object) and mute; the state of the program that uses it *)
Record ost (R : Type) : Type := mkO { o_mute : Z; o_ipt : value; o_rest : R }.
Arguments mkO {R}. Arguments o_mute {R}. Arguments o_ipt {R}. Arguments o_rest {R}.
Definition set_omute {R} (z : Z) (s : ost R) : ost R := mkO z (o_ipt s) (o_rest s).
Definition set_oipt {R} (v : value) (s : ost R) : ost R := mkO (o_mute s) v (o_rest s).
(** a Go function that is not a qlang function: its kind is Func, its parameters *)
Record gofun (R : Type) : Type := mkGofun { gf_in : nat; gf_variadic : bool; gf_call : list value -> ost R -> (option value * ost R) + (panicq * ost R) }.
Arguments mkGofun {R}. Arguments gf_in {R}. Arguments gf_variadic {R}. Arguments gf_call {R}.

Section QInterp.
Context {R : Type}.
Notation S := (ost R).
Notation res A := ((A * S) + (panicq * S))%type.
Variable fcall : func -> list value -> S -> res value.
Variable go_fn : value -> option (gofun R).
Variable elems : value -> S -> option (list value).
Variable table_of : value -> S -> option (list (bytes * value)).
Variable parse_float : bytes -> float + nerr.
Variable veng : value.                            (* the engine as a value *)

Definition throws {A : Type} (fmt : bytes) (args : list value) (s : S) : res A := inr (PUser (msg fmt args), s).
Definition m_nomethod : bytes := Eval vm_compute in s2b "method not found: ".
Definition m_notslice : bytes := Eval vm_compute in s2b "method stack.popArgs doesn't return a slice".
Definition m_parse : bytes := Eval vm_compute in s2b "parse mark `%s` failed: %v".
Definition n_popArgs : bytes := Eval vm_compute in s2b "popArgs".
Definition n_push : bytes := Eval vm_compute in s2b "push".
Definition n_stack : bytes := Eval vm_compute in s2b "stack".
Definition n_fntable : bytes := Eval vm_compute in s2b "fntable".
Definition n_grammar : bytes := Eval vm_compute in s2b "grammar".
Definition n_Src : bytes := Eval vm_compute in s2b "Src".
Definition n_Engine : bytes := Eval vm_compute in s2b "Engine".
Definition n_Float : bytes := Eval vm_compute in s2b "Float".
Definition n_Int : bytes := Eval vm_compute in s2b "Int".

(** interpret.go:42-51 lastWord: from the last capital ASCII letter on *)
Fixpoint lastWord (s : bytes) : bytes :=
  match s with
  | [] => []
  | c :: r => match lastWord r with [] => if upperc c then s else [] | w => w end
  end.

(** an object: its value and its class *)
Definition obj : Type := nat * class.
Definition vobj (o : obj) : value := VObj (fst o) (snd o).
(** interpret.go:53-69 call, callN *)
Definition callN (o : obj) (name : bytes) (args : list value) (s : S) : res value :=
  match find name (c_fns (snd o)) with
  | Some fn => fcall fn (vobj o :: args) s
  | None => throws m_nomethod [VStr name] s
  end.
(** interpret.go:71-92 callFn, with arity > 0 *)
Definition callFn (stk : obj) (g : gofun R) (s : S) : res value :=
  match callN stk n_popArgs [VInt (Z.of_nat (gf_in g))] s with
  | inr e => inr e
  | inl (v, s1) =>
      match elems v s1 with
      | None => throws m_notslice [] s1
      | Some l =>
          match gf_call g l s1 with
          | inr e => inr e
          | inl (o, s2) => callN stk n_push [match o with Some r => r | None => VNil end] s2
          end
      end
  end.
(** interpret.go:94-112 callVfn *)
Definition callVfn (stk : obj) (f : func) (s : S) : res value :=
  match callN stk n_popArgs [VInt (Z.of_nat (length (f_args f)))] s with
  | inr e => inr e
  | inl (v, s1) =>
      match elems v s1 with
      | None => throws m_notslice [] s1
      | Some l =>
          match fcall f l s1 with
          | inr e => inr e
          | inl (r, s2) => callN stk n_push [r] s2
          end
      end
  end.

(** ** The marks *)
Section Marks.
Variable tbl : list (bytes * value).
Variables stk : obj.
Variable ipc : class.
Definition entry (mark : bytes) : option value := find (36 :: mark) tbl.
Definition in_class (f : func) (c : class) : bool := existsb (fun e => (f_id (snd e) =? f_id f)%nat) (c_fns c).
(** interpret.go:236-241: 1: a method of the stack, 2: of the interpreter *)
Definition kindRecvr (f : func) : nat := if in_class f (snd stk) then 1%nat else if in_class f ipc then 2%nat else 0%nat.
Notation G := (gr bytes Empty_set).
(** interpret.go:180-250, 301 marker: checks, then attaches the action, which is identified by the mark *)
Definition omarker {M : Type} (g : G) (mark : bytes) (m : M) : (G * M) + (mpan * M) :=
  match entry mark with
  | None => if beq mark m_mute || beq mark m_unmute || beq mark m_tr then inl (GAct g mark, m) else inr (MPInvalid mark, m)
  | Some (VFunc f) =>
      if f_variadic f then inr (MPVariadic mark, m)
      else if (length (f_args f) <? 1)%nat then inr (MPNoParam mark, m)
      else if (0 <? kindRecvr f)%nat && (2 <? length (f_args f))%nat then inr (MPTooManyParams mark, m)
      else match isLen mark with None => inr (MPIndex, m) | Some _ => inl (GAct g mark, m) end
  | Some v =>
      match go_fn v with
      | None => inr (MPNotFunc mark, m)
      | Some gf =>
          if gf_variadic gf then inr (MPVariadic mark, m)
          else if (gf_in gf <? 1)%nat then inr (MPNoParam mark, m)
          else inl (GAct g mark, m)
      end
  end.
(** interpret.go:266-293 the second argument *)
Definition oarg (mark : bytes) (ts : list token) (len : Z) : value + panicq :=
  match isLen mark with
  | Some true => inl (VInt len)
  | _ =>
      let w := lastWord mark in
      if beq w n_Src then inl (match ts with [] => VNil | _ => VCode ts end)
      else if beq w n_Engine then inl veng
      else match ts with
      | [] => inr (PUser rt_error)
      | t :: _ =>
          if beq w n_Float then match parse_float (tlit t) with inl v => inl (VFloat v) | inr _ => inr (PUser (msg m_parse [VStr mark])) end
          else if beq w n_Int then match StrInt 10 (tlit t) with inl v => inl (VInt v) | inr _ => inr (PUser (msg m_parse [VStr mark])) end
          else inl (VStr (tlit t))
      end
  end.
Definition dropped (r : res value) : S + (panicq * S) := match r with inl (_, s) => inl s | inr e => inr e end.
(** interpret.go:221-226, 252-300 the action of a mark that is in the table, when it is not muted *)
Definition obody (v : value) (mark : bytes) (ts : list token) (len : Z) (s : S) : S + (panicq * S) :=
  match v with
  | VFunc f =>
      if (kindRecvr f =? 0)%nat then dropped (callVfn stk f s)
      else
        let self := if (kindRecvr f =? 1)%nat then vobj stk else o_ipt s in
        if (length (f_args f) =? 2)%nat then
          match oarg mark ts len with
          | inl a => dropped (fcall f [self; a] s)
          | inr p => inr (p, s)
          end
        else dropped (fcall f [self] s)
  | _ => match go_fn v with Some gf => dropped (callFn stk gf s) | None => inl s end
  end.
(** interpret.go:180-301 the actions *)
Definition oact (mark : bytes) (ts : list token) (len : Z) (s : S) : S + (panicq * S) :=
  match entry mark with
  | None =>
      if beq mark m_mute then inl (set_omute (o_mute s + 1) s)
      else if beq mark m_unmute then inl (set_omute (o_mute s - 1) s)
      else inl s
  | Some v => if silenced mark (o_mute s) then inl s else obody v mark ts len s
  end.
Definition oclient : uclient bytes Empty_set pvq S unit := mkUclient oact (fun t _ => match t with end) (fun t _ _ _ => match t with end).
End Marks.
(** interpret.go:177-179 initer *)
Definition oinit (s : st S) : st S := mkSt (lens s) (set_omute 0 (ust s)).

(** ** Engines *)
(** what New made: the compiling result, and what its actions use *)
Record engine : Type := mkEngine { g_root : gr bytes Empty_set; g_dst : dst bytes Empty_set unit; g_tbl : list (bytes * value); g_stk : obj; g_ipc : class }.
Definition eclient (e : engine) : uclient bytes Empty_set pvq S unit := oclient (g_tbl e) (g_stk e) (g_ipc e).
(** the error New returns: of a panic (a string or an error), or of the compiler *)
Inductive nerror : Type := NeOf (p : panicq) | NeNotObject | NeStack | NeFntable | NeGrammar | NeCompile (r : clres bytes Empty_set mpan unit).
Inductive nres : Type := NewOk (e : engine) (s : S) | NewErr (e : nerror) (s : S) | NewPanic (p : panicq) (s : S) | NewFuel.
(** interpret.go:116-127 the deferred function of New *)
Definition caught (p : panicq) (s : S) : nres :=
  if uncatchable p then NewPanic p s else match as_error p with Some e => NewErr (NeOf e) s | None => NewPanic p s end.
Variables isL isD : Z -> bool.
(** interpret.go:114-131 New, 160-319 newEngine; [tk] is options.Scanner (nil: a new AutoKwScanner) *)
Definition ONew (fuel : nat) (tk : tokener) (old : sc) (ip : value) (s : S) : nres :=
  match ip with
  | VObj i c =>
      match callN (i, c) n_stack [] s with
      | inr (p, s1) => caught p s1
      | inl (VObj si sc, s1) =>
          match callN (i, c) n_fntable [] s1 with
          | inr (p, s2) => caught p s2
          | inl (vt, s2) =>
              match table_of vt s2 with
              | None => NewErr NeFntable s2
              | Some tbl =>
                  match callN (i, c) n_grammar [] s2 with
                  | inr (p, s3) => caught p s3
                  | inl (VStr gr, s3) =>
                      match Cl (omarker tbl (si, sc) c) isL isD fuel tk old tt gr with
                      | ClOk root d => NewOk (mkEngine root d tbl (si, sc) c) (mkO 0 ip (o_rest s3))
                      | ClFuel => NewFuel
                      | r => NewErr (NeCompile r) s3
                      end
                  | inl (_, s3) => NewErr NeGrammar s3
                  end
              end
          end
      | inl (_, s1) => NewErr NeStack s1
      end
  | _ => NewErr NeNotObject s
  end.
(** match.go ErrNoGrammar *)
Definition e_nogrammar : panicq := PUser (PvErr (EOther (VMsg (s2b "no grammar") []))).
(** interpret.go:133-153 Exec, Eval: what MatchExactly returned or panicked with; inl None: nil *)
Definition OExec (fuel : nat) (semis : bool) (old : sc) (e : engine) (src : bytes) (s : S) : (option (panicq + (nat * smsg)) * S) + (panicq * S) :=
  match MatchExactly (cenv (g_dst e)) (lift (eclient e)) isL isD false semis oinit fuel (g_root e) (d_tk (g_dst e)) old src (mkSt (fun _ => 0) s) with
  | MNil s' | MNext _ s' => inl (None, ust s')
  | MNoGrammar s' => inl (Some (inl e_nogrammar), ust s')
  | MTokErr e s' => inl (Some (inr e), ust s')
  | MFail e s' => inl (Some (inl (PMatch e)), ust s')
  | MPanic p s' => if uncatchable p then inr (p, ust s') else match as_error p with Some e => inl (Some (inl e), ust s') | None => inr (p, ust s') end
  | MFuel => inr (PUser PvFuel, s)
  end.
(** interpret.go:321-331 EvalCode of a token slice *)
Definition OEvalCode (fuel : nat) (e : engine) (fn : value) (name : bytes) (doc : list token) (s : st S) : mout :=
  let u := ust s in
  let restore (s' : st S) := mkSt (lens s') (set_omute (o_mute u) (set_oipt (o_ipt u) (ust s'))) in
  match EvalSubTokens (g_dst e) (lift (eclient e)) oinit fuel name doc (mkSt (lens s) (set_oipt fn u)) with
  | MNext n s' => MNext n (restore s')
  | MNil s' => MNil (restore s')
  | MNoGrammar s' => MNoGrammar (restore s')
  | MTokErr e s' => MTokErr e (restore s')
  | MFail e s' => MFail e (restore s')
  | MPanic p s' => MPanic p (restore s')
  | MFuel => MFuel
  end.
End QInterp.
