(** Model of tpl/interpreter/interpreter.go (ParseInt, ParseFloat, GetValue, New's marker and actions, EvalCode)
    and tpl/interpreter.util/call.go (Call, DoCall, VCall). *)
From Coq Require Import String.
From Verif Require Import Base Token Utf8 Scanner Tokenize Grammar Matcher Compiler.

(** ** Literals *)
Inductive nerr : Type := NSyntax | NRange.
(** Go's strconv.ParseUint(s, base, 64), base <> 0, from the accumulated value [n]. *)
Definition digval (c : Z) : option Z :=
  if (48 <=? c) && (c <=? 57) then Some (c - 48)
  else if (97 <=? c) && (c <=? 122) then Some (c - 87)
  else if (65 <=? c) && (c <=? 90) then Some (c - 55) else None.
Fixpoint uint_loop (base n : Z) (s : bytes) : Z + nerr :=
  match s with
  | [] => inl n
  | c :: s' =>
      match digval c with
      | None => inr NSyntax
      | Some d => if base <=? d then inr NSyntax else if 2 ^ 64 <=? n * base + d then inr NRange else uint_loop base (n * base + d) s'
      end
  end.
Definition StrUint (base : Z) (s : bytes) : Z + nerr := match s with [] => inr NSyntax | _ => uint_loop base 0 s end.
(** Go's strconv.ParseInt(s, base, 64). *)
Definition StrInt (base : Z) (s : bytes) : Z + nerr :=
  match s with
  | [] => inr NSyntax
  | c :: r =>
      match StrUint base (if (c =? 43) || (c =? 45) then r else s) with
      | inr e => inr e
      | inl un =>
          if c =? 45 then if 2 ^ 63 <? un then inr NRange else inl (- un)
          else if 2 ^ 63 <=? un then inr NRange else inl un
      end
  end.
(** interpreter.go:23-38 ParseInt; crashes on "". *)
Definition ParseInt (lit : bytes) : mayp (Z + nerr) :=
  match lit with
  | [] => Crash
  | [48] => Val (inl 0)
  | 48 :: x :: r => if (x =? 120) || (x =? 88) then Val (StrInt 16 r) else Val (StrInt 8 (x :: r))
  | _ => Val (StrInt 10 lit)
  end.

(** ** Types of functions and arguments, as far as the engine looks at them *)
Inductive kind : Type := KIntf | KPtr | KInt | KInt64 | KIntN | KUint | KFloat32 | KFloat64 | KString | KOther.
(** a reflect.Type: its kind and identity *)
Record rtype : Type := mkTy { t_kind : kind; t_id : nat }.
Definition teq (a b : rtype) : bool := (t_id a =? t_id b)%nat.
Definition typeFloat64 : rtype := mkTy KFloat64 0.
Definition typeInt : rtype := mkTy KInt 1.
Definition typeIntf : rtype := mkTy KIntf 2.
Definition typeCtx : rtype := mkTy KPtr 3.
Definition typeEng : rtype := mkTy KIntf 4.
Definition typeError : rtype := mkTy KIntf 5.
Definition typeStr : rtype := mkTy KString 6.
Definition typeInt64 : rtype := mkTy KInt64 7.

Section Interp.
(** float64, other Go values, interpreters, stack elements, the rest of the program's state. *)
Context {F X I E R : Type}.

(** Errors. *)
Inductive err : Type :=
| EStackDamaged | EArgsNotEnough | EArgCount (require got : Z) | EArgType           (* call.go *)
| EUnsupportedRet | ENoArity | ECallFailed (name : bytes) (e : err) | ENoFunc (name : bytes)  (* number.go, big.go, cmplx.go *)
| EOfStr (s : pstr)                                                               (* errors.New of a panic string *)
| ERuntime                                                                        (* a Go run-time panic *)
| EOther (x : X)
(** Strings passed to panic. *)
with pstr : Type :=
| SNotInt (mark : bytes) | SBadArg (mark : bytes) (e : option nerr) | SCallFn (mark : bytes) (e : err)
| SUndefined (v : bytes) | SOther (x : X).
(** Values passed to panic by client code; PvRuntime is a *RuntimeError. *)
Inductive pv : Type :=
| PvErr (e : err)
| PvStr (s : pstr)
| PvRuntime (e : err) (src : list token)
| PvOther (x : X)
| PvFuel.                                                                         (* model only *)

(** Data of a reflect.Value. *)
Inductive dat : Type :=
| DInt (z : Z) | DFloat (f : F) | DStr (b : bytes) | DNil | DElem (e : E)
| DStk | DIpt (i : I) | DEng | DTokens (ts : list token) | DCtx (src : list token) (pos end_ : Z) | DErr (e : err) | DOther (x : X).
Record val : Type := mkVal { v_type : rtype; v_dat : dat }.
(** a reflect.Value; None: the zero Value *)
Definition rval : Type := option val.

(** The engine's state: Engine.mute, Engine.Interpreter, the stack (top first), everything else. *)
Record est : Type := mkE { e_mute : Z; e_ipt : I; e_stk : list E; e_rest : R }.
Definition set_mute (z : Z) (s : est) : est := mkE z (e_ipt s) (e_stk s) (e_rest s).
Definition set_ipt (i : I) (s : est) : est := mkE (e_mute s) i (e_stk s) (e_rest s).
Definition set_stk (l : list E) (s : est) : est := mkE (e_mute s) (e_ipt s) l (e_rest s).

Definition panic : Type := pan bytes Empty_set pv.
(** Result of calling a function. *)
Definition fres : Type := (list rval * est) + (panic * est).
(** A function value: parameter types (for a variadic function the last is the element type of the slice),
    result types, and what calling it with arguments does. *)
Record gofn : Type := mkFn { fn_func : bool; fn_in : list rtype; fn_variadic : bool; fn_out : list rtype; fn_call : list rval -> est -> fres }.

(** ** call.go *)
(** How the stack's elements become arguments (PopArgs) and how the stack takes the results of a call (PushRet). *)
Variable emb : E -> rval.
Variable pushret : list rval -> list E -> list E * option err.
(** float64(in.Int()) etc., call.go:163-169 *)
Variable to_float : val -> F.
(** a function object found on the stack: a func, or the Call method of an object (call.go:111-114) *)
Variable as_fn : rval -> option gofn.

(** number.go:179-192 PopArgs (big.go and cmplx.go the same); a negative arity crashes in make. *)
Definition PopArgs (arity : Z) (stk : list E) : mayp (option (list rval * list E)) :=
  if arity <=? Z.of_nat (length stk) then
    if arity <? 0 then Crash
    else let k := Z.to_nat arity in Val (Some (rev (map emb (firstn k stk)), skipn k stk))
  else Val None.
(** number.go:160-177 PushRet (big.go and cmplx.go the same): stops at the first unsupported value. *)
Fixpoint PushRet (unret : rval -> E + err) (outs : list rval) (stk : list E) : list E * option err :=
  match outs with
  | [] => (stk, None)
  | v :: outs' => match unret v with inl e => PushRet unret outs' (e :: stk) | inr er => (stk, Some er) end
  end.

(** call.go:147-179 validateType; None: panic (Type of the zero Value). *)
Definition validateType (v : rval) (t : rtype) : mayp (rval + err) :=
  match t_kind t with
  | KIntf | KPtr => Val (inl (match v with None => Some (mkVal t DNil) | _ => v end))
  | _ =>
      match v with
      | None => Crash
      | Some x =>
          if teq (v_type x) t then Val (inl v)
          else if teq t typeFloat64 then
            match t_kind (v_type x) with
            | KInt | KInt64 | KIntN | KUint | KFloat32 => Val (inl (Some (mkVal typeFloat64 (DFloat (to_float x)))))
            | _ => Val (inr EArgType)
            end
          else Val (inr EArgType)
      end
  end.
(** the loops of call.go:84-97: arguments and the types required of them *)
Fixpoint validate (l : list (rval * rtype)) : mayp (list rval + err) :=
  match l with
  | [] => Val (inl [])
  | (v, t) :: l' =>
      match validateType v t with
      | Crash => Crash
      | Val (inr e) => Val (inr e)
      | Val (inl v') => match validate l' with Val (inl vs) => Val (inl (v' :: vs)) | r => r end
      end
  end.
(** variadic arguments are checked first, then the others *)
Definition validateArgs (ins : list rtype) (variadic : bool) (args : list rval) : mayp (list rval + err) :=
  if variadic then
    let n := (length ins - 1)%nat in
    let t := last ins typeIntf in
    match validate (map (fun v => (v, t)) (skipn n args)) with
    | Val (inl vs) => match validate (combine (firstn n args) ins) with Val (inl us) => Val (inl (us ++ vs)) | r => r end
    | r => r
    end
  else validate (combine args ins).

(** Result of Call: nil or an error, or a panic. *)
Definition callres : Type := (option err * est) + (panic * est).
Definition runtime : panic := PUser (PvErr ERuntime).
Definition apply_fn (fn : gofn) (args : list rval) (s : est) : callres :=
  match fn_call fn args s with
  | inr r => inr r
  | inl (outs, s') => let (stk', er) := pushret outs (e_stk s') in inl (er, set_stk stk' s')
  end.
(** call.go:75-102 DoCall (n, isVariadic are those of fn) *)
Definition DoCall (fn : gofn) (arity : Z) (variadic : bool) (s : est) : callres :=
  if 0 <? arity then
    match PopArgs arity (e_stk s) with
    | Crash => inr (runtime, s)
    | Val None => inl (Some EStackDamaged, s)
    | Val (Some (args, stk')) =>
        let s1 := set_stk stk' s in
        match validateArgs (fn_in fn) variadic args with
        | Crash => inr (runtime, s1)
        | Val (inr e) => inl (Some e, s1)
        | Val (inl args') => apply_fn fn args' s1
        end
    end
  else apply_fn fn [] s.
(** the argument count check, call.go:62-69 *)
Definition count_err (fn : gofn) (arity : Z) : option err :=
  let n := Z.of_nat (length (fn_in fn)) in
  if fn_variadic fn then if arity <? n - 1 then Some EArgsNotEnough else None
  else if arity =? n then None else Some (EArgCount n arity).
(** call.go:58-72 Call *)
Definition Call (fn : gofn) (arity : Z) (s : est) : callres :=
  match count_err fn arity with Some e => inl (Some e, s) | None => DoCall fn arity (fn_variadic fn) s end.
(** call.go:105-145 VCall *)
Definition VCall (arity : Z) (s : est) : callres :=
  match PopArgs (arity + 1) (e_stk s) with
  | Crash => inr (runtime, s)
  | Val None => inl (Some EStackDamaged, s)
  | Val (Some (ins, stk')) =>
      let s1 := set_stk stk' s in
      match ins with
      | [] => inr (runtime, s1)
      | f :: args =>
          match as_fn f with
          | None => inr (runtime, s1)
          | Some fn =>
              match count_err fn arity with
              | Some e => inl (Some e, s1)
              | None =>
                  match validateArgs (fn_in fn) (fn_variadic fn) args with
                  | Crash => inr (runtime, s1)
                  | Val (inr e) => inl (Some e, s1)
                  | Val (inl args') => apply_fn fn args' s1
                  end
              end
          end
      end
  end.

(** ** interpreter.go *)
Variable of_int : Z -> F.                         (* float64(v) *)
Variable parse_float : bytes -> F + nerr.         (* Go's strconv.ParseFloat(s, 64) *)
(** interpreter.go:41-59 ParseFloat *)
Definition ParseFloat (lit : bytes) : mayp (F + nerr) :=
  match lit with
  | [] => Crash
  | [48] => Val (inl (of_int 0))
  | 48 :: x :: r =>
      if (x =? 120) || (x =? 88) then Val (match StrInt 16 r with inl v => inl (of_int v) | inr e => inr e end)
      else match StrInt 8 (x :: r) with inl v => Val (inl (of_int v)) | inr _ => Val (parse_float lit) end
  | _ => Val (parse_float lit)
  end.
(** interpreter.go:62-90 GetValue; inr None: unsupported type *)
Definition GetValue (t : rtype) (lit : bytes) : mayp (rval + option nerr) :=
  match t_kind t with
  | KString => Val (inl (Some (mkVal typeStr (DStr lit))))
  | KFloat64 => do r <- ParseFloat lit; Val (match r with inl v => inl (Some (mkVal typeFloat64 (DFloat v))) | inr e => inr (Some e) end)
  | KInt64 => do r <- ParseInt lit; Val (match r with inl v => inl (Some (mkVal typeInt64 (DInt v))) | inr e => inr (Some e) end)
  | KInt => do r <- ParseInt lit; Val (match r with inl v => inl (Some (mkVal typeInt (DInt v))) | inr e => inr (Some e) end)
  | _ => Val (inr None)
  end.

(** ipt.Fntable(), the types of the stack and of ipt, and ipt.CallFn if it has one. *)
Variable fntable : bytes -> option gofn.
Variables tstk tipt : rtype.
Variable callfn : option (gofn -> est -> est + (panic * est)).

Definition m_mute : bytes := Eval vm_compute in s2b "_mute".
Definition m_unmute : bytes := Eval vm_compute in s2b "_unmute".
Definition m_tr : bytes := Eval vm_compute in s2b "_tr".
Definition fn_of (mark : bytes) : option gofn := fntable (36 :: mark).

(** Panics of marker. *)
Inductive mpan : Type := MPInvalid (mark : bytes) | MPNotFunc (mark : bytes) | MPVariadic (mark : bytes) | MPNoParam (mark : bytes)
| MPTooManyParams (mark : bytes) | MPTooManyRets (mark : bytes) | MPRetType (mark : bytes) | MPIndex.
Definition recvr (fn : gofn) : nat :=
  match fn_in fn with t :: _ => if teq t tstk then 1%nat else if teq t tipt then 2%nat else 0%nat | [] => 0%nat end.
Definition upperc (c : Z) : bool := (65 <=? c) && (c <=? 90).
(** interpreter.go:215-219 isLen; None: index out of range *)
Definition isLen (mark : bytes) : option bool :=
  match mark with
  | [] => None
  | 95 :: r => match r with c :: _ => Some (upperc c) | [] => None end
  | c :: _ => Some (upperc c)
  end.
Notation G := (gr bytes Empty_set).
(** interpreter.go:164-219, 303 marker: checks, then attaches the action, which is identified by the mark *)
Definition imarker {M : Type} (g : G) (mark : bytes) (m : M) : (G * M) + (mpan * M) :=
  match fn_of mark with
  | None =>
      if beq mark m_mute || beq mark m_unmute || beq mark m_tr then inl (GAct g mark, m) else inr (MPInvalid mark, m)
  | Some fn =>
      if negb (fn_func fn) then inr (MPNotFunc mark, m)
      else if fn_variadic fn then inr (MPVariadic mark, m)
      else match fn_in fn with
      | [] => inr (MPNoParam mark, m)
      | _ =>
          match (if (recvr fn =? 0)%nat then None
                 else if (3 <? length (fn_in fn))%nat then Some (MPTooManyParams mark)
                 else match fn_out fn with
                      | [] => None
                      | [t] => if teq t typeError then None else Some (MPRetType mark)
                      | _ => Some (MPTooManyRets mark)
                      end) with
          | Some p => inr (p, m)
          | None => match isLen mark with None => inr (MPIndex, m) | Some _ => inl (GAct g mark, m) end
          end
      end
  end.

(** interpreter.go:221-225 the mute check *)
Definition silenced (mark : bytes) (mute : Z) : bool :=
  (0 <? mute) && (negb (match mark with c :: _ => c =? 95 | [] => false end) || (1 <? mute)).
(** interpreter.go:226-250 what the deferred function makes of a panic *)
Definition wrap (ts : list token) (p : panic) : panic :=
  match p with
  | PMatch e => PMatch e
  | PNilDeref => PUser (PvRuntime ERuntime ts)
  | PUser (PvRuntime e src) => PUser (PvRuntime e src)
  | PUser (PvErr e) => PUser (PvRuntime e ts)
  | PUser (PvStr s) => PUser (PvRuntime (EOfStr s) ts)
  | PUser (PvOther x) => PUser (PvOther x)
  | PUser PvFuel => PUser PvFuel
  end.
(** interpreter.go:322-329 ctxValue *)
Definition ctxValue (ts : list token) : mayp rval :=
  match ts with
  | [] => Val (Some (mkVal typeCtx (DCtx [] 0 0)))
  | t :: _ => do e <- tok_End (last ts t); Val (Some (mkVal typeCtx (DCtx ts (Z.of_nat (tpos t)) e)))
  end.
(** interpreter.go:259-284 the second argument *)
Definition arg1 (mark : bytes) (ts : list token) (len : Z) (t : rtype) : rval + panic :=
  match isLen mark with
  | Some true => if teq t typeInt then inl (Some (mkVal typeInt (DInt len))) else inr (PUser (PvStr (SNotInt mark)))
  | _ =>
      if teq t typeCtx then match ctxValue ts with Val v => inl v | Crash => inr runtime end
      else if teq t typeIntf then inl (match ts with [] => Some (mkVal typeIntf DNil) | _ => Some (mkVal typeIntf (DTokens ts)) end)
      else if teq t typeEng then inl (Some (mkVal typeEng DEng))
      else match ts with
      | [] => inr runtime
      | t0 :: _ =>
          match GetValue t (tlit t0) with
          | Crash => inr runtime
          | Val (inl v) => inl v
          | Val (inr e) => inr (PUser (PvStr (SBadArg mark e)))
          end
      end
  end.
Definition self (k : nat) (s : est) : rval := Some (mkVal (if (k =? 1)%nat then tstk else tipt) (if (k =? 1)%nat then DStk else DIpt (e_ipt s))).
(** an error result of the function is raised, interpreter.go:289-294 *)
Definition raise_ret (r : fres) : est + (panic * est) :=
  match r with
  | inr r => inr r
  | inl (Some (mkVal _ (DErr e)) :: _, s) => inr (PUser (PvErr e), s)
  | inl (_, s) => inl s
  end.
(** interpreter.go:251-301 the body of the action *)
Definition body (mark : bytes) (fn : gofn) (ts : list token) (len : Z) (s : est) : est + (panic * est) :=
  if (recvr fn =? 0)%nat then
    match callfn with
    | Some f => f fn s
    | None =>
        match DoCall fn (Z.of_nat (length (fn_in fn))) false s with
        | inr r => inr r
        | inl (None, s') => inl s'
        | inl (Some e, s') => inr (PUser (PvStr (SCallFn mark e)), s')
        end
    end
  else
    let recv := self (recvr fn) s in
    match fn_in fn with
    | [_] => raise_ret (fn_call fn [recv] s)
    | [_; t1] => match arg1 mark ts len t1 with inr p => inr (p, s) | inl v => raise_ret (fn_call fn [recv; v] s) end
    | _ :: t1 :: _ =>
        match arg1 mark ts len t1 with
        | inr p => inr (p, s)
        | inl v => match ctxValue ts with Crash => inr (runtime, s) | Val c => raise_ret (fn_call fn [recv; v; c] s) end
        end
    | [] => inr (runtime, s)
    end.
(** interpreter.go:166-183, 220-302 the actions *)
Definition iact (mark : bytes) (ts : list token) (len : Z) (s : est) : est + (panic * est) :=
  match fn_of mark with
  | None =>
      if beq mark m_mute then inl (set_mute (e_mute s + 1) s)
      else if beq mark m_unmute then inl (set_mute (e_mute s - 1) s)
      else inl s                                             (* _tr prints *)
  | Some fn =>
      if silenced mark (e_mute s) then inl s
      else match body mark fn ts len s with inl s' => inl s' | inr (p, s') => inr (wrap ts p, s') end
  end.
Definition iclient : uclient bytes Empty_set pv est unit := mkUclient iact (fun t _ => match t with end) (fun t _ _ _ => match t with end).
(** interpreter.go:161-163 initer *)
Definition iinit (s : st est) : st est := mkSt (lens s) (set_mute 0 (ust s)).

(** interpreter.go:349-358 EvalCode of a token slice (interpreter.Context.Src), with EvalSub of the engine's
    compiling result [d]. *)
Definition EvalCode {M : Type} (d : dst bytes Empty_set M) (fuel : nat) (fn : I) (name : bytes) (doc : list token) (s : st est) : mout :=
  let u := ust s in
  let restore (s' : st est) := mkSt (lens s') (set_mute (e_mute u) (set_ipt (e_ipt u) (ust s'))) in
  match EvalSubTokens d (lift iclient) iinit fuel name doc (mkSt (lens s) (set_ipt fn u)) with
  | MNext n s' => MNext n (restore s')
  | MNil s' => MNil (restore s')
  | MNoGrammar s' => MNoGrammar (restore s')
  | MTokErr e s' => MTokErr e (restore s')
  | MFail e s' => MFail e (restore s')
  | MPanic p s' => MPanic p (restore s')
  | MFuel => MFuel
  end.
(** ... of a string or []byte *)
Definition EvalCodeText {M : Type} (d : dst bytes Empty_set M) (isL isD : Z -> bool) (mComments mSemis : bool) (fuel : nat) (tk : tokener) (old : sc)
    (fn : I) (name : bytes) (text : bytes) (s : st est) : mout :=
  let u := ust s in
  let restore (s' : st est) := mkSt (lens s') (set_mute (e_mute u) (set_ipt (e_ipt u) (ust s'))) in
  match EvalSubText d (lift iclient) isL isD mComments mSemis fuel tk old name text (mkSt (lens s) (set_ipt fn u)) with
  | MNext n s' => MNext n (restore s')
  | MNil s' => MNil (restore s')
  | MNoGrammar s' => MNoGrammar (restore s')
  | MTokErr e s' => MTokErr e (restore s')
  | MFail e s' => MFail e (restore s')
  | MPanic p s' => MPanic p (restore s')
  | MFuel => MFuel
  end.
End Interp.
Arguments err : clear implicits.
Arguments pstr : clear implicits.
Arguments pv : clear implicits.
Arguments dat : clear implicits.
Arguments val : clear implicits.
Arguments rval : clear implicits.
Arguments est : clear implicits.
Arguments gofn : clear implicits.
