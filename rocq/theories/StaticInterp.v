(** Model of the interpreter that tplgen -i writes: tpl/cmd/tplgen/output.tpl:20-346 (GetValue, NewStaticInterpreter's marker and actions, EvalCode).
    It is a changed copy of tpl/interpreter/interpreter.go; what the two have in common is taken from Interp.v. *)
From Coq Require Import String.
From Verif Require Import Base Token Utf8 Scanner Tokenize Grammar Matcher Compiler Interp.

(** output.tpl:22 typeFline: *interpreter.FileLine *)
Definition typeFline : rtype := mkTy KPtr 8.

Section StaticInterp.
Context {F X I E R : Type}.
Notation rval := (rval F X I E).
Notation gofn := (gofn F X I E R).
Notation est := (est I E R).
Notation panic := (panic (X := X)).
Variable emb : E -> rval.
Variable pushret : list rval -> list E -> list E * option (err X).
Variable to_float : val F X I E -> F.
Variable parse_float : bytes -> F + nerr.         (* Go's strconv.ParseFloat(s, 64) *)
Variable fline : list token -> X.                 (* &interpreter.FileLine of tpl.FileLine(tokens, p.Scanner), see C68 and C82 *)
Variable fntable : bytes -> option gofn.
Variables tstk tipt : rtype.
Variable callfn : option (gofn -> est -> est + (panic * est)).

(** output.tpl:66-94 GetValue; strconv.Atoi reads what strconv.ParseInt(lit, 10, 64) reads *)
Definition sGetValue (t : rtype) (lit : bytes) : rval + option nerr :=
  match t_kind t with
  | KString => inl (Some (mkVal typeStr (DStr lit)))
  | KFloat64 => match parse_float lit with inl v => inl (Some (mkVal typeFloat64 (DFloat v))) | inr e => inr (Some e) end
  | KInt64 => match StrInt 10 lit with inl v => inl (Some (mkVal typeInt64 (DInt v))) | inr e => inr (Some e) end
  | KInt => match StrInt 10 lit with inl v => inl (Some (mkVal typeInt (DInt v))) | inr e => inr (Some e) end
  | _ => inr None
  end.

Notation G := (gr bytes Empty_set).
(** output.tpl:165-220, 305 marker *)
Definition smarker {M : Type} (g : G) (mark : bytes) (m : M) : (G * M) + (mpan * M) :=
  match fn_of fntable mark with
  | None =>
      if beq mark m_mute || beq mark m_unmute || beq mark m_tr then inl (GAct g mark, m) else inr (MPInvalid mark, m)
  | Some fn =>
      if negb (fn_func fn) then inr (MPNotFunc mark, m)
      else if fn_variadic fn then inr (MPVariadic mark, m)
      else match fn_in fn with
      | [] => inr (MPNoParam mark, m)
      | _ =>
          match (if (recvr tstk tipt fn =? 0)%nat then None
                 else if (2 <? length (fn_in fn))%nat then Some (MPTooManyParams mark)
                 else match fn_out fn with
                      | [] => None
                      | [t] => if teq t typeError then None else Some (MPRetType mark)
                      | _ => Some (MPTooManyRets mark)
                      end) with
          | Some p => inr (p, m)
          | None => match isLen mark with None => inr (MPIndex, m) | Some _ => inl (GAct g mark, m) end
          end
      end
  end.

(** output.tpl:259-290 the second argument *)
Definition sarg1 (mark : bytes) (ts : list token) (len : Z) (t : rtype) : rval + panic :=
  match isLen mark with
  | Some true => if teq t typeInt then inl (Some (mkVal typeInt (DInt len))) else inr (PUser (PvStr (SNotInt mark)))
  | _ =>
      if teq t typeIntf then inl (match ts with [] => Some (mkVal typeIntf DNil) | _ => Some (mkVal typeIntf (DTokens ts)) end)
      else if teq t typeEng then inl (Some (mkVal typeEng DEng))
      else if teq t typeFline then inl (Some (mkVal typeFline (DOther (fline ts))))
      else match ts with
      | [] => inr runtime
      | t0 :: _ =>
          match sGetValue t (tlit t0) with
          | inl v => inl v
          | inr e => inr (PUser (PvStr (SBadArg mark e)))
          end
      end
  end.
(** output.tpl:252-303 the body of the action; a function that takes the stack or the interpreter has one or two parameters *)
Definition sbody (mark : bytes) (fn : gofn) (ts : list token) (len : Z) (s : est) : est + (panic * est) :=
  if (recvr tstk tipt fn =? 0)%nat then
    match callfn with
    | Some f => f fn s
    | None =>
        match DoCall emb pushret to_float fn (Z.of_nat (length (fn_in fn))) false s with
        | inr r => inr r
        | inl (None, s') => inl s'
        | inl (Some e, s') => inr (PUser (PvStr (SCallFn mark e)), s')
        end
    end
  else
    let recv := self tstk tipt (recvr tstk tipt fn) s in
    match fn_in fn with
    | [_] => raise_ret (fn_call fn [recv] s)
    | [_; t1] => match sarg1 mark ts len t1 with inr p => inr (p, s) | inl v => raise_ret (fn_call fn [recv; v] s) end
    | _ => inr (runtime, s)
    end.
(** output.tpl:167-183, 221-304 the actions *)
Definition siact (mark : bytes) (ts : list token) (len : Z) (s : est) : est + (panic * est) :=
  match fn_of fntable mark with
  | None =>
      if beq mark m_mute then inl (set_mute (e_mute s + 1) s)
      else if beq mark m_unmute then inl (set_mute (e_mute s - 1) s)
      else inl s                                             (* _tr prints *)
  | Some fn =>
      if silenced mark (e_mute s) then inl s
      else match sbody mark fn ts len s with inl s' => inl s' | inr (p, s') => inr (wrap ts p, s') end
  end.
Definition sclient : uclient bytes Empty_set (pv X) est unit := mkUclient siact (fun t _ => match t with end) (fun t _ _ _ => match t with end).

(** output.tpl:336-346 EvalCode of a token slice *)
Definition sEvalCode {M : Type} (d : dst bytes Empty_set M) (fuel : nat) (fn : I) (name : bytes) (doc : list token) (s : st est) : mout :=
  let u := ust s in
  let restore (s' : st est) := mkSt (lens s') (set_mute (e_mute u) (set_ipt (e_ipt u) (ust s'))) in
  match EvalSubTokens d (lift sclient) iinit fuel name doc (mkSt (lens s) (set_ipt fn u)) with
  | MNext n s' => MNext n (restore s')
  | MNil s' => MNil (restore s')
  | MNoGrammar s' => MNoGrammar (restore s')
  | MTokErr e s' => MTokErr e (restore s')
  | MFail e s' => MFail e (restore s')
  | MPanic p s' => MPanic p (restore s')
  | MFuel => MFuel
  end.
(** ... of a string or []byte *)
Definition sEvalCodeText {M : Type} (d : dst bytes Empty_set M) (isL isD : Z -> bool) (mComments mSemis : bool) (fuel : nat) (tk : tokener) (old : sc)
    (fn : I) (name : bytes) (text : bytes) (s : st est) : mout :=
  let u := ust s in
  let restore (s' : st est) := mkSt (lens s') (set_mute (e_mute u) (set_ipt (e_ipt u) (ust s'))) in
  match EvalSubText d (lift sclient) isL isD mComments mSemis fuel tk old name text (mkSt (lens s) (set_ipt fn u)) with
  | MNext n s' => MNext n (restore s')
  | MNil s' => MNil (restore s')
  | MNoGrammar s' => MNoGrammar (restore s')
  | MTokErr e s' => MTokErr e (restore s')
  | MFail e s' => MFail e (restore s')
  | MPanic p s' => MPanic p (restore s')
  | MFuel => MFuel
  end.
End StaticInterp.
