(** Model of the qlang interpreter: tpl/qlang/cl/qlang.go, function.go, ctrl.go, class.go, on top of the engine of
    Interp.v.

    Conventions
    - an *Interpreter (a call frame) is a number, its fields are in the list [r_frames]; all frames share one stack,
      [e_stk] of the engine's state, top first;
    - the evaluation of code by the engine (Engine.EvalCode) is a parameter [ev] here and is tied in QlangTop.v;
    - functions of the libraries other than those modelled here, maps, members of Go objects, slicing, and
      strconv.Unquote are parameters: functions of their arguments and of a state [W] of their own; they do not call
      back into the interpreter;
    - os.Exit ends the program: it is a panic with [VExit] that nothing recovers; so is running out of fuel;
    - panic(nil) is a run-time error, as since Go 1.21;
    - cutting the stack to a length beyond its own is a run-time error (Go allows it up to the capacity).
    - panic values of Go types that no program of this model makes ([VOther]) are taken to be neither strings nor errors. *)
From Coq Require Import String SpecFloat.
From Verif Require Import Base Token Utf8 Scanner Tokenize Grammar Matcher Compiler Interp QValue.
Local Open Scope Z_scope.

(** qlang.go:283-291 Interpreter: vars, ret, Recov, parent, defers (last first; sources), base *)
Record frame : Type := mkFrame {
  fr_vars : list (bytes * value); fr_ret : value; fr_recov : option panicq; fr_parent : option nat; fr_defers : list value; fr_base : nat }.
Definition set_vars (l : list (bytes * value)) (f : frame) : frame := mkFrame l (fr_ret f) (fr_recov f) (fr_parent f) (fr_defers f) (fr_base f).
Definition set_ret (v : value) (f : frame) : frame := mkFrame (fr_vars f) v (fr_recov f) (fr_parent f) (fr_defers f) (fr_base f).
Definition set_recov (p : option panicq) (f : frame) : frame := mkFrame (fr_vars f) (fr_ret f) p (fr_parent f) (fr_defers f) (fr_base f).
Definition set_defers (l : list value) (f : frame) : frame := mkFrame (fr_vars f) (fr_ret f) (fr_recov f) (fr_parent f) l (fr_base f).
Definition set_base (n : nat) (f : frame) : frame := mkFrame (fr_vars f) (fr_ret f) (fr_recov f) (fr_parent f) (fr_defers f) n.
(** qlang.go:293-298 New: the outermost frame *)
Definition frame0 : frame := mkFrame [] VNil None None [] 0.

Definition qerr : Type := err value.
(** a function of the libraries: parameter and result types, and what it does *)
Record libfun (W : Type) : Type := mkLibfun { lf_in : list rtype; lf_variadic : bool; lf_out : list rtype;
  lf_call : list (rval float value nat value) -> W -> (list (rval float value nat value) + pvq) * W }.
Arguments lf_in {W}. Arguments lf_variadic {W}. Arguments lf_out {W}. Arguments lf_call {W}.
(** What the interpreter uses but is not modelled: *)
Record qlib (W : Type) : Type := mkLib {
  l_fnval : bytes -> option value;                                    (* qlang.Fntable[name] for the names that are not operators *)
  l_golib : bytes -> option (libfun W);                               (* the functions among them *)
  l_same : value -> value -> bool;                                    (* identity of objects, see QValue.EQ *)
  l_member : value -> bytes -> W -> ((value + qerr) + pvq) * W;       (* class.go:201-229 a member of another Go value *)
  l_mapFrom : list value -> W -> (value + pvq) * W;                   (* builtin.go mapFrom, *)
  l_getIndex : value -> value -> W -> (value + pvq) * W;              (* get of what is neither a slice nor a string nor an int, *)
  l_subSlice : value -> value -> value -> W -> (value + pvq) * W;     (* sub *)
  l_unquote : bytes -> option bytes;                                  (* strconv.Unquote; None: an error *)
  l_unquote_char : bytes -> option (Z * bool * bytes);                (* strconv.UnquoteChar: rune, multibyte and tail *)
  l_parse_float : bytes -> float + nerr                               (* strconv.ParseFloat(s, 64) *)
}.
Arguments l_fnval {W}. Arguments l_golib {W}. Arguments l_same {W}. Arguments l_member {W}. Arguments l_mapFrom {W}.
Arguments l_getIndex {W}. Arguments l_subSlice {W}. Arguments l_unquote {W}. Arguments l_unquote_char {W}. Arguments l_parse_float {W}.

Section Qlang.
Context {W : Type}.
Variable L : qlib W.
Notation fnval := (l_fnval L). Notation golib := (l_golib L). Notation same_obj := (l_same L). Notation member := (l_member L).
Notation mapFrom := (l_mapFrom L). Notation getIndex := (l_getIndex L). Notation subSlice := (l_subSlice L).
Notation unquote := (l_unquote L). Notation unquote_char := (l_unquote_char L). Notation parse_float := (l_parse_float L).
(** everything but the stack: frames, the variables of objects (class.go:32-35), the number of identities given out,
    the panic values that programs hold ([VExc]), the state of the libraries *)
Record rest : Type := mkRest { r_frames : list frame; r_objs : list (list (bytes * value)); r_ids : nat; r_excs : list panicq; r_world : W }.
Notation qst := (@est nat value rest).
Notation qval := (rval float value nat value).

(** ** A state and panic monad *)
Definition qres (A : Type) : Type := (A * qst) + (panicq * qst).
Definition Q (A : Type) : Type := qst -> qres A.
Definition ret {A : Type} (x : A) : Q A := fun s => inl (x, s).
Definition bind {A B : Type} (m : Q A) (k : A -> Q B) : Q B := fun s => match m s with inl (x, s') => k x s' | inr r => inr r end.
Notation "x <-- m ;; k" := (bind m (fun x => k)) (at level 100, m at next level, right associativity).
Notation "m ;;; k" := (bind m (fun _ => k)) (at level 100, right associativity).
Definition throw {A : Type} (p : panicq) : Q A := fun s => inr (p, s).
Definition panic_str {A : Type} (fmt : bytes) (args : list value) : Q A := throw (PUser (msg fmt args)).
Definition crash {A : Type} : Q A := throw (PUser rt_error).
Definition no_fuel {A : Type} : Q A := throw (PUser PvFuel).
(** os.Exit *)
Definition exit {A : Type} (code : Z) : Q A := throw (PUser (PvOther (VExit code))).
Definition uncatchable (p : panicq) : bool := match p with PUser PvFuel | PUser (PvOther (VExit _)) => true | _ => false end.
Definition of_op (r : opres) : Q value := match r with inl v => ret v | inr p => throw (PUser p) end.

(** ** Frames *)
Definition getf (i : nat) (s : qst) : frame := nth i (r_frames (e_rest s)) frame0.
Fixpoint set_nth {A : Type} (i : nat) (x : A) (l : list A) : list A :=
  match l, i with [], _ => [] | _ :: l', O => x :: l' | y :: l', S i' => y :: set_nth i' x l' end.
Definition set_rest (r : rest) (s : qst) : qst := mkE (e_mute s) (e_ipt s) (e_stk s) r.
Definition with_frames (l : list frame) (s : qst) : qst :=
  let r := e_rest s in set_rest (mkRest l (r_objs r) (r_ids r) (r_excs r) (r_world r)) s.
Definition with_objs (l : list (list (bytes * value))) (s : qst) : qst :=
  let r := e_rest s in set_rest (mkRest (r_frames r) l (r_ids r) (r_excs r) (r_world r)) s.
Definition with_ids (n : nat) (s : qst) : qst :=
  let r := e_rest s in set_rest (mkRest (r_frames r) (r_objs r) n (r_excs r) (r_world r)) s.
Definition with_excs (l : list panicq) (s : qst) : qst :=
  let r := e_rest s in set_rest (mkRest (r_frames r) (r_objs r) (r_ids r) l (r_world r)) s.
Definition with_world (w : W) (s : qst) : qst :=
  let r := e_rest s in set_rest (mkRest (r_frames r) (r_objs r) (r_ids r) (r_excs r) w) s.
Definition updf (i : nat) (f : frame -> frame) (s : qst) : qst := with_frames (set_nth i (f (getf i s)) (r_frames (e_rest s))) s.
Definition modify (f : qst -> qst) : Q unit := fun s => inl (tt, f s).
Definition gets {A : Type} (f : qst -> A) : Q A := fun s => inl (f s, s).
Definition fresh_id : Q nat := fun s => inl (r_ids (e_rest s), with_ids (S (r_ids (e_rest s))) s).
(** a call into a library *)
Definition libcall {A : Type} (f : W -> (A + pvq) * W) : Q A :=
  fun s => match f (r_world (e_rest s)) with (inl x, w) => inl (x, with_world w s) | (inr p, w) => inr (PUser p, with_world w s) end.

(** ** The stack *)
(** qlang.go:93-96 Push *)
Definition push (v : value) : Q unit := modify (fun s => set_stk (v :: e_stk s) s).
(** qlang.go:129-137 Pop *)
Definition pop : Q (option value) := fun s => match e_stk s with [] => inl (None, s) | v :: l => inl (Some v, set_stk l s) end.
(** v, _ := stk.Pop() *)
Definition pop_any : Q value := o <-- pop ;; ret (match o with Some v => v | None => VNil end).
(** function.go:26-29 BaseFrame, 31-34 SetFrame *)
Definition depth : Q nat := gets (fun s => length (e_stk s)).
Definition SetFrame (n : nat) : Q unit := fun s =>
  if (n <=? length (e_stk s))%nat then inl (tt, set_stk (skipn (length (e_stk s) - n) (e_stk s)) s) else inr (PUser rt_error, s).
Definition m_badargs : bytes := Eval vm_compute in s2b "unexpected argument count".
Definition m_noarity : bytes := Eval vm_compute in s2b "no arity".
Definition m_notsym : bytes := Eval vm_compute in s2b "function argument isn't a symbol?".
(** qlang.go:191-205 popNArgs: deepest first; make crashes on a negative size *)
Definition popNArgs (arity : Z) : Q (list value) := fun s =>
  if arity <=? Z.of_nat (length (e_stk s)) then
    if arity <? 0 then inr (PUser rt_error, s)
    else let k := Z.to_nat arity in inl (rev (firstn k (e_stk s)), set_stk (skipn k (e_stk s)) s)
  else inr (PUser (msg m_badargs []), s).
(** qlang.go:207-224 popFnArgs *)
Fixpoint all_strs (l : list value) : option (list bytes) :=
  match l with
  | [] => Some []
  | VStr b :: l' => match all_strs l' with Some bs => Some (b :: bs) | None => None end
  | _ => None
  end.
Definition popFnArgs (arity : Z) : Q (list bytes) := fun s =>
  if arity <=? Z.of_nat (length (e_stk s)) then
    if arity <? 0 then inr (PUser rt_error, s)
    else let k := Z.to_nat arity in
         match all_strs (rev (firstn k (e_stk s))) with
         | Some bs => inl (bs, set_stk (skipn k (e_stk s)) s)
         | None => inr (PUser (msg m_notsym []), s)
         end
  else inr (PUser (msg m_badargs []), s).
(** qlang.go:226-234 popArity *)
Definition popArity : Q Z := o <-- pop ;; match o with Some (VInt z) => ret z | _ => panic_str m_noarity [] end.

(** ** Variables *)
Definition var_of (i : nat) (name : bytes) (s : qst) : option value := find name (fr_vars (getf i s)).
Definition set_var (i : nat) (name : bytes) (v : value) : Q unit := modify (updf i (fun f => set_vars (set_key name v (fr_vars f)) f)).
(** function.go:48-51 Unset *)
Definition Unset (i : nat) (name : bytes) : Q unit := modify (updf i (fun f => set_vars (filter (fun e => negb (beq (fst e) name)) (fr_vars f)) f)).
Definition m_novar : bytes := Eval vm_compute in s2b "variable `%s` not found".
Definition m_extern : bytes := Eval vm_compute in s2b "variable `%s` exists in extern function".
Definition m_nosym : bytes := Eval vm_compute in s2b "symbol not found: ".
Definition val_or_nil (o : option value) : value := match o with Some v => v | None => VNil end.
(** function.go:75-87 getVar: the frame whose variable it is, and its value *)
Definition getVar (p : nat) (name : bytes) : Q (nat * value) := fun s =>
  match var_of p name s with
  | None => inr (PUser (msg m_novar [VStr name]), s)
  | Some (VExtern q) => inl ((q, val_or_nil (var_of q name s)), s)
  | Some v => inl ((p, v), s)
  end.
(** t = p.parent; t != nil; t = t.parent: the first enclosing frame that has the variable; frames only have parents
    of smaller number, so [n] steps suffice *)
Fixpoint find_outer (n : nat) (t : option nat) (name : bytes) (s : qst) : option (nat * value) :=
  match n, t with
  | S n', Some i => match var_of i name s with Some v => Some (i, v) | None => find_outer n' (fr_parent (getf i s)) name s end
  | _, _ => None
  end.
Definition outer (p : nat) (name : bytes) (s : qst) : option (nat * value) :=
  find_outer (length (r_frames (e_rest s))) (fr_parent (getf p s)) name s.
(** name[0] != '_'; None: name[0] crashes *)
Definition inherits (name : bytes) : option bool := match name with [] => None | c :: _ => Some (negb (c =? 95)) end.
(** function.go:195-213 getVars: the frame in which an assignment puts the variable *)
Definition getVars (p : nat) (name : bytes) : Q nat := fun s =>
  match var_of p name s with
  | Some (VExtern q) => inl (q, s)
  | Some _ => inl (p, s)
  | None =>
      match inherits name with
      | None => inr (PUser rt_error, s)
      | Some false => inl (p, s)
      | Some true => match outer p name s with Some _ => inr (PUser (msg m_extern [VStr name]), s) | None => inl (p, s) end
      end
  end.
Definition n_unset : bytes := Eval vm_compute in s2b "unset".
(** function.go:220-253 getRef *)
Definition getRef (p : nat) (name : bytes) : Q value := fun s =>
  if beq name n_unset then inl (VUnset p, s)
  else
    let table := match fnval name with Some v => inl (v, s) | None => inr (PUser (msg m_nosym [VStr name]), s) end in
    match var_of p name s with
    | Some (VExtern q) => inl (val_or_nil (var_of q name s), s)
    | Some v => inl (v, s)
    | None =>
        match inherits name with
        | None => inr (PUser rt_error, s)
        | Some false => table
        | Some true =>
            match outer p name s with
            | None => table
            | Some (t, v) =>
                let (q, v') := match v with VExtern q => (q, val_or_nil (var_of q name s)) | _ => (t, v) end in
                match set_var p name (VExtern q) s with inl (_, s') => inl (v', s') | inr r => inr r end
            end
        end
    end.
(** function.go:215-218 Ref *)
Definition Ref (p : nat) (name : bytes) : Q unit := v <-- getRef p name ;; push v.

(** Results of methods that return an error: None is nil. *)
Definition e_novalue : qerr := EOther (VMsg (s2b "variable assign without value") []).
Definition e_notslice : qerr := EOther (VMsg (s2b "expression of multi assignment must return slice") []).
Definition e_massign (n arity : Z) : qerr := EOther (VMsg (s2b "multi assignment error: require %d variables, but we got %d") [VInt n; VInt arity]).
(** function.go:53-69 Inc, Dec *)
Definition IncDec (op : value -> opres) (p : nat) (name : bytes) : Q (option qerr) :=
  fv <-- getVar p name ;; v <-- of_op (op (snd fv)) ;; set_var (fst fv) name v ;;; push v ;;; ret None.
(** function.go:89-152 AddAssign, SubAssign, MulAssign, QuoAssign, ModAssign *)
Definition OpAssign (op : value -> value -> opres) (p : nat) (name : bytes) : Q (option qerr) :=
  fv <-- getVar p name ;; o <-- pop ;;
  match o with
  | None => ret (Some e_novalue)
  | Some x => v <-- of_op (op (snd fv) x) ;; set_var (fst fv) name v ;;; push v ;;; ret None
  end.
(** function.go:184-193 Assign *)
Definition Assign (p : nat) (name : bytes) : Q (option qerr) :=
  q <-- getVars p name ;; o <-- pop ;;
  match o with Some v => set_var q name v ;;; push v ;;; ret None | None => ret (Some e_novalue) end.
(** reflect: Kind() == Slice and the elements *)
Definition elems_of (v : value) : option (list value) :=
  match v with
  | VSlice _ l => Some l
  | VCode ts => Some (map (fun t => VOther (tpos t)) ts)     (* a []tpl.Token; no program sees one *)
  | _ => None
  end.
Fixpoint assign_all (p : nat) (l : list (bytes * value)) : Q unit :=
  match l with [] => ret tt | (n, v) :: l' => q <-- getVars p n ;; set_var q n v ;;; assign_all p l' end.
(** function.go:154-182 MultiAssign *)
Definition MultiAssign (p : nat) : Q (option qerr) :=
  o <-- pop ;;
  match o with
  | None => ret (Some e_novalue)
  | Some v =>
      match elems_of v with
      | None => ret (Some e_notslice)
      | Some l =>
          a <-- popArity ;;
          let arity := a + 1 in
          let n := Z.of_nat (length l) in
          if negb (arity =? n) then ret (Some (e_massign n arity))
          else names <-- popFnArgs arity ;; assign_all p (combine names l) ;;; push v ;;; ret None
      end
  end.

(** ** Code *)
(** Engine.EvalCode(frame, rule, source): nil or the error, as the value panic(err) raises. *)
Variable ev : nat -> bytes -> value -> Q (option panicq).
Definition n_expr : bytes := Eval vm_compute in s2b "expr".
Definition n_docr : bytes := Eval vm_compute in s2b "doc".
Definition n_s : bytes := Eval vm_compute in s2b "s".
Definition n_term3 : bytes := Eval vm_compute in s2b "term3".
Definition n_term4 : bytes := Eval vm_compute in s2b "term4".
(** ctrl.go:186-195 evalCode; a panic leaves the base as it is *)
Definition evalCode (p : nat) (name : bytes) (code : value) : Q unit :=
  old <-- gets (fun s => fr_base (getf p s)) ;;
  n <-- depth ;;
  modify (updf p (set_base n)) ;;;
  r <-- ev p name code ;;
  modify (updf p (set_base old)) ;;;
  match r with None => ret tt | Some e => throw e end.
Definition is_nilv (v : value) : bool := match v with VNil => true | _ => false end.
(** a body: nil is the empty one *)
Definition eval_body (p : nat) (code : value) : Q unit := if is_nilv code then push VNil else evalCode p n_docr code.

Definition m_or : bytes := Eval vm_compute in s2b "left operand of || operator isn't a boolean expression".
Definition m_and : bytes := Eval vm_compute in s2b "left operand of && operator isn't a boolean expression".
Definition m_ifcond : bytes := Eval vm_compute in s2b "if condition isn't a boolean expression".
Definition m_forform : bytes := Eval vm_compute in s2b "for statement is in illegal form".
Definition m_forcond : bytes := Eval vm_compute in s2b "for loop condition isn't a boolean expression".
Definition m_forcode : bytes := Eval vm_compute in s2b "unexpected code in for statement".
Definition throw_err {A : Type} (m : bytes) : Q A := throw (PUser (PvErr (EOther (VMsg m [])))).
(** ctrl.go:17-30 Or, 32-45 And: [stop] is the value of a that decides *)
Definition AndOr (stop : bool) (rule m : bytes) (p : nat) : Q unit :=
  code <-- pop_any ;; a <-- pop_any ;;
  match a with
  | VBool a1 => if Bool.eqb a1 stop then push (VBool stop) else evalCode p rule code
  | _ => panic_str m []
  end.
Definition Or : nat -> Q unit := AndOr true n_term4 m_or.
Definition And : nat -> Q unit := AndOr false n_term3 m_and.
(** ctrl.go:62-84 the branches of an if: conditions and bodies *)
Fixpoint if_loop (p : nat) (br : list value) (els : value) : Q unit :=
  match br with
  | c :: b :: br' =>
      evalCode p n_expr c ;;; v <-- pop_any ;;
      match v with
      | VBool true => eval_body p b
      | VBool false => if_loop p br' els
      | _ => throw_err m_ifcond
      end
  | _ => eval_body p els
  end.
(** ctrl.go:47-85 If (condArity << 1 is taken not to overflow) *)
Definition If (p : nat) : Q unit :=
  ea <-- popArity ;;
  els <-- (if ea =? 1 then pop_any else ret VNil) ;;
  ca <-- popArity ;;
  br <-- popNArgs ((ca + 1) * 2) ;;
  if_loop p br els.
(** ctrl.go:110-129 the cases of a switch *)
Fixpoint switch_loop (p : nat) (cond : value) (br : list value) (dflt : value) : Q unit :=
  match br with
  | c :: b :: br' =>
      evalCode p n_expr c ;;; v <-- pop_any ;; e <-- of_op (EQ same_obj cond v) ;;
      match e with VBool true => eval_body p b | _ => switch_loop p cond br' dflt end
  | _ => eval_body p dflt
  end.
(** ctrl.go:87-130 Switch *)
Definition Switch (p : nat) : Q unit :=
  da <-- popArity ;;
  dflt <-- (if da =? 1 then pop_any else ret VNil) ;;
  ca <-- popArity ;;
  br <-- popNArgs (ca * 2) ;;
  code <-- pop_any ;;
  cond <-- (if is_nilv code then ret (VBool true) else evalCode p n_expr code ;;; pop_any) ;;
  switch_loop p cond br dflt.
(** ctrl.go:173-184 evalCondS *)
Definition evalCondS (p : nat) (code : value) : Q bool :=
  evalCode p n_s code ;;; o <-- pop ;;
  match o with Some (VBool b) => ret b | Some _ => panic_str m_forcond [] | None => panic_str m_forcode [] end.
(** code that may be missing, its value dropped *)
Definition eval_drop (p : nat) (rule : bytes) (code : value) : Q unit := if is_nilv code then ret tt else evalCode p rule code ;;; pop ;;; ret tt.
(** ctrl.go:160-169 the loop; [k] bounds the number of rounds (model only) *)
Fixpoint for_loop (k : nat) (p : nat) (cond body step : value) : Q unit :=
  match k with
  | O => no_fuel
  | S k' =>
      b <-- (if is_nilv cond then ret true else evalCondS p cond) ;;
      if b then eval_drop p n_docr body ;;; eval_drop p n_s step ;;; for_loop k' p cond body step else ret tt
  end.
(** ctrl.go:134-171 For *)
Definition For (k : nat) (p : nat) : Q unit :=
  body <-- pop_any ;;
  a <-- popArity ;;
  if a =? 0 then for_loop k p VNil body VNil ;;; push VNil
  else if a =? 1 then l <-- popNArgs 1 ;; for_loop k p (nth 0 l VNil) body VNil ;;; push VNil
  else if a =? 3 then
    l <-- popNArgs 3 ;;
    eval_drop p n_s (nth 0 l VNil) ;;;
    for_loop k p (nth 1 l VNil) body (nth 2 l VNil) ;;; push VNil
  else throw_err m_forform.

(** ** Functions *)
Definition is_return (p : panicq) : bool := match p with PUser (PvRuntime (EOther VReturn) []) => true | _ => false end.
Definition p_return : panicq := PUser (PvRuntime (EOther VReturn) []).
Definition m_mainret : bytes := Eval vm_compute in s2b "must return `int` for main function".
Definition m_unreach : bytes := Eval vm_compute in s2b "unreachable".
(** function.go:302-310 ExecDefers *)
Fixpoint run_defers (p : nat) (l : list value) : Q unit :=
  match l with
  | [] => ret tt
  | src :: l' => r <-- ev p n_expr src ;; match r with None => run_defers p l' | Some e => throw e end
  end.
Definition ExecDefers (p : nat) : Q unit :=
  l <-- gets (fun s => fr_defers (getf p s)) ;; run_defers p l ;;; modify (updf p (set_defers [])).
(** function.go:277-300 Return *)
Definition Return (p : nat) : Q unit :=
  a <-- popArity ;;
  (if a =? 0 then modify (updf p (set_ret VNil))
   else o <-- pop ;; match o with Some v => modify (updf p (set_ret v)) | None => ret tt end) ;;;
  par <-- gets (fun s => fr_parent (getf p s)) ;;
  match par with
  | Some _ => throw p_return
  | None =>
      ExecDefers p ;;;
      r <-- gets (fun s => fr_ret (getf p s)) ;;
      match r with VNil => exit 0 | VInt z => exit z | _ => panic_str m_mainret [] end
  end.
(** function.go:312-321 Defer *)
Definition Defer (p : nat) : Q unit :=
  o <-- pop ;;
  match o with
  | None => panic_str m_unreach []
  | Some src => modify (updf p (fun f => set_defers (src :: fr_defers f) f)) ;;; push VNil
  end.
(** a recovered panic as a value: a string, the value itself, or an object whose identity is kept *)
Definition exc_value (e : panicq) : Q value :=
  match e with
  | PUser (PvStr (SOther v)) => ret v
  | PUser (PvOther v) => ret v
  | _ => fun s => let l := r_excs (e_rest s) in inl (VExc (length l), with_excs (l ++ [e]) s)
  end.
(** function.go:323-332 Recover *)
Definition Recover (p : nat) : Q unit :=
  par <-- gets (fun s => fr_parent (getf p s)) ;;
  match par with
  | Some q =>
      e <-- gets (fun s => fr_recov (getf q s)) ;;
      modify (updf q (set_recov None)) ;;;
      match e with None => push VNil | Some x => v <-- exc_value x ;; push v end
  | None => push VNil
  end.
Definition m_argc : bytes := Eval vm_compute in s2b "function requires %d arguments, but we got %d".
Definition m_argcv : bytes := Eval vm_compute in s2b "function requires >= %d arguments, but we got %d".
Fixpoint bind_args (names : list bytes) (args : list value) (vars : list (bytes * value)) : list (bytes * value) :=
  match names, args with n :: names', a :: args' => bind_args names' args' (set_key n a vars) | _, _ => vars end.
(** function.go:347-356 the argument count; None: right *)
Definition call_count (f : func) (args : list value) : option pvq :=
  let n := Z.of_nat (length (f_args f)) in
  let m := Z.of_nat (length args) in
  if f_variadic f then if m <? n - 1 then Some (msg m_argcv [VInt (n - 1); VInt m]) else None
  else if m =? n then None else Some (msg m_argc [VInt n; VInt m]).
(** function.go:374-383 the variables of the call; None: p.Args[n-1] crashes *)
Definition call_vars (f : func) (args : list value) : option (list (bytes * value)) :=
  if f_variadic f then
    match f_args f with
    | [] => None
    | _ => let k := (length (f_args f) - 1)%nat in
           Some (set_key (last (f_args f) []) (VSlice TAny (skipn k args)) (bind_args (firstn k (f_args f)) (firstn k args) []))
    end
  else Some (bind_args (f_args f) args []).
(** function.go:362-372 a new frame *)
Definition new_frame (vars : list (bytes * value)) (parent : nat) : Q nat := fun s =>
  let l := r_frames (e_rest s) in
  inl (length l, with_frames (l ++ [mkFrame vars VNil None (Some parent) [] (length (e_stk s))]) s).
(** function.go:386-395 what the deferred function does after the body ended with the panic [e] *)
Definition call_end (k base : nat) (e : option panicq) : Q unit :=
  modify (updf k (set_recov e)) ;;;
  ExecDefers k ;;;
  SetFrame base ;;;
  r <-- gets (fun s => fr_recov (getf k s)) ;;
  match r with Some x => throw x | None => ret tt end.
(** function.go:345-402 Call *)
Definition FnCall (f : func) (args : list value) : Q value :=
  match call_count f args with
  | Some p => throw (PUser p)
  | None =>
      match f_body f with
      | None => ret VNil
      | Some body =>
          match call_vars f args with
          | None => crash
          | Some vars =>
              k <-- new_frame vars (f_parent f) ;;
              base <-- gets (fun s => fr_base (getf k s)) ;;
              (fun s => match ev k n_docr (VCode body) s with
                        | inl (r, s') => (call_end k base None ;;; match r with Some e => throw e | None => gets (fun s => fr_ret (getf k s)) end) s'
                        | inr (e, s') =>
                            if uncatchable e then inr (e, s')
                            else (call_end k base (if is_return e then None else Some e) ;;; gets (fun s => fr_ret (getf k s))) s'
                        end)
          end
      end
  end.
(** the code of a function: nil if the source is empty *)
Definition code_of (v : value) : option (list token) := match v with VCode ts => Some ts | _ => None end.
Definition e_nobody : qerr := EOther (VMsg (s2b "function without body") []).
(** function.go:255-275 Function *)
Definition Function (p : nat) : Q (option qerr) :=
  o <-- pop ;;
  match o with
  | None => ret (Some e_nobody)
  | Some fnb =>
      v <-- popArity ;; a <-- popArity ;; args <-- popFnArgs a ;; i <-- fresh_id ;;
      push (VFunc (mkFunc i args (code_of fnb) p (negb (v =? 0)))) ;;; ret None
  end.
(** function.go:406-421 Main *)
Definition Main (p : nat) : Q unit :=
  fnb <-- pop_any ;; i <-- fresh_id ;;
  r <-- FnCall (mkFunc i [] (code_of fnb) p false) [] ;;
  match r with VNil => exit 0 | VInt z => exit z | _ => crash end.

(** ** Classes *)
(** class.go:67-75 thisDeref.Call *)
Definition ThisCall (o : nat) (c : class) (f : func) (args : list value) : Q value := FnCall f (VObj o c :: args).
(** class.go:100-118 MemberFuncDecl *)
Definition MemberFuncDecl (p : nat) : Q (option qerr) :=
  o <-- pop ;;
  match o with
  | None => ret (Some e_nobody)
  | Some fnb =>
      v <-- popArity ;; a <-- popArity ;; args <-- popFnArgs (a + 1) ;;
      push (VFnInfo args (code_of fnb) (negb (v =? 0))) ;;; ret None
  end.
Definition n_this : bytes := Eval vm_compute in s2b "this".
Definition n_init : bytes := Eval vm_compute in s2b "_init".
(** class.go:79-98 newClass *)
Fixpoint class_fns (p : nat) (l : list value) (fns : list (bytes * func)) : Q (list (bytes * func)) :=
  match l with
  | [] => ret fns
  | VFnInfo (name :: args) body variadic :: l' =>
      i <-- fresh_id ;; class_fns p l' (set_key name (mkFunc i (n_this :: args) body p variadic) fns)
  | _ => crash
  end.
(** class.go:120-127 Class *)
Definition Class (p : nat) : Q unit :=
  a <-- popArity ;; l <-- popNArgs a ;; i <-- fresh_id ;; fns <-- class_fns p l [] ;; push (VClass (mkClass i fns)).
Definition e_newnotclass : qerr := EOther (VMsg (s2b "can't new object: not a class") []).
Definition e_newnoclass : qerr := EOther (VMsg (s2b "new object without class name") []).
Definition new_obj : Q nat := fun s => let l := r_objs (e_rest s) in inl (length l, with_objs (l ++ [[]]) s).
(** class.go:129-159 New *)
Definition New (p : nat) : Q (option qerr) :=
  h <-- popArity ;;
  args <-- (if h =? 0 then ret [] else n <-- popArity ;; popNArgs n) ;;
  o <-- pop ;;
  match o with
  | None => ret (Some e_newnoclass)
  | Some (VClass c) =>
      i <-- new_obj ;;
      match find n_init (c_fns c) with
      | Some f => ThisCall i c f args ;;; ret tt
      | None => ret tt
      end ;;;
      push (VObj i c) ;;; ret None
  | Some _ => ret (Some e_newnotclass)
  end.
Definition e_refnoobj : qerr := EOther (VMsg (s2b "reference without object") []).
Definition e_nomember (n : bytes) : qerr := EOther (VMsg (s2b "object doesn't has member `%s`") [VStr n]).
Definition e_nomethod (n : bytes) : qerr := EOther (VMsg (s2b "class doesn't has method `%s`") [VStr n]).
(** class.go:168-230 MemberRef *)
Definition MemberRef (name : bytes) : Q (option qerr) :=
  o <-- pop ;;
  match o with
  | None => ret (Some e_refnoobj)
  | Some (VObj i c) =>
      vars <-- gets (fun s => nth i (r_objs (e_rest s)) []) ;;
      match find name vars with
      | Some v => push v ;;; ret None
      | None =>
          match find name (c_fns c) with
          | Some f => n <-- fresh_id ;; push (VThis n i c f) ;;; ret None
          | None => ret (Some (e_nomember name))
          end
      end
  | Some (VClass c) =>
      match find name (c_fns c) with Some f => push (VFunc f) ;;; ret None | None => ret (Some (e_nomethod name)) end
  | Some v => r <-- libcall (member v name) ;; match r with inl x => push x ;;; ret None | inr e => ret (Some e) end
  end.

Definition m_setmethod : bytes := Eval vm_compute in s2b "set failed: class already have a method named %s".
Definition m_setargs : bytes := Eval vm_compute in s2b "call with invalid argument count, please use `set(obj, member1, val1, ...)".
Definition m_noset : bytes := Eval vm_compute in s2b "type `%v` doesn't support `set` operator".
(** class.go:37-43 SetVar *)
Definition SetVar (o : nat) (c : class) (name : bytes) (v : value) : Q unit :=
  match find name (c_fns c) with
  | Some _ => panic_str m_setmethod [VStr name]
  | None => modify (fun s => let l := r_objs (e_rest s) in with_objs (set_nth o (set_key name v (nth o l [])) l) s)
  end.
(** class.go:45-54 SetMemberVar of an object; args[i].(string) *)
Fixpoint SetMembers (o : nat) (c : class) (args : list value) : Q unit :=
  match args with
  | [] => ret tt
  | VStr n :: v :: args' => SetVar o c n v ;;; SetMembers o c args'
  | _ => crash
  end.

(** ** Slices and indices *)
(** builtin.go:264-281 SliceFrom with Append, appendFloat *)
Definition SliceFrom (args : list value) : value :=
  match args with
  | [] => VSlice TAny []
  | _ =>
      let k := kindOfArgs args in
      if k =? kInt then VSlice TInt args
      else if k =? kFloat64 then VSlice TFloat (map (fun v => match asFloat v with Some f => VFloat f | None => v end) args)
      else if k =? kString then VSlice TString args
      else VSlice TAny args
  end.
(** builtin.go:149-162 Get: Index panics when out of range, key.(int) when not an int *)
Definition Get (m key : value) : Q value :=
  match m with
  | VSlice _ l =>
      match key with
      | VInt z => if (0 <=? z) && (z <? Z.of_nat (length l)) then ret (nth (Z.to_nat z) l VNil) else crash
      | _ => crash
      end
  | VStr b =>
      match key with
      | VInt z => if (0 <=? z) && (z <? Z.of_nat (length b)) then ret (VByte (nth (Z.to_nat z) b 0)) else crash
      | _ => crash
      end
  | VInt _ => crash                                          (* Index of an int panics *)
  | _ => libcall (getIndex m key)
  end.
Definition m_noindex : bytes := Eval vm_compute in s2b "call operator[] without index".
(** qlang.go:251-274 Index *)
Definition Index : Q unit :=
  a2 <-- popArity ;;
  arg2 <-- (if a2 =? 0 then ret VNil else pop_any) ;;
  am <-- popArity ;; a1 <-- popArity ;; args <-- popNArgs (a1 + 1) ;;
  if am =? 0 then
    if a1 =? 0 then panic_str m_noindex []
    else if a1 =? 1 then v <-- Get (nth 0 args VNil) (nth 1 args VNil) ;; push v else crash     (* ?expr: 0 or 1 *)
  else v <-- libcall (subSlice (nth 0 args VNil) (if a1 =? 0 then VNil else nth 1 args VNil) arg2) ;; push v.

(** ** Calls *)
Definition typeByte : rtype := mkTy KUint 8.
Definition typeStrSlice : rtype := mkTy KOther 9.
Definition t_stack : rtype := mkTy KPtr 10.
Definition t_ipt : rtype := mkTy KPtr 11.
(** reflect.TypeOf *)
Definition type_of (v : value) : rtype :=
  match v with
  | VNil => typeIntf
  | VInt _ => typeInt
  | VFloat _ => typeFloat64
  | VStr _ | VMsg _ _ => typeStr
  | VByte _ => typeByte
  | VNum NInt64 _ => typeInt64
  | VNum NInt8 _ => mkTy KIntN 20 | VNum NInt16 _ => mkTy KIntN 21 | VNum NInt32 _ => mkTy KIntN 22
  | VNum NUint _ => mkTy KUint 23 | VNum NUint16 _ => mkTy KUint 24 | VNum NUint32 _ => mkTy KUint 25 | VNum NUint64 _ => mkTy KUint 26
  | VNum NUintptr _ => mkTy KUint 27
  | VFloat32 _ => mkTy KFloat32 28
  | VBool _ => mkTy KOther 29
  | VSlice TAny _ => mkTy KOther 30 | VSlice TInt _ => mkTy KOther 31 | VSlice TFloat _ => mkTy KOther 32 | VSlice TString _ => typeStrSlice
  | VSlice TByte _ => mkTy KOther 33
  | VFunc _ => mkTy KPtr 34 | VClass _ => mkTy KPtr 35 | VObj _ _ => mkTy KPtr 36 | VThis _ _ _ _ => mkTy KPtr 37
  | _ => mkTy KOther 38
  end.
(** qlang.go:176-189 PopArgs: reflect.ValueOf of each *)
Definition emb (v : value) : qval := match v with VNil => None | _ => Some (mkVal (type_of v) (DElem v)) end.
(** Interface() of an argument or result *)
Definition unemb (r : qval) : value :=
  match r with
  | Some (mkVal _ (DElem v)) => v
  | Some (mkVal _ (DInt z)) => VInt z
  | Some (mkVal _ (DFloat f)) => VFloat f
  | Some (mkVal _ (DStr b)) => VStr b
  | Some (mkVal _ (DTokens ts)) => VCode ts
  | _ => VNil
  end.
Definition is_iface (r : qval) : bool := match r with Some v => match t_kind (v_type v) with KIntf => true | _ => false end | None => true end.
(** qlang.go:159-174 PushRet *)
Definition q_pushret (outs : list qval) (stk : list value) : list value * option qerr :=
  (ret_value (map (fun o => (is_iface o, unemb o)) outs) :: stk, None).
(** float64 of an argument, call.go:163-169 *)
Definition q_to_float (v : val float value nat value) : float :=
  match unemb (Some v) with VInt z | VByte z | VNum _ z => f_of_int z | VFloat32 f => f | _ => S754_nan end.

Notation qfn := (gofn float value nat value rest).
Definition typeAny : rtype := typeIntf.
(** a result of static type interface{} *)
Definition any_out (v : value) : list qval := [Some (mkVal typeIntf (match v with VNil => DNil | _ => DElem v end))].
Definition err_out (e : option qerr) : list qval := [Some (mkVal typeError (match e with Some x => DErr x | None => DNil end))].
Definition run {A : Type} (m : Q A) (out : A -> list qval) (s : qst) : (list qval * qst) + (panicq * qst) :=
  match m s with inl (x, s') => inl (out x, s') | inr r => inr r end.
(** func(args ...interface{}) interface{} *)
Definition variadic_fn (f : list value -> Q value) : qfn := mkFn true [typeAny] true [typeAny] (fun args => run (f (map unemb args)) any_out).
(** the value passed to panic by the program *)
Definition throw_value (v : value) : Q unit := fun s =>
  match v with
  | VNil => inr (PUser rt_error, s)
  | VStr _ | VMsg _ _ => inr (PUser (PvStr (SOther v)), s)
  | VExc n => inr (nth n (r_excs (e_rest s)) (PUser rt_error), s)
  | VUndefined => inr (PUser (PvErr (EOther v)), s)
  | _ => inr (PUser (PvOther v), s)
  end.
Definition n_panic : bytes := Eval vm_compute in s2b "panic".
Definition n_set : bytes := Eval vm_compute in s2b "set".
(** builtin.go:116-148 Set: of an object here, of a map or a slice by the library *)
Definition Set_ (args : list qval) : Q (list qval) :=
  let a := tl (map unemb args) in
  if Nat.odd (length a) then panic_str m_setargs []
  else match unemb (hd None args) with
  | VObj o c => SetMembers o c a ;;; ret []
  | v => match golib n_set with Some l => libcall (lf_call l args) | None => panic_str m_noset [v] end
  end.
(** what can be called: call.go:111-114 *)
Definition as_fn (r : qval) : option qfn :=
  match unemb r with
  | VFunc f => Some (variadic_fn (FnCall f))
  | VThis _ o c f => Some (variadic_fn (ThisCall o c f))
  | VUnset p => Some (mkFn true [typeStr] false [] (fun args => run (Unset p (match unemb (hd None args) with VStr b => b | _ => [] end)) (fun _ => [])))
  | VDummy 1 => Some (mkFn true [typeAny] false [typeAny] (fun _ s => inr (PUser (msg (s2b "function not implemented") []), s)))
  | VDummy 2 => Some (mkFn true [typeAny; typeAny] false [typeAny] (fun _ s => inr (PUser (msg (s2b "function not implemented") []), s)))
  | VGo name =>
      if beq name n_panic then Some (mkFn true [typeAny] false [] (fun args => run (throw_value (unemb (hd None args))) (fun _ => [])))
      else if beq name n_set then Some (mkFn true [typeAny; typeAny] true [] (fun args => run (Set_ args) (fun outs => outs)))
      else match golib name with
           | Some l => Some (mkFn true (lf_in l) (lf_variadic l) (lf_out l) (fun args => run (libcall (lf_call l args)) (fun outs => outs)))
           | None => None
           end
  | _ => None
  end.
(** a call of call.go as a computation *)
Definition lift_call (f : qst -> callres) : Q (option qerr) := fun s => match f s with inl r => inl r | inr r => inr r end.
(** qlang.go:338-342 VMap, 344-348 VSlice *)
Definition VMap : Q (option qerr) :=
  a <-- popArity ;; lift_call (Interp.Call emb q_pushret q_to_float (variadic_fn (fun l => libcall (mapFrom l))) (a * 2)).
Definition VSliceLit : Q (option qerr) :=
  a <-- popArity ;; lift_call (Interp.Call emb q_pushret q_to_float (variadic_fn (fun l => ret (SliceFrom l))) a).
Definition m_dots : bytes := Eval vm_compute in s2b "what do you mean of `...`?".
Definition m_dotsnon : bytes := Eval vm_compute in s2b "apply `...` on non-slice object".
Definition m_unexp : bytes := Eval vm_compute in s2b "unexpected".
Fixpoint push_all (l : list value) : Q unit := match l with [] => ret tt | v :: l' => push v ;;; push_all l' end.
(** qlang.go:350-374 VCall *)
Definition QVCall : Q (option qerr) :=
  va <-- popArity ;; a <-- popArity ;;
  arity <-- (if va =? 0 then ret a
             else if a =? 0 then panic_str m_dots []
             else o <-- pop ;;
                  match o with
                  | None => panic_str m_unexp []
                  | Some v => match elems_of v with
                              | None => panic_str m_dotsnon []
                              | Some l => push_all l ;;; ret (a + (Z.of_nat (length l) - 1))
                              end
                  end) ;;
  lift_call (Interp.VCall emb q_pushret q_to_float as_fn arity).

(** ** Literals *)
Definition m_badstr : bytes := Eval vm_compute in s2b "invalid string".
Definition m_badchar : bytes := Eval vm_compute in s2b "invalid char".
(** qlang.go:120-127 PushString *)
Definition PushString (lit : bytes) : Q unit := match unquote lit with Some b => push (VStr b) | None => panic_str m_badstr [VStr lit] end.
(** qlang.go:108-118 PushByte; lit[1:len(lit)-1] *)
Definition PushByte (lit : bytes) : Q unit :=
  if (length lit <? 2)%nat then crash
  else match unquote_char (firstn (length lit - 2) (skipn 1 lit)) with
  | Some (c, false, []) => push (VByte (wrap8 c))
  | _ => panic_str m_badchar [VStr lit]
  end.
(** function.go:43-46 Clear *)
Definition Clear (p : nat) : Q unit := b <-- gets (fun s => fr_base (getf p s)) ;; SetFrame b.

(** ** The function table *)
(** func(stk, arg) and func(p, arg), with the type of the argument *)
Definition no_out {A : Type} (_ : A) : list qval := [].
Definition frame_of (r : qval) : nat := match r with Some (mkVal _ (DIpt i)) => i | _ => O end.
Definition arg_at (n : nat) (args : list qval) : value := unemb (nth n args None).
Definition str_at (n : nat) (args : list qval) : bytes := match arg_at n args with VStr b => b | _ => [] end.
Definition stk0 (m : Q unit) : qfn := mkFn true [t_stack] false [] (fun _ => run m no_out).
Definition stk1 (t : rtype) (m : value -> Q unit) : qfn := mkFn true [t_stack; t] false [] (fun args => run (m (arg_at 1 args)) no_out).
Definition stk_str (m : bytes -> Q unit) : qfn := mkFn true [t_stack; typeStr] false [] (fun args => run (m (str_at 1 args)) no_out).
Definition ipt0 (m : nat -> Q unit) : qfn := mkFn true [t_ipt] false [] (fun args => run (m (frame_of (hd None args))) no_out).
Definition ipt0e (m : nat -> Q (option qerr)) : qfn := mkFn true [t_ipt] false [typeError] (fun args => run (m (frame_of (hd None args))) err_out).
Definition ipt_eng (m : nat -> Q unit) : qfn := mkFn true [t_ipt; typeEng] false [] (fun args => run (m (frame_of (hd None args))) no_out).
Definition ipt_enge (m : nat -> Q (option qerr)) : qfn := mkFn true [t_ipt; typeEng] false [typeError] (fun args => run (m (frame_of (hd None args))) err_out).
Definition ipt_ctx (m : nat -> Q unit) : qfn := mkFn true [t_ipt; typeCtx] false [] (fun args => run (m (frame_of (hd None args))) no_out).
Definition ipt_str (m : nat -> bytes -> Q unit) : qfn := mkFn true [t_ipt; typeStr] false [] (fun args => run (m (frame_of (hd None args)) (str_at 1 args)) no_out).
Definition ipt_stre (m : nat -> bytes -> Q (option qerr)) : qfn :=
  mkFn true [t_ipt; typeStr] false [typeError] (fun args => run (m (frame_of (hd None args)) (str_at 1 args)) err_out).
Definition op1 (f : value -> opres) : qfn := mkFn true [typeAny] false [typeAny] (fun args => run (of_op (f (arg_at 0 args))) any_out).
Definition op2 (f : value -> value -> opres) : qfn := mkFn true [typeAny; typeAny] false [typeAny] (fun args => run (of_op (f (arg_at 0 args) (arg_at 1 args))) any_out).
(** qlang.go:378-417 exports and lib/builtin/exports.go (the operators); [k] bounds the rounds of for loops *)
Definition qtable (k : nat) : list (bytes * qfn) := [
  (s2b "$ARITY", stk1 typeInt push);
  (s2b "$_ARITY", stk1 typeInt push);
  (s2b "$_code", stk1 typeIntf push);
  (s2b "$index", stk0 Index);
  (s2b "$name", stk_str (fun n => push (VStr n)));
  (s2b "$pushn", stk0 (push VNil));
  (s2b "$pushi", stk1 typeInt push);
  (s2b "$pushf", stk1 typeFloat64 push);
  (s2b "$pushs", stk_str PushString);
  (s2b "$pushc", stk_str PushByte);
  (s2b "$mref", ipt_stre (fun _ => MemberRef));
  (s2b "$ref", ipt_str Ref);
  (s2b "$slice", ipt0e (fun _ => VSliceLit));
  (s2b "$map", ipt0e (fun _ => VMap));
  (s2b "$call", ipt0e (fun _ => QVCall));
  (s2b "$assign", ipt_stre Assign);
  (s2b "$massign", ipt0e MultiAssign);
  (s2b "$inc", ipt_stre (IncDec QValue.Inc));
  (s2b "$dec", ipt_stre (IncDec QValue.Dec));
  (s2b "$adda", ipt_stre (OpAssign QValue.Add));
  (s2b "$suba", ipt_stre (OpAssign QValue.Sub));
  (s2b "$mula", ipt_stre (OpAssign QValue.Mul));
  (s2b "$quoa", ipt_stre (OpAssign QValue.Quo));
  (s2b "$moda", ipt_stre (OpAssign QValue.Mod));
  (s2b "$defer", ipt0 Defer);
  (s2b "$recover", ipt0 Recover);
  (s2b "$return", ipt_eng Return);
  (s2b "$fn", ipt_enge Function);
  (s2b "$main", ipt_eng Main);
  (s2b "$mfn", ipt0e MemberFuncDecl);
  (s2b "$class", ipt_eng Class);
  (s2b "$new", ipt0e New);
  (s2b "$clear", ipt0 Clear);
  (s2b "$if", ipt_ctx If);
  (s2b "$switch", ipt_eng Switch);
  (s2b "$for", ipt_eng (For k));
  (s2b "$and", ipt_eng And);
  (s2b "$or", ipt_eng Or);
  (s2b "$neg", op1 Neg);
  (s2b "$mul", op2 Mul);
  (s2b "$quo", op2 Quo);
  (s2b "$mod", op2 Mod);
  (s2b "$add", op2 Add);
  (s2b "$sub", op2 Sub);
  (s2b "$lt", op2 LT);
  (s2b "$gt", op2 GT);
  (s2b "$le", op2 LE);
  (s2b "$ge", op2 GE);
  (s2b "$eq", op2 (EQ same_obj));
  (s2b "$ne", op2 (NE same_obj));
  (s2b "$not", op1 Not)].
Definition fntable (k : nat) (name : bytes) : option qfn := find name (qtable k).
(** the actions of the compiled grammar *)
Definition qact (k : nat) : bytes -> list token -> Z -> qst -> qst + (panicq * qst) :=
  iact emb q_pushret q_to_float f_of_int parse_float (fntable k) t_stack t_ipt None.
End Qlang.
