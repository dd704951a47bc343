(** Values of the qlang interpreter (tpl/qlang): the dynamic types that can be in an interface{} variable, and the
    operators of tpl/qlang/lib/builtin/number.go and boolean.go on them.

    float64 is the standard library's executable IEEE 754 specification (Coq.Floats.SpecFloat, no axioms) with
    53 bits of precision, so that all NaNs are one value. *)
From Coq Require Import String SpecFloat.
From Verif Require Import Base Token Utf8 Scanner Tokenize Grammar Matcher Compiler Interp.

Definition float : Type := spec_float.
Definition f_add : float -> float -> float := SFadd 53 1024.
Definition f_sub : float -> float -> float := SFsub 53 1024.
Definition f_mul : float -> float -> float := SFmul 53 1024.
Definition f_div : float -> float -> float := SFdiv 53 1024.
Definition f_neg : float -> float := SFopp.
Definition f_lt : float -> float -> bool := SFltb.
Definition f_le : float -> float -> bool := SFleb.
Definition f_eq : float -> float -> bool := SFeqb.
(** float64(n) for an int n: rounded to nearest, ties to even *)
Definition f_of_int (z : Z) : float := binary_normalize 53 1024 z 0 false.

(** Integer kinds other than int and byte. *)
Inductive nkind : Type := NInt8 | NInt16 | NInt32 | NInt64 | NUint | NUint16 | NUint32 | NUint64 | NUintptr.
(** Element types of slices. *)
Inductive etype : Type := TAny | TInt | TFloat | TString | TByte.

(** function.go:336-343 Function (the engine is always the same; Cls is not used in tpl/qlang/cl); f_id is its identity *)
Record func : Type := mkFunc { f_id : nat; f_args : list bytes; f_body : option (list token); f_parent : nat; f_variadic : bool }.
(** class.go:26-30 Class *)
Record class : Type := mkClass { c_id : nat; c_fns : list (bytes * func) }.

(** What an interface{} can hold. Objects, slices made by Go code, maps etc. that the model does not look into are
    [VOther]; slices are values (set on a slice is not modelled). Values of named types (type X int) are [VOther]. *)
Inductive value : Type :=
| VNil
| VBool (b : bool)
| VInt (z : Z)
| VByte (z : Z)
| VFloat (f : float)
| VStr (b : bytes)
| VNum (k : nkind) (z : Z)
| VFloat32 (f : float)                          (* its value as a float64 *)
| VSlice (t : etype) (l : list value)
| VCode (ts : list token)                       (* []tpl.Token *)
| VFunc (f : func)
| VClass (c : class)
| VObj (o : nat) (c : class)                    (* *Object; its variables are in the heap *)
| VThis (id o : nat) (c : class) (f : func)     (* *thisDeref *)
| VFnInfo (args : list bytes) (body : option (list token)) (variadic : bool)
| VUnset (p : nat)                              (* the method value p.Unset *)
| VExtern (p : nat)                             (* externVar{p.vars} *)
| VGo (name : bytes)                            (* a func of the function table, by its name there *)
| VDummy (n : nat)                              (* spec.dummy1, dummy2; 0: another one *)
| VUndefined                                    (* spec.Undefined *)
| VMsg (fmt : bytes) (args : list value)        (* fmt.Sprintf(fmt, args...) *)
| VExc (n : nat)                                (* the recovered panic number n that is neither a string nor one of the above *)
| VReturn                                       (* the error inside ErrReturn, function.go:21 *)
| VExit (code : Z)                              (* model only: os.Exit(code) was called *)
| VOther (x : nat).

Definition pvq : Type := pv value.
Definition panicq : Type := pan bytes Empty_set pvq.
Definition msg (fmt : bytes) (args : list value) : pvq := PvStr (SOther (VMsg fmt args)).
Definition rt_error : pvq := PvErr ERuntime.

(** Go's int: 64 bits, wrapping. *)
Definition wrap64 (z : Z) : Z := (z + 2 ^ 63) mod 2 ^ 64 - 2 ^ 63.
Definition wrap8 (z : Z) : Z := z mod 2 ^ 8.

(** Result of an operator: a value or what it panics with. *)
Definition opres : Type := value + pvq.

(** number.go:350-356 panicUnsupportedOp2, 343-348 panicUnsupportedOp1, 333-341 panicUnsupportedFn: the types of the
    operands are printed *)
Definition m_op2 : bytes := Eval vm_compute in s2b "unsupported operator: %T%s%T".
Definition m_op1 : bytes := Eval vm_compute in s2b "unsupported operator: %s%T".
Definition m_fn : bytes := Eval vm_compute in s2b "unsupported function: %s(%T)".
Definition unsup2 (op : bytes) (a b : value) : opres := inr (msg m_op2 [a; VStr op; b]).
Definition unsup1 (op : bytes) (a : value) : opres := inr (msg m_op1 [VStr op; a]).
Definition unsupf (fn : bytes) (args : list value) : opres := inr (msg m_fn (VStr fn :: args)).
Definition o_add : bytes := Eval vm_compute in s2b "+".
Definition o_sub : bytes := Eval vm_compute in s2b "-".
Definition o_mul : bytes := Eval vm_compute in s2b "*".
Definition o_quo : bytes := Eval vm_compute in s2b "/".
Definition o_mod : bytes := Eval vm_compute in s2b "%".
Definition o_inc : bytes := Eval vm_compute in s2b "++".
Definition o_dec : bytes := Eval vm_compute in s2b "--".
Definition o_not : bytes := Eval vm_compute in s2b "!".
Definition o_lt : bytes := Eval vm_compute in s2b "<".
Definition o_gt : bytes := Eval vm_compute in s2b ">".
Definition o_le : bytes := Eval vm_compute in s2b "<=".
Definition o_ge : bytes := Eval vm_compute in s2b ">=".

(** number.go:11-31 Inc, Dec *)
Definition Inc (a : value) : opres :=
  match a with VInt v => inl (VInt (wrap64 (v + 1))) | VByte v => inl (VByte (wrap8 (v + 1))) | _ => unsup1 o_inc a end.
Definition Dec (a : value) : opres :=
  match a with VInt v => inl (VInt (wrap64 (v - 1))) | VByte v => inl (VByte (wrap8 (v - 1))) | _ => unsup1 o_dec a end.
(** number.go:33-42 Neg *)
Definition Neg (a : value) : opres :=
  match a with VInt v => inl (VInt (wrap64 (- v))) | VFloat v => inl (VFloat (f_neg v)) | _ => unsup1 o_sub a end.
(** number.go:44-55 Float *)
Definition Float (a : value) : opres :=
  match a with
  | VInt v => inl (VFloat (f_of_int v)) | VFloat v => inl (VFloat v) | VByte v => inl (VFloat (f_of_int v))
  | _ => unsupf (s2b "float") [a]
  end.
(** number.go:96-115 Mul *)
Definition Mul (a b : value) : opres :=
  match a with
  | VInt a1 => match b with VInt b1 => inl (VInt (wrap64 (a1 * b1))) | VFloat b1 => inl (VFloat (f_mul (f_of_int a1) b1)) | _ => unsup2 o_mul a b end
  | VFloat a1 => match b with VInt b1 => inl (VFloat (f_mul a1 (f_of_int b1))) | VFloat b1 => inl (VFloat (f_mul a1 b1)) | _ => unsup2 o_mul a b end
  | _ => unsup2 o_mul a b
  end.
(** number.go:117-136 Quo; Go's / truncates and panics on 0 *)
Definition Quo (a b : value) : opres :=
  match a with
  | VInt a1 => match b with
               | VInt b1 => if b1 =? 0 then inr rt_error else inl (VInt (wrap64 (Z.quot a1 b1)))
               | VFloat b1 => inl (VFloat (f_div (f_of_int a1) b1)) | _ => unsup2 o_quo a b end
  | VFloat a1 => match b with VInt b1 => inl (VFloat (f_div a1 (f_of_int b1))) | VFloat b1 => inl (VFloat (f_div a1 b1)) | _ => unsup2 o_quo a b end
  | _ => unsup2 o_quo a b
  end.
(** number.go:138-146 Mod *)
Definition Mod (a b : value) : opres :=
  match a with
  | VInt a1 => match b with
               | VInt b1 => if b1 =? 0 then inr rt_error else inl (VInt (Z.rem a1 b1))
               | _ => unsup2 o_mod a b end
  | _ => unsup2 o_mod a b
  end.
(** number.go:148-171 Add *)
Definition Add (a b : value) : opres :=
  match a with
  | VInt a1 => match b with VInt b1 => inl (VInt (wrap64 (a1 + b1))) | VFloat b1 => inl (VFloat (f_add (f_of_int a1) b1)) | _ => unsup2 o_add a b end
  | VFloat a1 => match b with VInt b1 => inl (VFloat (f_add a1 (f_of_int b1))) | VFloat b1 => inl (VFloat (f_add a1 b1)) | _ => unsup2 o_add a b end
  | VStr a1 => match b with VStr b1 => inl (VStr (a1 ++ b1)) | _ => unsup2 o_add a b end
  | _ => unsup2 o_add a b
  end.
(** number.go:173-192 Sub *)
Definition Sub (a b : value) : opres :=
  match a with
  | VInt a1 => match b with VInt b1 => inl (VInt (wrap64 (a1 - b1))) | VFloat b1 => inl (VFloat (f_sub (f_of_int a1) b1)) | _ => unsup2 o_sub a b end
  | VFloat a1 => match b with VInt b1 => inl (VFloat (f_sub a1 (f_of_int b1))) | VFloat b1 => inl (VFloat (f_sub a1 b1)) | _ => unsup2 o_sub a b end
  | _ => unsup2 o_sub a b
  end.

(** ** boolean.go *)
(** Go's < on strings: bytewise *)
Fixpoint b_lt (a b : bytes) : bool :=
  match a, b with
  | _, [] => false
  | [], _ :: _ => true
  | x :: a', y :: b' => (x <? y) || ((x =? y) && b_lt a' b')
  end.
(** boolean.go:5-11 Not *)
Definition Not (a : value) : opres := match a with VBool b => inl (VBool (negb b)) | _ => unsup1 o_not a end.
(** the conversion of bytes, boolean.go:15-21 etc. *)
Definition unbyte (a : value) : value := match a with VByte v => VInt v | _ => a end.
(** boolean.go:13-143 LT, GT, LE, GE *)
Definition LT (a0 b0 : value) : opres :=
  let a := unbyte a0 in let b := unbyte b0 in
  match a with
  | VInt a1 => match b with VInt b1 => inl (VBool (a1 <? b1)) | VFloat b1 => inl (VBool (f_lt (f_of_int a1) b1)) | _ => unsup2 o_lt a b end
  | VFloat a1 => match b with VInt b1 => inl (VBool (f_lt a1 (f_of_int b1))) | VFloat b1 => inl (VBool (f_lt a1 b1)) | _ => unsup2 o_lt a b end
  | VStr a1 => match b with VStr b1 => inl (VBool (b_lt a1 b1)) | _ => unsup2 o_lt a b end
  | _ => unsup2 o_lt a b
  end.
Definition GT (a0 b0 : value) : opres :=
  let a := unbyte a0 in let b := unbyte b0 in
  match a with
  | VInt a1 => match b with VInt b1 => inl (VBool (b1 <? a1)) | VFloat b1 => inl (VBool (f_lt b1 (f_of_int a1))) | _ => unsup2 o_gt a b end
  | VFloat a1 => match b with VInt b1 => inl (VBool (f_lt (f_of_int b1) a1)) | VFloat b1 => inl (VBool (f_lt b1 a1)) | _ => unsup2 o_gt a b end
  | VStr a1 => match b with VStr b1 => inl (VBool (b_lt b1 a1)) | _ => unsup2 o_gt a b end
  | _ => unsup2 o_gt a b
  end.
Definition LE (a0 b0 : value) : opres :=
  let a := unbyte a0 in let b := unbyte b0 in
  match a with
  | VInt a1 => match b with VInt b1 => inl (VBool (a1 <=? b1)) | VFloat b1 => inl (VBool (f_le (f_of_int a1) b1)) | _ => unsup2 o_le a b end
  | VFloat a1 => match b with VInt b1 => inl (VBool (f_le a1 (f_of_int b1))) | VFloat b1 => inl (VBool (f_le a1 b1)) | _ => unsup2 o_le a b end
  | VStr a1 => match b with VStr b1 => inl (VBool (negb (b_lt b1 a1))) | _ => unsup2 o_le a b end
  | _ => unsup2 o_le a b
  end.
Definition GE (a0 b0 : value) : opres :=
  let a := unbyte a0 in let b := unbyte b0 in
  match a with
  | VInt a1 => match b with VInt b1 => inl (VBool (b1 <=? a1)) | VFloat b1 => inl (VBool (f_le b1 (f_of_int a1))) | _ => unsup2 o_ge a b end
  | VFloat a1 => match b with VInt b1 => inl (VBool (f_le (f_of_int b1) a1)) | VFloat b1 => inl (VBool (f_le b1 a1)) | _ => unsup2 o_ge a b end
  | VStr a1 => match b with VStr b1 => inl (VBool (negb (b_lt a1 b1))) | _ => unsup2 o_ge a b end
  | _ => unsup2 o_ge a b
  end.
Definition nkeq (a b : nkind) : bool :=
  match a, b with
  | NInt8, NInt8 | NInt16, NInt16 | NInt32, NInt32 | NInt64, NInt64 | NUint, NUint | NUint16, NUint16 | NUint32, NUint32
  | NUint64, NUint64 | NUintptr, NUintptr => true
  | _, _ => false
  end.
Section Eq.
(** Identity of the objects whose identity the model does not keep (errors, other Go objects); for funcs: whether they
    have the same type. *)
Variable same_obj : value -> value -> bool.
(** boolean.go:145-153 EQ, NE: Go's == on interfaces: same dynamic type and equal values; comparing two values of the
    same uncomparable type (slice, func, the struct of a map) panics *)
Definition EQ (a b : value) : opres :=
  match a, b with
  | VNil, VNil => inl (VBool true)
  | VBool x, VBool y => inl (VBool (Bool.eqb x y))
  | VInt x, VInt y => inl (VBool (x =? y))
  | VByte x, VByte y => inl (VBool (x =? y))
  | VFloat x, VFloat y => inl (VBool (f_eq x y))
  | VFloat32 x, VFloat32 y => inl (VBool (f_eq x y))
  | VNum k x, VNum k' y => inl (VBool (nkeq k k' && (x =? y)))
  | VStr x, VStr y => inl (VBool (beq x y))
  | VSlice TAny _, VSlice TAny _ | VSlice TInt _, VSlice TInt _ | VSlice TFloat _, VSlice TFloat _ | VSlice TString _, VSlice TString _
  | VSlice TByte _, VSlice TByte _ | VCode _, VCode _ | VUnset _, VUnset _ | VExtern _, VExtern _ => inr rt_error
  | VFunc f, VFunc g => inl (VBool (f_id f =? f_id g)%nat)
  | VClass f, VClass g => inl (VBool (c_id f =? c_id g)%nat)
  | VObj o _, VObj o' _ => inl (VBool (o =? o')%nat)
  | VThis i _ _ _, VThis j _ _ _ => inl (VBool (i =? j)%nat)
  | VGo x, VGo y => if beq x y || same_obj a b then inr rt_error else inl (VBool false)
  | VGo _, VUnset _ | VUnset _, VGo _ | VGo _, VDummy _ | VDummy _, VGo _ | VDummy _, VDummy _ | VUnset _, VDummy _ | VDummy _, VUnset _ =>
      if same_obj a b then inr rt_error else inl (VBool false)
  | VUndefined, VUndefined => inl (VBool true)
  | VMsg _ _, VMsg _ _ | VMsg _ _, VStr _ | VStr _, VMsg _ _ | VExc _, VExc _ | VOther _, VOther _ => inl (VBool (same_obj a b))
  | _, _ => inl (VBool false)
  end.
Definition NE (a b : value) : opres := match EQ a b with inl (VBool x) => inl (VBool (negb x)) | r => r end.
End Eq.

(** ** max and min *)
(** reflect.Kind of a value, as numbered by the reflect package *)
Definition nkindnum (k : nkind) : Z :=
  match k with NInt8 => 3 | NInt16 => 4 | NInt32 => 5 | NInt64 => 6 | NUint => 7 | NUint16 => 9 | NUint32 => 10 | NUint64 => 11 | NUintptr => 12 end.
Definition kInvalid : Z := 0.
Definition kBool : Z := 1.
Definition kInt : Z := 2.
Definition kInt64 : Z := 6.
Definition kUint : Z := 7.
Definition kUint8 : Z := 8.
Definition kUintptr : Z := 12.
Definition kFloat32 : Z := 13.
Definition kFloat64 : Z := 14.
Definition kFunc : Z := 19.
Definition kInterface : Z := 20.
Definition kPtr : Z := 22.
Definition kSlice : Z := 23.
Definition kString : Z := 24.
Definition kStruct : Z := 25.
(** number.go:328-331 kindOf *)
Definition kindOf (a : value) : Z :=
  match a with
  | VNil => kInvalid
  | VBool _ => kBool
  | VInt _ => kInt
  | VByte _ => kUint8
  | VFloat _ => kFloat64
  | VStr _ | VMsg _ _ => kString
  | VNum k _ => nkindnum k
  | VFloat32 _ => kFloat32
  | VSlice _ _ | VCode _ => kSlice
  | VUnset _ | VGo _ | VDummy _ => kFunc
  | VExtern _ => kStruct
  | _ => kPtr
  end.
(** number.go:224-242 kindOfArgs: the kinds of the arguments after the first *)
Fixpoint kindOfRest (kind : Z) (args : list value) : Z :=
  match args with
  | [] => kind
  | a :: args' =>
      let t := kindOf a in
      if t =? kind then kindOfRest kind args'
      else if (kind =? kFloat64) || (kind =? kInt) then
        if t =? kInt then kindOfRest kind args'
        else if t =? kFloat64 then kindOfRest kFloat64 args'
        else kInvalid
      else kInvalid
  end.
Definition kindOfArgs (args : list value) : Z := match args with [] => kInvalid | a :: args' => kindOfRest (kindOf a) args' end.
(** number.go:308-317 asFloat; None: panics *)
Definition asFloat (a : value) : option float := match a with VFloat f => Some f | VInt z => Some (f_of_int z) | _ => None end.
(** number.go:286-295, 297-306 maxInt, minInt: a failing type assertion panics *)
Fixpoint extInt (better : Z -> Z -> bool) (m : Z) (args : list value) : option Z :=
  match args with
  | [] => Some m
  | VInt t :: args' => extInt better (if better t m then t else m) args'
  | _ => None
  end.
(** number.go:264-284 maxFloat, minFloat *)
Fixpoint extFloat (better : float -> float -> bool) (m : float) (args : list value) : option float :=
  match args with
  | [] => Some m
  | a :: args' => match asFloat a with Some t => extFloat better (if better t m then t else m) args' | None => None end
  end.
Definition extremum (bi : Z -> Z -> bool) (bf : float -> float -> bool) (name : bytes) (args : list value) : opres :=
  match args with
  | [] => inl (VInt 0)
  | a :: args' =>
      let k := kindOfArgs args in
      if k =? kInt then match a with VInt m => match extInt bi m args' with Some r => inl (VInt r) | None => inr rt_error end | _ => inr rt_error end
      else if k =? kFloat64 then match asFloat a with Some m => match extFloat bf m args' with Some r => inl (VFloat r) | None => inr rt_error end | None => inr rt_error end
      else unsupf name args
  end.
(** number.go:194-222 Max, Min *)
Definition Max (args : list value) : opres := extremum (fun t m => m <? t) (fun t m => f_lt m t) (s2b "max") args.
Definition Min (args : list value) : opres := extremum (fun t m => t <? m) (fun t m => f_lt t m) (s2b "min") args.

(** ** Results of Go functions *)
(** qlang.go:139-157 castVal of a result declared with an interface type ([iface]) or with the type of its value *)
Definition castVal (iface : bool) (v : value) : value :=
  let kind := if iface then kInterface else kindOf v in
  if (kind =? kFloat64) || (kind =? kInt) then v
  else if (kInt <? kind) && (kind <=? kInt64) then
    if negb (kind =? kUint8) then match v with VNum _ z => VInt (wrap64 z) | _ => v end else v
  else if (kUint <=? kind) && (kind <=? kUintptr) then
    match v with VNum _ z => VInt (wrap64 z) | VByte z => VInt (wrap64 z) | _ => v end
  else if kind =? kFloat32 then match v with VFloat32 f => VFloat f | _ => v end
  else v.
(** qlang.go:159-174 PushRet *)
Definition ret_value (outs : list (bool * value)) : value :=
  match outs with
  | [] => VNil
  | [(i, v)] => castVal i v
  | _ => VSlice TAny (map (fun o => castVal (fst o) (snd o)) outs)
  end.

(** ** Import *)
(** spec.go:64 Fntable: names to values; a map, so that the order of the entries has no meaning *)
Definition ftable : Type := list (bytes * value).
(** spec.go:109-113: a func value whose pointer is that of dummy1 or dummy2 *)
Definition placeholder (v : value) : bool :=
  if kindOf v =? kFunc then match v with VDummy 1 | VDummy 2 => true | _ => false end else false.
Definition set_key {V : Type} (k : bytes) (v : V) (t : list (bytes * V)) : list (bytes * V) := (k, v) :: filter (fun e => negb (beq (fst e) k)) t.
(** spec.go:105-117 the loop over the imported table, in the order the map is iterated *)
Fixpoint import_all (table : ftable) (ft : ftable) : ftable * option bytes :=
  match table with
  | [] => (ft, None)
  | (name, fn) :: table' =>
      match find name ft with
      | Some old => if placeholder old then import_all table' (set_key name fn ft) else (ft, Some name)
      | None => import_all table' (set_key name fn ft)
      end
  end.
Inductive importres : Type := IOk (ft : ftable) | IExists (ft : ftable) (name : bytes) | IBadInit (ft : ftable).
(** spec.go:85-118 Import. [safe]: SafeMode; [init]: what an _initSafe entry of the right prototype does to the table;
    [modval]: the table as a value *)
Definition m_initSafe : bytes := Eval vm_compute in s2b "_initSafe".
Definition Import (safe : bool) (init : value -> option (ftable -> ftable)) (modval : ftable -> value) (mod_ : bytes) (table ft : ftable) : importres :=
  let go (table : ftable) :=
    match mod_ with
    | _ :: _ => match find mod_ ft with Some _ => IExists ft mod_ | None => IOk (set_key mod_ (modval table) ft) end
    | [] => match import_all table ft with (ft', None) => IOk ft' | (ft', Some n) => IExists ft' n end
    end in
  match (if safe then find m_initSafe table else None) with
  | Some v => match init v with Some f => go (f table) | None => IBadInit ft end
  | None => go table
  end.
