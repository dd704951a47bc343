(** Model of the calculators tpl/number/number.go, tpl/rat/big.go and tpl/cmplx/cmplx.go, run by the engine of Interp.v. *)
From Coq Require Import String QArith.
From Verif Require Import Base Token Utf8 Scanner Tokenize Grammar Matcher Compiler Interp.
Local Open Scope Z_scope.

(** ** The common part *)
Section Calc.
(** float64, other Go values, numbers on the stack *)
Context {F X E : Type}.
Notation S := (est unit E unit).
Notation V := (rval F X unit E).
Notation Fn := (gofn F X unit E unit).

(** A library function on numbers: the number of its parameters, whether it is variadic, and its result; None: it
    panics with an error or a string (which the engine treats alike, so the model keeps only one value). *)
Record libfn : Type := mkLib { l_arity : nat; l_variadic : bool; l_run : list E -> option E }.
(** A literal: converted to float64 by the engine or read by the calculator (None: panics). *)
Inductive leaf : Type := LFloat (f : F -> E) | LStr (f : bytes -> option E).
(** What distinguishes the calculators. *)
Record calc : Type := mkCalc {
  k_type : rtype;                                (* float64, *big.Rat, complex128 *)
  k_emb : E -> V;
  k_unemb : V -> option E;
  k_unret : V -> E + err X;                      (* PushRet *)
  k_of_len : Z -> E;                             (* Arity *)
  k_to_len : E -> option Z;                      (* int(arity) in Call; None: refused *)
  k_neg : E -> option E;                         (* $neg *)
  k_bins : list (bytes * (E -> E -> option E));  (* $mul, $quo, ... *)
  k_leaves : list (bytes * leaf);                (* $push, ... *)
  k_lib : bytes -> option libfn                  (* abs, ... *)
}.
Variable k : calc.
Variable to_float : val F X unit E -> F.
Variable of_int : Z -> F.
Variable parse_float : bytes -> F + nerr.

Fixpoint unembs (l : list V) : option (list E) :=
  match l with
  | [] => Some []
  | v :: l' => match k_unemb k v, unembs l' with Some e, Some es => Some (e :: es) | _, _ => None end
  end.
Definition pure (l : libfn) : Fn :=
  mkFn true (repeat (k_type k) (l_arity l)) (l_variadic l) [k_type k]
    (fun args s => match unembs args with
                   | Some vs => match l_run l vs with Some v => inl ([k_emb k v], s) | None => inr (runtime, s) end
                   | None => inr (runtime, s)
                   end).
Definition lib1 (f : E -> option E) : libfn := mkLib 1 false (fun vs => match vs with [a] => f a | _ => None end).
Definition lib2 (f : E -> E -> option E) : libfn := mkLib 2 false (fun vs => match vs with [a; b] => f a b | _ => None end).
Definition push (v : E) (s : S) : S := set_stk (v :: e_stk s) s.
Definition tstk : rtype := mkTy KPtr 20.
Definition tipt : rtype := mkTy KPtr 21.
Definition m_neg : bytes := Eval vm_compute in s2b "neg".
Definition m_mul : bytes := Eval vm_compute in s2b "mul".
Definition m_quo : bytes := Eval vm_compute in s2b "quo".
Definition m_mod : bytes := Eval vm_compute in s2b "mod".
Definition m_add : bytes := Eval vm_compute in s2b "add".
Definition m_sub : bytes := Eval vm_compute in s2b "sub".
Definition m_ARITY : bytes := Eval vm_compute in s2b "ARITY".
Definition m_call : bytes := Eval vm_compute in s2b "call".
Definition m_push : bytes := Eval vm_compute in s2b "push".
Definition m_pushi : bytes := Eval vm_compute in s2b "pushi".
Definition m_ident : bytes := Eval vm_compute in s2b "ident".

(** Calculator.Call: number.go:233-246, big.go:214-227, cmplx.go:205-218.  [tbl name]: the function table. *)
Definition calc_call (tbl : bytes -> option Fn) (name : bytes) (s : S) : option (err X) * S + (panic * S) :=
  match tbl name with
  | None => inl (Some (ENoFunc name), s)
  | Some fn =>
      match e_stk s with
      | [] => inl (Some ENoArity, s)
      | a :: stk =>
          match k_to_len k a with
          | None => inl (Some ENoArity, set_stk stk s)
          | Some n =>
              match Call (k_emb k) (PushRet (k_unret k)) to_float fn n (set_stk stk s) with
              | inl (Some e, s') => inl (Some (ECallFailed name e), s')
              | r => r
              end
          end
      end
  end.
Definition fn_neg : Fn := pure (lib1 (k_neg k)).
Definition fn_arity : Fn := mkFn true [tstk; typeInt] false []
  (fun args s => match args with [_; Some (mkVal _ (DInt z))] => inl ([], push (k_of_len k z) s) | _ => inr (runtime, s) end).
Definition fn_leaf (l : leaf) : Fn :=
  match l with
  | LFloat f => mkFn true [tstk; typeFloat64] false []
      (fun args s => match args with [_; Some (mkVal _ (DFloat v))] => inl ([], push (f v) s) | _ => inr (runtime, s) end)
  | LStr f => mkFn true [tstk; typeStr] false []
      (fun args s => match args with
                     | [_; Some (mkVal _ (DStr b))] => match f b with Some v => inl ([], push v s) | None => inr (runtime, s) end
                     | _ => inr (runtime, s)
                     end)
  end.
(** the functions of the table without a $ *)
Definition lib_table (name : bytes) : option Fn := match k_lib k name with Some l => Some (pure l) | None => None end.
Definition fn_call_ : Fn := mkFn true [tipt; typeStr] false [typeError]
  (fun args s => match args with
                 | [_; Some (mkVal _ (DStr name))] =>
                     match calc_call lib_table name s with
                     | inl (Some e, s') => inl ([Some (mkVal typeError (DErr e))], s')
                     | inl (None, s') => inl ([None], s')
                     | inr r => inr r
                     end
                 | _ => inr (runtime, s)
                 end).
(** The function tables number.go:256-318, big.go:237-253, cmplx.go:228-270.  A name that can occur in a text never
    starts with $, so the $ entries are not reachable through Call. *)
Definition ctable (key : bytes) : option Fn :=
  match key with
  | 36 :: m =>
      if beq m m_neg then Some fn_neg
      else if beq m m_ARITY then Some fn_arity
      else if beq m m_call then Some fn_call_
      else match find m (k_bins k) with
           | Some f => Some (pure (lib2 f))
           | None => match find m (k_leaves k) with Some l => Some (fn_leaf l) | None => None end
           end
  | _ => lib_table key
  end.
Definition cmarker : gr bytes Empty_set -> bytes -> unit -> (gr bytes Empty_set * unit) + (mpan * unit) := imarker ctable tstk tipt.
Definition kact : bytes -> list token -> Z -> S -> S + (panic * S) := iact (k_emb k) (PushRet (k_unret k)) to_float of_int parse_float ctable tstk tipt None.
Definition kclient : uclient bytes Empty_set (pv X) S unit := iclient (k_emb k) (PushRet (k_unret k)) to_float of_int parse_float ctable tstk tipt None.
End Calc.
Arguments calc : clear implicits.
Arguments libfn : clear implicits.
Arguments leaf : clear implicits.

(** ** number *)
(** number.go:14-27 *)
Definition number_grammar : bytes := Eval vm_compute in s2b "

term = factor *('*' factor/mul | '/' factor/quo | '%' factor/mod)

doc = term *('+' term/add | '-' term/sub)

factor =
	FLOAT/push |
	'-' factor/neg |
	'(' doc ')' |
	(IDENT '(' doc %= ','/ARITY ')')/call |
	IDENT/ident |
	'+' factor
".
Section Number.
Context {F X : Type}.
(** float64 arithmetic (number.go:36-54, math.Mod) and the named constants of PushIdent (number.go:130-148) *)
Variables f_neg : F -> F.
Variables f_mul f_quo f_mod f_add f_sub : F -> F -> F.
Variable consts : bytes -> option F.
Variable of_int : Z -> F.
(** int(x) *)
Variable f_int : F -> Z.
(** the library number.go:256-306: all functions are pure *)
Variable lib : bytes -> option (libfn F).
Definition num_unret (v : rval F X unit F) : F + err X :=       (* number.go:160-177 *)
  match v with Some (mkVal _ (DFloat f)) => inl f | Some (mkVal _ (DInt z)) => inl (of_int z) | _ => inr EUnsupportedRet end.
Definition number : calc F X F := mkCalc typeFloat64 (fun f => Some (mkVal typeFloat64 (DFloat f)))
  (fun v => match v with Some (mkVal _ (DFloat f)) => Some f | _ => None end) num_unret of_int (fun f => Some (f_int f))
  (fun a => Some (f_neg a))
  [(m_mul, fun a b => Some (f_mul a b)); (m_quo, fun a b => Some (f_quo a b)); (m_mod, fun a b => Some (f_mod a b));
   (m_add, fun a b => Some (f_add a b)); (m_sub, fun a b => Some (f_sub a b))]
  [(m_push, LFloat (fun f => f)); (m_ident, LStr consts)] lib.
End Number.

(** ** rat *)
(** big.go:14-26 *)
Definition rat_grammar : bytes := Eval vm_compute in s2b "

term = factor *('*' factor/mul | '/' factor/quo)

doc = term *('+' term/add | '-' term/sub)

factor =
	INT/push |
	'-' factor/neg |
	'(' doc ')' |
	(IDENT '(' doc %= ','/ARITY ')')/call |
	'+' factor
".
(** A *big.Rat: None is nil, whose use in any operation is a nil dereference.  Pointers are not modelled: no function changes a
    number it is given (big.go:40-74 write to new ones). *)
Definition rat : Type := option Q.
Definition r1 (f : Q -> option Q) (a : rat) : option rat :=
  match a with Some x => match f x with Some y => Some (Some y) | None => None end | None => None end.
Definition r2 (f : Q -> Q -> option Q) (a b : rat) : option rat :=
  match a, b with Some x, Some y => match f x y with Some z => Some (Some z) | None => None end | _, _ => None end.
(** big.Rat.Quo, Inv panic on zero *)
Definition q_quo (a b : Q) : option Q := if Qeq_bool b 0 then None else Some (a / b)%Q.
Definition q_inv (a : Q) : option Q := if Qeq_bool a 0 then None else Some (/ a)%Q.
(** big.go:76-104 Max, Min (a nil argument is dereferenced only by Cmp, i.e. if there are two) *)
Fixpoint r_best (better : Q -> Q -> bool) (m : rat) (l : list rat) : option rat :=
  match l with
  | [] => Some m
  | a :: l' => match a, m with Some x, Some y => r_best better (if better x y then a else m) l' | _, _ => None end
  end.
Definition r_ext (better : Q -> Q -> bool) (l : list rat) : option rat :=
  match l with [] => Some (Some 0%Q) | a :: l' => r_best better a l' end.
Definition q_gtb (x y : Q) : bool := negb (Qle_bool x y).
Definition q_ltb (x y : Q) : bool := negb (Qle_bool y x).
(** big.go:40-54 Denom, Num, Abs, Inv; big.go:237-243 *)
Definition rat_libs : list (bytes * libfn rat) := [
  (s2b "abs", lib1 (r1 (fun q => Some (Qred (if q_ltb q 0 then Qopp q else q)))));
  (s2b "inv", lib1 (r1 (fun q => match q_inv q with Some x => Some (Qred x) | None => None end)));
  (s2b "max", mkLib 1 true (r_ext q_gtb));
  (s2b "min", mkLib 1 true (r_ext q_ltb));
  (s2b "denom", lib1 (r1 (fun q => Some (inject_Z (Zpos (Qden (Qred q)))))));
  (s2b "num", lib1 (r1 (fun q => Some (inject_Z (Qnum (Qred q))))))].
(** int(x.Num().Int64()): the low 64 bits *)
Definition int64 (z : Z) : Z := let m := z mod 2 ^ 64 in if m <? 2 ^ 63 then m else m - 2 ^ 64.
Fixpoint decimal (n : Z) (s : bytes) : Z := match s with [] => n | c :: s' => decimal (n * 10 + (c - 48)) s' end.
Definition all_digits (s : bytes) : bool := forallb (fun c => (48 <=? c) && (c <=? 57)) s.
Definition t_rat : rtype := mkTy KPtr 10.
Section Rat.
Context {F X : Type}.
(** big.go:132-136 PushString; big.Rat.SetString of a literal that is not a sequence of decimal digits (for such a sequence it is its decimal
    value, also with leading zeros) *)
Variable set_string : bytes -> option Q.
Definition rat_string (s : bytes) : rat := if negb (length s =? 0)%nat && all_digits s then Some (inject_Z (decimal 0 s)) else set_string s.
Definition rat_calc : calc F X rat := mkCalc t_rat (fun r => Some (mkVal t_rat (DElem r)))
  (fun v => match v with Some (mkVal _ (DElem r)) => Some r | _ => None end)
  (fun v => match v with Some (mkVal t (DElem r)) => if teq t t_rat then inl r else inr EUnsupportedRet | _ => inr EUnsupportedRet end)  (* big.go:148-158 *)
  (fun n => Some (inject_Z n))                                                                                                           (* big.go:175-178 *)
  (fun r => match r with Some q => if Qden (Qred q) =? 1 then Some (int64 (Qnum (Qred q))) else None | None => None end)%positive      (* nil never is an arity *)
  (r1 (fun q => Some (Qred (Qopp q))))                                                                                                   (* big.go:56-58; 60-74 *)
  [(m_mul, r2 (fun a b => Some (Qred (a * b)%Q))); (m_quo, r2 (fun a b => match q_quo a b with Some q => Some (Qred q) | None => None end));
   (m_add, r2 (fun a b => Some (Qred (a + b)%Q))); (m_sub, r2 (fun a b => Some (Qred (a - b)%Q)))]
  [(m_push, LStr (fun s => Some (rat_string s)))] (fun n => find n rat_libs).
End Rat.

(** ** cmplx *)
(** cmplx.go:15-28 *)
Definition cmplx_grammar : bytes := Eval vm_compute in s2b "

term = factor *('*' factor/mul | '/' factor/quo)

doc = term *('+' term/add | '-' term/sub)

factor =
	FLOAT/push |
	IMAG/pushi |
	'-' factor/neg |
	'(' doc ')' |
	(IDENT '(' doc %= ','/ARITY ')')/call |
	'+' factor
".
Definition t_cmplx : rtype := mkTy KOther 11.
Section Cmplx.
(** float64 and complex128 *)
Context {F X C : Type}.
Variable f_neg : C -> C.
Variables f_mul f_quo f_add f_sub : C -> C -> C.
Variables of_real of_imag : F -> C.
Variable of_int : Z -> F.
(** int(real(c)) if imag(c) == 0 *)
Variable c_int : C -> option Z.
Variable lib : bytes -> option (libfn C).
(** strconv.ParseFloat(s, 64) with its error ignored (cmplx.go:114-118) *)
Variable parse_anyway : bytes -> F.
Definition cmplx : calc F X C := mkCalc t_cmplx (fun c => Some (mkVal t_cmplx (DElem c)))
  (fun v => match v with Some (mkVal _ (DElem c)) => Some c | _ => None end)
  (fun v => match v with Some (mkVal _ (DElem c)) => inl c | Some (mkVal _ (DFloat f)) => inl (of_real f) | Some (mkVal _ (DInt z)) => inl (of_real (of_int z)) | _ => inr EUnsupportedRet end)  (* cmplx.go:130-149 *)
  (fun n => of_real (of_int n)) c_int (fun a => Some (f_neg a))
  [(m_mul, fun a b => Some (f_mul a b)); (m_quo, fun a b => Some (f_quo a b)); (m_add, fun a b => Some (f_add a b)); (m_sub, fun a b => Some (f_sub a b))]
  [(m_push, LFloat of_real); (m_pushi, LStr (fun s => match s with [] => None | _ => Some (of_imag (parse_anyway (removelast s))) end))] lib.
End Cmplx.

(** ** The compiled grammars *)
Definition c_term_name : bytes := Eval vm_compute in s2b "term".
Definition c_factor_name : bytes := Eval vm_compute in s2b "factor".
Section Shape.
(** the alternatives of factor that are literals (kind, mark), before and after the others; the operators of term *)
Variables leaves1 leaves2 muls : list (Z * bytes).
Notation G := (gr bytes Empty_set).
Definition g_leaf (l : Z * bytes) : G := GAct (GTok (fst l)) (snd l).
Definition g_mulop (o : Z * bytes) : G := GAnd [GTok (fst o); GAct (GVar c_factor_name) (snd o)].
Definition g_term : G := GAnd [GVar c_factor_name; GRep0 0 (GOr (map g_mulop muls))].
Definition g_addop (o : Z * bytes) : G := GAnd [GTok (fst o); GAct (GNamed c_term_name g_term) (snd o)].
Definition adds : list (Z * bytes) := [(43, m_add); (45, m_sub)].
Definition g_doc : G := GAnd [GNamed c_term_name g_term; GRep0 1 (GOr (map g_addop adds))].
Definition g_args : G := GAct (GList 2 (GNamed n_doc g_doc) (GTok 44) true) m_ARITY.
Definition g_call : G := GAct (GAnd [GTok IDENT; GTok 40; g_args; GTok 41]) m_call.
Definition g_factor : G := GOr (map g_leaf leaves1 ++
  [GAnd [GTok 45; GAct (GVar c_factor_name) m_neg]; GAnd [GTok 40; GNamed n_doc g_doc; GTok 41]; g_call] ++ map g_leaf leaves2 ++
  [GAnd [GTok 43; GVar c_factor_name]]).
Definition g_env (v : bytes) : option G :=
  match find v [(c_factor_name, g_factor)] with Some GNil => None | Some g => Some g | None => None end.
End Shape.
Definition num_muls : list (Z * bytes) := [(42, m_mul); (47, m_quo); (37, m_mod)].
Definition rat_muls : list (Z * bytes) := [(42, m_mul); (47, m_quo)].
