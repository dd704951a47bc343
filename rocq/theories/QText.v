(** What a qlang text means: the well-formed token sequences of the language and, for each, what evaluating it does.
    This is the specification for Properties C74 and C75; it does not mention the engine's grammar, marks, actions or
    muting.

    A meaning is a computation of the interpreter: of the evaluator used for the pieces of code it contains, the bound on
    the rounds of loops (model only), and the frame in which it runs.  Expressions leave their value on the stack. *)
From Coq Require Import String SpecFloat.
From Verif Require Import Base Token Grammar Compiler Interp QValue Qlang QlangSpec QlangTop.
Local Open Scope Z_scope.

(** kinds of the punctuation *)
Definition LPAREN : Z := 40. Definition RPAREN : Z := 41. Definition LBRACK : Z := 91. Definition RBRACK : Z := 93.
Definition LBRACE : Z := 123. Definition RBRACE : Z := 125. Definition COMMA : Z := 44. Definition SEMI : Z := 59.
Definition COLON : Z := 58. Definition DOT : Z := 46. Definition ASSIGN : Z := 61. Definition ELLIPSIS : Z := 153.
Definition ANDAND : Z := 143. Definition OROR : Z := 144. Definition BANG : Z := 33. Definition MINUS : Z := 45. Definition PLUS : Z := 43.
Definition INCR : Z := 146. Definition DECR : Z := 147.

Section Text.
Context {W : Type}.
Variable L : qlib W.
Notation St := (est nat value (@rest W)).
Definition evaluator : Type := nat -> bytes -> value -> @Q W (option panicq).
Definition sem : Type := evaluator -> nat -> nat -> @Q W unit.
Definition seq (a b : sem) : sem := fun ev k p => a ev k p ;;; b ev k p.
Infix ">>" := seq (at level 60, right associativity).
Definition nop : sem := fun _ _ _ => ret tt.
Definition puts (v : value) : sem := fun _ _ _ => push v.
Definition count (n : nat) : sem := puts (VInt (Z.of_nat n)).
(** a run-time error that [m] raises gets the tokens [ts] as its source, unless it has one *)
Definition blame (ts : list token) (m : @Q W unit) : @Q W unit := fun s =>
  match m s with inl r => inl r | inr (e, s') => inr (wrap ts e, s') end.
Definition raise (m : @Q W (option qerr)) : @Q W unit := r <-- m ;; match r with None => ret tt | Some e => throw (PUser (PvErr e)) end.
(** a piece of code as a value: nil if it is empty *)
Definition code (ts : list token) : value := match ts with [] => VNil | _ => VCode ts end.

(** ** Operators *)
(** the operands are the topmost values *)
Definition unary (mark : bytes) (f : value -> opres) : @Q W unit := fun s =>
  match e_stk s with
  | x :: l => (v <-- of_op (f x) ;; push v) (set_stk l s)
  | _ => inr (PUser (PvStr (SCallFn mark EStackDamaged)), s)
  end.
Definition binary (mark : bytes) (f : value -> value -> opres) : @Q W unit := fun s =>
  match e_stk s with
  | y :: x :: l => (v <-- of_op (f x y) ;; push v) (set_stk l s)
  | _ => inr (PUser (PvStr (SCallFn mark EStackDamaged)), s)
  end.
(** The three levels of operators that evaluate both operands: kind, name and function; the first binds most tightly. *)
Definition level1 : list (Z * bytes * (value -> value -> opres)) := [(42, k_mul, Mul); (47, k_quo, Quo); (37, k_mod, Mod)].
Definition level2 : list (Z * bytes * (value -> value -> opres)) := [(43, k_add, Add); (45, k_sub, Sub)].
Definition level3 : list (Z * bytes * (value -> value -> opres)) :=
  [(60, k_lt, LT); (62, k_gt, GT); (148, k_eq, EQ (l_same L)); (150, k_le, LE); (151, k_ge, GE); (149, k_ne, NE (l_same L))].
(** && and ||: the right operand is evaluated unless the left one is [stop] *)
Definition lazy_op (stop : bool) (rule m : bytes) (right : list token) : sem := fun ev _ p =>
  a <-- pop_any ;;
  match a with
  | VBool b => if Bool.eqb b stop then push (VBool stop) else evalCode ev p rule (VCode right)
  | _ => panic_str m []
  end.

(** ** Literals *)
Definition int_lit (t : token) : @Q W unit :=
  match ParseInt (tlit t) with
  | Val (inl z) => push (VInt z)
  | Val (inr e) => throw (PUser (PvStr (SBadArg k_pushi (Some e))))
  | Crash => crash
  end.
Definition float_lit (t : token) : @Q W unit :=
  match ParseFloat f_of_int (l_parse_float L) (tlit t) with
  | Val (inl f) => push (VFloat f)
  | Val (inr e) => throw (PUser (PvStr (SBadArg k_pushf (Some e))))
  | Crash => crash
  end.

(** ** Statements *)
Definition run_body (ev : evaluator) (p : nat) (b : list token) : @Q W unit := match b with [] => push VNil | _ => evalCode ev p n_docr (VCode b) end.
(** the first branch whose condition holds, or [els] *)
Fixpoint if_chain (ev : evaluator) (p : nat) (br : list (list token * list token)) (els : list token) : @Q W unit :=
  match br with
  | [] => run_body ev p els
  | (c, b) :: br' =>
      evalCode ev p n_expr (VCode c) ;;; v <-- pop_any ;;
      match v with VBool true => run_body ev p b | VBool false => if_chain ev p br' els | _ => throw_err m_ifcond end
  end.
(** the first case that equals [v], or [dflt] *)
Fixpoint cases (ev : evaluator) (p : nat) (v : value) (br : list (list token * list token)) (dflt : list token) : @Q W unit :=
  match br with
  | [] => run_body ev p dflt
  | (c, b) :: br' =>
      evalCode ev p n_expr (VCode c) ;;; w <-- pop_any ;; e <-- of_op (EQ (l_same L) v w) ;;
      match e with VBool true => run_body ev p b | _ => cases ev p v br' dflt end
  end.
Definition switch_on (ev : evaluator) (p : nat) (x : list token) (br : list (list token * list token)) (dflt : list token) : @Q W unit :=
  match x with
  | [] => cases ev p (VBool true) br dflt
  | _ => evalCode ev p n_expr (VCode x) ;;; v <-- pop_any ;; cases ev p v br dflt
  end.
(** at most [k] rounds (model only); no condition: for ever *)
Definition holds (ev : evaluator) (p : nat) (c : list token) : @Q W bool :=
  match c with
  | [] => ret true
  | _ => evalCode ev p n_s (VCode c) ;;; o <-- pop ;;
         match o with Some (VBool b) => ret b | Some _ => panic_str m_forcond [] | None => panic_str m_forcode [] end
  end.
Definition run_drop (ev : evaluator) (p : nat) (rule : bytes) (c : list token) : @Q W unit :=
  match c with [] => ret tt | _ => evalCode ev p rule (VCode c) ;;; pop ;;; ret tt end.
Fixpoint rounds (ev : evaluator) (k : nat) (p : nat) (c b st : list token) : @Q W unit :=
  match k with
  | O => no_fuel
  | S k' => h <-- holds ev p c ;; if h then run_drop ev p n_docr b ;;; run_drop ev p n_s st ;;; rounds ev k' p c b st else ret tt
  end.
Definition for_stmt (ev : evaluator) (k : nat) (p : nat) (header : list (list token)) (b : list token) : @Q W unit :=
  match header with
  | [] => rounds ev k p [] b [] ;;; push VNil
  | [c] => rounds ev k p c b [] ;;; push VNil
  | [i; c; st] => run_drop ev p n_s i ;;; rounds ev k p c b st ;;; push VNil
  | _ => (* the pieces of code stay on the stack *) fun s => throw_err m_forform (pushed_all (map code header) s)
  end.

(** names separated by commas *)
Inductive name_list : list token -> list bytes -> Prop :=
| NL_one : forall t, tkind t = IDENT -> name_list [t] [tlit t]
| NL_more : forall t1 t2 ts ns, tkind t1 = IDENT -> tkind t2 = COMMA -> name_list ts ns -> name_list (t1 :: t2 :: ts) (tlit t1 :: ns).
Inductive opt_names : list token -> list bytes -> Prop :=
| ON_none : opt_names [] []
| ON_some : forall ts ns, name_list ts ns -> opt_names ts ns.
Fixpoint put_names (ns : list bytes) : sem := match ns with [] => nop | n :: ns' => puts (VStr n) >> put_names ns' end.
(** an optional token of kind [k]; how many there are *)
Inductive opt_tok (k : Z) : list token -> nat -> Prop :=
| OT_none : opt_tok k [] 0
| OT_some : forall t, tkind t = k -> opt_tok k [t] 1.
(** members: names, and these keywords *)
Definition member_kinds : list Z := [IDENT; CLASS; NEW; RECOVER; MAIN].
Definition assign_ops : list (Z * (value -> value -> opres)) := [(132, Add); (133, Sub); (134, Mul); (135, Quo); (136, Mod)].
Definition incdec_ops : list (Z * (value -> opres)) := [(INCR, Inc); (DECR, Dec)].
(** what may not follow an identifier for it to start an expression statement *)
Definition after_name : list Z := [ASSIGN; COMMA; INCR; DECR; 132; 133; 134; 135; 136].

Definition plain_start (ts : list token) : Prop := hd_error (map tkind ts) <> Some LBRACE /\ hd_error (map tkind ts) <> Some RETURN.

(** ** The language *)
Inductive factor_is : list token -> sem -> Prop :=
| F_int : forall t, tkind t = INT -> factor_is [t] (fun _ _ _ => blame [t] (int_lit t))
| F_float : forall t, tkind t = FLOAT -> factor_is [t] (fun _ _ _ => blame [t] (float_lit t))
| F_string : forall t, tkind t = STRING -> factor_is [t] (fun _ _ _ => blame [t] (PushString L (tlit t)))
| F_char : forall t, tkind t = CHAR -> factor_is [t] (fun _ _ _ => blame [t] (PushByte L (tlit t)))
(* a name, parenthesis, function or slice with calls, members and indices *)
| F_base : forall ts c ts' c', base_is ts c -> atoms_are ts' c' -> factor_is (ts ++ ts') (c >> c')
(* if c { b } elif c { b } ... else { b } *)
| F_if : forall t c cc b bs bc els ec, tkind t = IF -> expr_is c cc -> body_is b bs bc -> forall elifs br, elifs_are elifs br -> else_is els ec ->
    factor_is (t :: c ++ b ++ elifs ++ els) (fun ev _ p => blame els (if_chain ev p ((c, bs) :: br) ec))
(* switch x { case c: b ... default: b } *)
| F_switch : forall t x xc t1 cs br d dc t2, tkind t = SWITCH -> opt_expr x xc -> hd_error (map tkind x) <> Some LBRACE -> tkind t1 = LBRACE ->
    cases_are cs br -> default_is d dc -> tkind t2 = RBRACE ->
    factor_is (t :: x ++ t1 :: cs ++ d ++ [t2]) (fun ev _ p => blame [t2] (switch_on ev p x br dc))
(* for { b }, for c { b }, for i; c; s { b } *)
| F_for : forall t hs header t1 b bc t2, tkind t = FOR -> header_is hs header -> tkind t1 = LBRACE -> opt_doc b bc -> tkind t2 = RBRACE ->
    factor_is (t :: hs ++ t1 :: b ++ [t2]) (fun ev k p => blame [t2] (for_stmt ev k p header b))
| F_new : forall t cn cc as_ ac, tkind t = NEW -> clsname_is cn cc -> newargs_are as_ ac ->
    factor_is (t :: cn ++ as_) (cc >> ac >> (fun ev _ p => blame as_ (raise (New ev p))))
| F_class : forall t t1 ms n mc t2, tkind t = CLASS -> tkind t1 = LBRACE -> methods_are ms n mc -> tkind t2 = RBRACE ->
    factor_is (t :: t1 :: ms ++ [t2]) (mc >> count n >> (fun _ _ p => blame [t2] (Class p)))
| F_recover : forall t t1 t2, tkind t = RECOVER -> tkind t1 = LPAREN -> tkind t2 = RPAREN -> factor_is [t; t1; t2] (fun _ _ p => blame [t2] (Recover p))
| F_main : forall t t1 b bc t2, tkind t = MAIN -> tkind t1 = LBRACE -> opt_doc b bc -> tkind t2 = RBRACE ->
    factor_is (t :: t1 :: b ++ [t2]) (puts (code b) >> (fun ev _ p => blame [t2] (Main ev p)))
(* { k: v, ... } *)
| F_map : forall t es n ec cm m t2, tkind t = LBRACE -> entries_are es n ec -> opt_tok COMMA cm m -> tkind t2 = RBRACE ->
    factor_is (t :: es ++ cm ++ [t2]) (ec >> count n >> (fun _ _ _ => blame [t2] (raise (VMap L))))
| F_not : forall t ts c, tkind t = BANG -> factor_is ts c -> factor_is (t :: ts) (c >> (fun _ _ _ => blame ts (unary k_not Not)))
| F_neg : forall t ts c, tkind t = MINUS -> factor_is ts c -> factor_is (t :: ts) (c >> (fun _ _ _ => blame ts (unary k_neg Neg)))
| F_pos : forall t ts c, tkind t = PLUS -> factor_is ts c -> factor_is (t :: ts) c
with base_is : list token -> sem -> Prop :=
| B_name : forall t, tkind t = IDENT -> base_is [t] (fun _ _ p => blame [t] (Ref L p (tlit t)))
| B_paren : forall t ts c t2, tkind t = LPAREN -> expr_is ts c -> tkind t2 = RPAREN -> base_is (t :: ts ++ [t2]) c
| B_fn : forall t ts c, tkind t = FN -> fnbody_is ts c -> base_is (t :: ts) (c >> (fun _ _ p => blame ts (raise (Function p))))
| B_slice : forall t es n ec cm m t2, tkind t = LBRACK -> exprs_are es n ec -> opt_tok COMMA cm m -> tkind t2 = RBRACK ->
    base_is (t :: es ++ cm ++ [t2]) (ec >> count n >> (fun _ _ _ => blame [t2] (raise VSliceLit)))
with atoms_are : list token -> sem -> Prop :=
| AT_nil : atoms_are [] nop
(* f(a, b), f(a, l...) *)
| AT_call : forall t es n ec ds d cm m t2 r rc, tkind t = LPAREN -> exprs_are es n ec -> opt_tok ELLIPSIS ds d -> opt_tok COMMA cm m -> tkind t2 = RPAREN ->
    atoms_are r rc -> atoms_are ((t :: es ++ ds ++ cm ++ [t2]) ++ r) ((ec >> count n >> count d >> (fun ev _ _ => blame [t2] (raise (QVCall L ev)))) >> rc)
| AT_member : forall t t2 r rc, tkind t = DOT -> In (tkind t2) member_kinds -> atoms_are r rc ->
    atoms_are (t :: t2 :: r) ((fun _ _ _ => blame [t2] (raise (MemberRef L (tlit t2)))) >> rc)
(* x[i], and x[i:j] in which both may be missing *)
| AT_index : forall t i ic t2 r rc, tkind t = LBRACK -> expr_is i ic -> tkind t2 = RBRACK -> atoms_are r rc ->
    atoms_are ((t :: i ++ [t2]) ++ r) ((ic >> count 1 >> count 0 >> count 0 >> (fun _ _ _ => blame [t2] (Index L))) >> rc)
| AT_range : forall t i n ic t1 j m jc t2 r rc, tkind t = LBRACK -> opt_value i n ic -> tkind t1 = COLON -> opt_value j m jc -> tkind t2 = RBRACK -> atoms_are r rc ->
    atoms_are ((t :: i ++ t1 :: j ++ [t2]) ++ r) ((ic >> count n >> count 1 >> jc >> count m >> (fun _ _ _ => blame [t2] (Index L))) >> rc)
(* * / % *)
with ops1_are : list token -> sem -> Prop :=
| O1_nil : ops1_are [] nop
| O1_op : forall t m f ts c r rc, In (tkind t, m, f) level1 -> factor_is ts c -> ops1_are r rc -> ops1_are ((t :: ts) ++ r) ((c >> (fun _ _ _ => blame ts (binary m f))) >> rc)
with term1_is : list token -> sem -> Prop :=
| T1 : forall ts c r rc, factor_is ts c -> ops1_are r rc -> term1_is (ts ++ r) (c >> rc)
(* + - *)
with ops2_are : list token -> sem -> Prop :=
| O2_nil : ops2_are [] nop
| O2_op : forall t m f ts c r rc, In (tkind t, m, f) level2 -> term1_is ts c -> ops2_are r rc -> ops2_are ((t :: ts) ++ r) ((c >> (fun _ _ _ => blame ts (binary m f))) >> rc)
with term2_is : list token -> sem -> Prop :=
| T2 : forall ts c r rc, term1_is ts c -> ops2_are r rc -> term2_is (ts ++ r) (c >> rc)
(* comparisons *)
with ops3_are : list token -> sem -> Prop :=
| O3_nil : ops3_are [] nop
| O3_op : forall t m f ts c r rc, In (tkind t, m, f) level3 -> term2_is ts c -> ops3_are r rc -> ops3_are ((t :: ts) ++ r) ((c >> (fun _ _ _ => blame ts (binary m f))) >> rc)
with term3_is : list token -> sem -> Prop :=
| T3 : forall ts c r rc, term2_is ts c -> ops3_are r rc -> term3_is (ts ++ r) (c >> rc)
(* && *)
with ops4_are : list token -> sem -> Prop :=
| O4_nil : ops4_are [] nop
| O4_op : forall t ts c r rc, tkind t = ANDAND -> term3_is ts c -> ops4_are r rc -> ops4_are ((t :: ts) ++ r) ((fun ev k p => blame ts (lazy_op false n_term3 m_and ts ev k p)) >> rc)
with term4_is : list token -> sem -> Prop :=
| T4 : forall ts c r rc, term3_is ts c -> ops4_are r rc -> term4_is (ts ++ r) (c >> rc)
(* || *)
with ops5_are : list token -> sem -> Prop :=
| O5_nil : ops5_are [] nop
| O5_op : forall t ts c r rc, tkind t = OROR -> term4_is ts c -> ops5_are r rc -> ops5_are ((t :: ts) ++ r) ((fun ev k p => blame ts (lazy_op true n_term4 m_or ts ev k p)) >> rc)
with expr_is : list token -> sem -> Prop :=
| EX : forall ts c r rc, term4_is ts c -> ops5_are r rc -> expr_is (ts ++ r) (c >> rc)
with opt_expr : list token -> sem -> Prop :=
| OE_none : opt_expr [] nop
| OE_some : forall ts c, expr_is ts c -> opt_expr ts c
with opt_value : list token -> nat -> sem -> Prop :=
| OV_none : opt_value [] 0 nop
| OV_some : forall ts c, expr_is ts c -> opt_value ts 1 c
(* expressions separated by commas *)
with exprs_are : list token -> nat -> sem -> Prop :=
| ES_none : exprs_are [] 0 nop
| ES_some : forall ts c r n rc, expr_is ts c -> more_are r n rc -> exprs_are (ts ++ r) (S n) (c >> rc)
with more_are : list token -> nat -> sem -> Prop :=
| M_nil : more_are [] 0 nop
| M_cons : forall t ts c r n rc, tkind t = COMMA -> expr_is ts c -> more_are r n rc -> more_are ((t :: ts) ++ r) (S n) (c >> rc)
with entries_are : list token -> nat -> sem -> Prop :=
| EN_none : entries_are [] 0 nop
| EN_some : forall ks kc t vs vc r n rc, expr_is ks kc -> tkind t = COLON -> expr_is vs vc -> more_entries r n rc -> entries_are ((ks ++ t :: vs) ++ r) (S n) ((kc >> vc) >> rc)
with more_entries : list token -> nat -> sem -> Prop :=
| ME_nil : more_entries [] 0 nop
| ME_cons : forall t ks kc t1 vs vc r n rc, tkind t = COMMA -> expr_is ks kc -> tkind t1 = COLON -> expr_is vs vc -> more_entries r n rc ->
    more_entries ((t :: ks ++ t1 :: vs) ++ r) (S n) ((kc >> vc) >> rc)
(* { doc }: the tokens inside *)
with body_is : list token -> list token -> sem -> Prop :=
| BD : forall t b c t2, tkind t = LBRACE -> opt_doc b c -> tkind t2 = RBRACE -> body_is (t :: b ++ [t2]) b c
with elifs_are : list token -> list (list token * list token) -> Prop :=
| EL_nil : elifs_are [] []
| EL_cons : forall t c cc b bs bc r br, tkind t = ELIF -> expr_is c cc -> body_is b bs bc -> elifs_are r br -> elifs_are ((t :: c ++ b) ++ r) ((c, bs) :: br)
with else_is : list token -> list token -> Prop :=
| EE_none : else_is [] []
| EE_some : forall t b bs bc, tkind t = ELSE -> body_is b bs bc -> else_is (t :: b) bs
with cases_are : list token -> list (list token * list token) -> Prop :=
| CS_nil : cases_are [] []
| CS_cons : forall t c cc t1 b bc r br, tkind t = CASE -> expr_is c cc -> tkind t1 = COLON -> opt_doc b bc -> cases_are r br ->
    cases_are ((t :: c ++ t1 :: b) ++ r) ((c, b) :: br)
with default_is : list token -> list token -> Prop :=
| DF_none : default_is [] []
| DF_some : forall t t1 b bc, tkind t = DEFAULT -> tkind t1 = COLON -> opt_doc b bc -> default_is (t :: t1 :: b) b
(* statements separated by semicolons, none of which starts with a brace or return *)
with header_is : list token -> list (list token) -> Prop :=
| H_none : header_is [] []
| H_some : forall s c r hs, stmt_is s c -> plain_start s -> more_header r hs -> header_is (s ++ r) (s :: hs)
with more_header : list token -> list (list token) -> Prop :=
| MH_nil : more_header [] []
| MH_cons : forall t s c r hs, tkind t = SEMI -> stmt_is s c -> plain_start s -> more_header r hs -> more_header ((t :: s) ++ r) (s :: hs)
(* (a, b...) { doc } *)
with fnbody_is : list token -> sem -> Prop :=
| FB : forall t ns names ds d t1 t2 b bc t3, tkind t = LPAREN -> opt_names ns names -> opt_tok ELLIPSIS ds d -> tkind t1 = RPAREN -> tkind t2 = LBRACE -> opt_doc b bc ->
    tkind t3 = RBRACE ->
    fnbody_is (t :: ns ++ ds ++ t1 :: t2 :: b ++ [t3]) (put_names names >> count (length names) >> count d >> puts (code b))
with clsname_is : list token -> sem -> Prop :=
| CN_name : forall t, tkind t = IDENT -> clsname_is [t] (fun _ _ p => blame [t] (Ref L p (tlit t)))
| CN_paren : forall t1 t t2, tkind t1 = LPAREN -> tkind t = IDENT -> tkind t2 = RPAREN -> clsname_is [t1; t; t2] (fun _ _ p => blame [t] (Ref L p (tlit t)))
with newargs_are : list token -> sem -> Prop :=
| NA_none : newargs_are [] (count 0)
| NA_some : forall t es n ec t2, tkind t = LPAREN -> exprs_are es n ec -> tkind t2 = RPAREN -> newargs_are (t :: es ++ [t2]) (ec >> count n >> count 1)
with methods_are : list token -> nat -> sem -> Prop :=
| MS_nil : methods_are [] 0 nop
| MS_cons : forall t tn fb fc sc k r n rc, tkind t = FN -> tkind tn = IDENT -> fnbody_is fb fc -> opt_tok SEMI sc k -> methods_are r n rc ->
    methods_are ((t :: tn :: fb ++ sc) ++ r) (S n) ((puts (VStr (tlit tn)) >> fc >> (fun _ _ p => blame sc (raise (MemberFuncDecl p)))) >> rc)
with stmt_is : list token -> sem -> Prop :=
| S_assign : forall t t1 ts c, tkind t = IDENT -> tkind t1 = ASSIGN -> expr_is ts c ->
    stmt_is (t :: t1 :: ts) (c >> (fun _ _ p => blame (t :: t1 :: ts) (raise (Assign p (tlit t)))))
| S_massign : forall t t1 ns names t2 ts c, tkind t = IDENT -> tkind t1 = COMMA -> name_list ns names -> tkind t2 = ASSIGN -> expr_is ts c ->
    stmt_is (t :: t1 :: ns ++ t2 :: ts) (puts (VStr (tlit t)) >> put_names names >> count (length names) >> c >> (fun _ _ p => blame ts (raise (MultiAssign p))))
| S_incdec : forall t t1 f, tkind t = IDENT -> In (tkind t1, f) incdec_ops -> stmt_is [t; t1] (fun _ _ p => blame [t; t1] (raise (IncDec f p (tlit t))))
| S_opassign : forall t t1 f ts c, tkind t = IDENT -> In (tkind t1, f) assign_ops -> expr_is ts c ->
    stmt_is (t :: t1 :: ts) (c >> (fun _ _ p => blame (t :: t1 :: ts) (raise (OpAssign f p (tlit t)))))
| S_return : forall t ts n c, tkind t = RETURN -> opt_value ts n c -> stmt_is (t :: ts) (c >> count n >> (fun ev _ p => blame ts (Return ev p)))
| S_defer : forall t ts c, tkind t = DEFER -> expr_is ts c -> stmt_is (t :: ts) (puts (VCode ts) >> (fun _ _ p => blame ts (Defer p)))
| S_expr : forall ts c, expr_is ts c -> stmt_is ts c
(* statements separated by semicolons; one may be missing behind a semicolon *)
with rest_is : list token -> sem -> Prop :=
| R_nil : rest_is [] nop
| R_stmt : forall t s c r rc, tkind t = SEMI -> stmt_is s c -> rest_is r rc -> rest_is ((t :: s) ++ r) (((fun _ _ p => blame [t] (Clear p)) >> c) >> rc)
| R_empty : forall t r rc, tkind t = SEMI -> hd_error (map tkind r) = None \/ hd_error (map tkind r) = Some SEMI -> rest_is r rc ->
    rest_is (t :: r) (((fun _ _ p => blame [t] (Clear p)) >> puts VNil) >> rc)
with doc_is : list token -> sem -> Prop :=
| D : forall s c r rc, stmt_is s c -> rest_is r rc -> doc_is (s ++ r) (c >> rc)
with opt_doc : list token -> sem -> Prop :=
| OD_none : opt_doc [] nop
| OD_some : forall ts c, doc_is ts c -> opt_doc ts c.

(** evaluated as one of the rules that the interpreter evaluates *)
Definition text_is (rule : bytes) (ts : list token) (c : sem) : Prop :=
  (rule = r_expr /\ expr_is ts c) \/ (rule = r_doc /\ doc_is ts c) \/ (rule = r_s /\ stmt_is ts c) \/ (rule = r_term3 /\ term3_is ts c) \/ (rule = r_term4 /\ term4_is ts c).

(** ** Evaluating a text in frame [p] *)
(** The interpreter's own state of evaluation -- whether actions are muted, and whose code is running -- is put aside. *)
Definition aside (s s' : St) : St := set_mute (e_mute s) (set_ipt (e_ipt s) s').
Definition evaluated (ev : evaluator) (k p : nat) (c : sem) (s : St) : @qres W (option panicq) :=
  match c ev k p (set_mute 0 (set_ipt p s)) with
  | inl (_, s') => inl (None, aside s s')
  | inr (e, s') => inr (e, aside s s')
  end.
End Text.
