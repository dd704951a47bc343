(** The qlang engine: the grammar of tpl/qlang/cl/qlang.go, compiled by the modelled compiler with the marker of
    tpl/interpreter, and the evaluation of code tied to it. *)
From Coq Require Import String SpecFloat.
From Verif Require Import Base Token Utf8 Scanner Tokenize Grammar Matcher PegSpec MatchProofs Compiler Interp QValue Qlang.
From Verif Require Import PropCompiler.
Local Open Scope Z_scope.

(** qlang.go:14-76 Grammar *)
Definition q_grammar : bytes := Eval vm_compute in s2b "

term1 = factor *('*' factor/mul | '/' factor/quo | '%' factor/mod)

term2 = term1 *('+' term1/add | '-' term1/sub)

term3 = term2 *('<' term2/lt | '>' term2/gt | ""=="" term2/eq | ""<="" term2/le | "">="" term2/ge | ""!="" term2/ne)

term4 = term3 *(""&&""/_mute term3/_code/_unmute/and)

expr = term4 *(""||""/_mute term4/_code/_unmute/or)

s =
	(IDENT '='! expr)/assign |
	(IDENT ','!)/name IDENT/name % ','/ARITY '=' expr /massign |
	(IDENT ""++"")/inc |
	(IDENT ""--"")/dec |
	(IDENT ""+=""! expr)/adda |
	(IDENT ""-=""! expr)/suba |
	(IDENT ""*=""! expr)/mula |
	(IDENT ""/=""! expr)/quoa |
	(IDENT ""%=""! expr)/moda |
	""return"" ?expr/ARITY /return |
	""defer""/_mute! expr/_code/_unmute/defer |
	expr

doc = s *(';'/clear s | ';'/pushn)

ifbody = '{' ?doc/_code '}'

swbody = *(""case""! expr/_code ':' ?doc/_code)/_ARITY ?(""default""! ':' ?doc/_code)/_ARITY

fnbody = '(' IDENT/name %= ','/ARITY ?""...""/ARITY ')' '{'/_mute ?doc/_code '}'/_unmute

clsname = '(' IDENT/ref ')' | IDENT/ref

newargs = ?('(' expr %= ','/ARITY ')')/ARITY

classb = ""fn""! IDENT/name fnbody ?';'/mfn

atom =
	'(' expr %= ','/ARITY ?""...""/ARITY ?',' ')'/call |
	'.' (IDENT|""class""|""new""|""recover""|""main"")/mref |
	'[' ?expr/ARITY ?':'/ARITY ?expr/ARITY ']'/index

factor =
	INT/pushi |
	FLOAT/pushf |
	STRING/pushs |
	CHAR/pushc |
	(IDENT/ref | '('! expr ')' | ""fn""! fnbody/fn | '[' expr %= ','/ARITY ?',' ']'/slice) *atom |
	""if""/_mute! expr/_code ifbody *(""elif"" expr/_code ifbody)/_ARITY ?(""else"" ifbody)/_ARITY/_unmute/if |
	""switch""/_mute! ?(~'{' expr)/_code '{' swbody '}'/_unmute/switch |
	""for""/_mute! (~'{' s)/_code %= ';'/_ARITY '{' ?doc/_code '}'/_unmute/for |
	""new""! clsname newargs /new |
	""class""! '{' *classb/ARITY '}'/class |
	""recover"" '(' ')'/recover |
	""main"" '{'/_mute ?doc/_code '}'/_unmute/main |
	'{'! (expr ':' expr) %= ','/ARITY ?',' '}'/map |
	'!' factor/not |
	'-' factor/neg |
	'+' factor
"%string.

(** Names of the rules and marks. *)
Definition r_term1 : bytes := Eval vm_compute in s2b "term1".
Definition r_term2 : bytes := Eval vm_compute in s2b "term2".
Definition r_term3 : bytes := Eval vm_compute in s2b "term3".
Definition r_term4 : bytes := Eval vm_compute in s2b "term4".
Definition r_expr : bytes := Eval vm_compute in s2b "expr".
Definition r_s : bytes := Eval vm_compute in s2b "s".
Definition r_doc : bytes := Eval vm_compute in s2b "doc".
Definition r_ifbody : bytes := Eval vm_compute in s2b "ifbody".
Definition r_swbody : bytes := Eval vm_compute in s2b "swbody".
Definition r_fnbody : bytes := Eval vm_compute in s2b "fnbody".
Definition r_clsname : bytes := Eval vm_compute in s2b "clsname".
Definition r_newargs : bytes := Eval vm_compute in s2b "newargs".
Definition r_classb : bytes := Eval vm_compute in s2b "classb".
Definition r_atom : bytes := Eval vm_compute in s2b "atom".
Definition r_factor : bytes := Eval vm_compute in s2b "factor".
Definition k_mul : bytes := Eval vm_compute in s2b "mul".
Definition k_quo : bytes := Eval vm_compute in s2b "quo".
Definition k_mod : bytes := Eval vm_compute in s2b "mod".
Definition k_add : bytes := Eval vm_compute in s2b "add".
Definition k_sub : bytes := Eval vm_compute in s2b "sub".
Definition k_lt : bytes := Eval vm_compute in s2b "lt".
Definition k_gt : bytes := Eval vm_compute in s2b "gt".
Definition k_eq : bytes := Eval vm_compute in s2b "eq".
Definition k_le : bytes := Eval vm_compute in s2b "le".
Definition k_ge : bytes := Eval vm_compute in s2b "ge".
Definition k_ne : bytes := Eval vm_compute in s2b "ne".
Definition k_and : bytes := Eval vm_compute in s2b "and".
Definition k_or : bytes := Eval vm_compute in s2b "or".
Definition k_assign : bytes := Eval vm_compute in s2b "assign".
Definition k_name : bytes := Eval vm_compute in s2b "name".
Definition k_massign : bytes := Eval vm_compute in s2b "massign".
Definition k_inc : bytes := Eval vm_compute in s2b "inc".
Definition k_dec : bytes := Eval vm_compute in s2b "dec".
Definition k_adda : bytes := Eval vm_compute in s2b "adda".
Definition k_suba : bytes := Eval vm_compute in s2b "suba".
Definition k_mula : bytes := Eval vm_compute in s2b "mula".
Definition k_quoa : bytes := Eval vm_compute in s2b "quoa".
Definition k_moda : bytes := Eval vm_compute in s2b "moda".
Definition k_return : bytes := Eval vm_compute in s2b "return".
Definition k_defer : bytes := Eval vm_compute in s2b "defer".
Definition k_clear : bytes := Eval vm_compute in s2b "clear".
Definition k_pushn : bytes := Eval vm_compute in s2b "pushn".
Definition k_ref : bytes := Eval vm_compute in s2b "ref".
Definition k_mfn : bytes := Eval vm_compute in s2b "mfn".
Definition k_call : bytes := Eval vm_compute in s2b "call".
Definition k_mref : bytes := Eval vm_compute in s2b "mref".
Definition k_index : bytes := Eval vm_compute in s2b "index".
Definition k_pushi : bytes := Eval vm_compute in s2b "pushi".
Definition k_pushf : bytes := Eval vm_compute in s2b "pushf".
Definition k_pushs : bytes := Eval vm_compute in s2b "pushs".
Definition k_pushc : bytes := Eval vm_compute in s2b "pushc".
Definition k_fn : bytes := Eval vm_compute in s2b "fn".
Definition k_slice : bytes := Eval vm_compute in s2b "slice".
Definition k_if : bytes := Eval vm_compute in s2b "if".
Definition k_switch : bytes := Eval vm_compute in s2b "switch".
Definition k_for : bytes := Eval vm_compute in s2b "for".
Definition k_new : bytes := Eval vm_compute in s2b "new".
Definition k_class : bytes := Eval vm_compute in s2b "class".
Definition k_recover : bytes := Eval vm_compute in s2b "recover".
Definition k_main : bytes := Eval vm_compute in s2b "main".
Definition k_map : bytes := Eval vm_compute in s2b "map".
Definition k_not : bytes := Eval vm_compute in s2b "not".
Definition k_neg : bytes := Eval vm_compute in s2b "neg".
Definition k_ARITY : bytes := Eval vm_compute in s2b "ARITY".
Definition k__ARITY : bytes := Eval vm_compute in s2b "_ARITY".
Definition k__code : bytes := Eval vm_compute in s2b "_code".

(** Token kinds of the keywords, in the order in which the grammar mentions them (compiler.go:16-65). *)
Definition RETURN : Z := 176. Definition DEFER : Z := 177. Definition CASE : Z := 178. Definition DEFAULT : Z := 179. Definition FN : Z := 180.
Definition CLASS : Z := 181. Definition NEW : Z := 182. Definition RECOVER : Z := 183. Definition MAIN : Z := 184. Definition IF : Z := 185.
Definition ELIF : Z := 186. Definition ELSE : Z := 187. Definition SWITCH : Z := 188. Definition FOR : Z := 189.
Definition q_keywords : list (string * Z) := [("return", RETURN); ("defer", DEFER); ("case", CASE); ("default", DEFAULT); ("fn", FN); ("class", CLASS);
  ("new", NEW); ("recover", RECOVER); ("main", MAIN); ("if", IF); ("elif", ELIF); ("else", ELSE); ("switch", SWITCH); ("for", FOR)]%string.

(** ** The compiled rules *)
Notation G := (gr bytes Empty_set).
Definition op_alt (arg : G) (o : Z * bytes) : G := GAnd [GTok (fst o); GAct arg (snd o)].
Definition gfactor : G := GVar r_factor.
Definition ops1 : list (Z * bytes) := [(42, k_mul); (47, k_quo); (37, k_mod)].
Definition ops2 : list (Z * bytes) := [(43, k_add); (45, k_sub)].
Definition ops3 : list (Z * bytes) := [(60, k_lt); (62, k_gt); (148, k_eq); (150, k_le); (151, k_ge); (149, k_ne)].
Definition d_term1 : G := GAnd [gfactor; GRep0 0 (GOr (map (op_alt gfactor) ops1))].
Definition gterm1 : G := GNamed r_term1 d_term1.
Definition d_term2 : G := GAnd [gterm1; GRep0 1 (GOr (map (op_alt gterm1) ops2))].
Definition gterm2 : G := GNamed r_term2 d_term2.
Definition d_term3 : G := GAnd [gterm2; GRep0 2 (GOr (map (op_alt gterm2) ops3))].
Definition gterm3 : G := GNamed r_term3 d_term3.
(** op/_mute arg/_code/_unmute/mark *)
Definition lazy_alt (k : Z) (arg : G) (m : bytes) : G := GAnd [GAct (GTok k) m_mute; GAct (GAct (GAct arg k__code) m_unmute) m].
Definition d_term4 : G := GAnd [gterm3; GRep0 3 (lazy_alt 143 gterm3 k_and)].
Definition gterm4 : G := GNamed r_term4 d_term4.
Definition d_expr : G := GAnd [gterm4; GRep0 4 (lazy_alt 144 gterm4 k_or)].
Definition gexpr : G := GNamed r_expr d_expr.
Definition op_assign (o : Z * bytes) : G := GAct (GAnd [GTok IDENT; GTok (fst o); GNil; gexpr]) (snd o).
Definition opassigns : list (Z * bytes) := [(132, k_adda); (133, k_suba); (134, k_mula); (135, k_quoa); (136, k_moda)].
Definition g_return : G := GAnd [GTok RETURN; GAct (GAct (GRep01 6 gexpr) k_ARITY) k_return].
Definition g_defer : G := GAnd [GAct (GTok DEFER) m_mute; GNil; GAct (GAct (GAct gexpr k__code) m_unmute) k_defer].
Definition g_massign : G :=
  GAnd [GAct (GAnd [GTok IDENT; GTok 44; GNil]) k_name; GAct (GList 5 (GAct (GTok IDENT) k_name) (GTok 44) false) k_ARITY; GTok 61; GAct gexpr k_massign].
Definition d_s : G := GOr ([op_assign (61, k_assign); g_massign; GAct (GAnd [GTok IDENT; GTok 146]) k_inc; GAct (GAnd [GTok IDENT; GTok 147]) k_dec] ++
  map op_assign opassigns ++ [g_return; g_defer; gexpr]).
Definition gs : G := GNamed r_s d_s.
Definition d_doc : G := GAnd [gs; GRep0 7 (GOr [GAnd [GAct (GTok 59) k_clear; gs]; GAct (GTok 59) k_pushn])].
Definition gdoc : G := GNamed r_doc d_doc.
(** ?doc/_code *)
Definition g_code (id : nat) : G := GAct (GRep01 id gdoc) k__code.
Definition d_ifbody : G := GAnd [GTok 123; g_code 8; GTok 125].
Definition gifbody : G := GNamed r_ifbody d_ifbody.
Definition g_case : G := GAnd [GTok CASE; GNil; GAct gexpr k__code; GTok 58; g_code 9].
Definition g_default : G := GAnd [GTok DEFAULT; GNil; GTok 58; g_code 11].
Definition d_swbody : G := GAnd [GAct (GRep0 10 g_case) k__ARITY; GAct (GRep01 12 g_default) k__ARITY].
Definition gswbody : G := GNamed r_swbody d_swbody.
Definition d_fnbody : G := GAnd [GTok 40; GAct (GList 13 (GAct (GTok IDENT) k_name) (GTok 44) true) k_ARITY; GAct (GRep01 14 (GTok 153)) k_ARITY; GTok 41;
  GAct (GTok 123) m_mute; g_code 15; GAct (GTok 125) m_unmute].
Definition gfnbody : G := GNamed r_fnbody d_fnbody.
Definition d_clsname : G := GOr [GAnd [GTok 40; GAct (GTok IDENT) k_ref; GTok 41]; GAct (GTok IDENT) k_ref].
Definition gclsname : G := GNamed r_clsname d_clsname.
(** expr %= ','/ARITY *)
Definition g_args (id : nat) : G := GAct (GList id gexpr (GTok 44) true) k_ARITY.
Definition d_newargs : G := GAct (GRep01 17 (GAnd [GTok 40; g_args 16; GTok 41])) k_ARITY.
Definition gnewargs : G := GNamed r_newargs d_newargs.
Definition d_classb : G := GAnd [GTok FN; GNil; GAct (GTok IDENT) k_name; gfnbody; GAct (GRep01 18 (GTok 59)) k_mfn].
Definition gclassb : G := GNamed r_classb d_classb.
Definition g_call : G := GAnd [GTok 40; g_args 19; GAct (GRep01 20 (GTok 153)) k_ARITY; GRep01 21 (GTok 44); GAct (GTok 41) k_call].
Definition g_mref : G := GAnd [GTok 46; GAct (GOr [GTok IDENT; GTok CLASS; GTok NEW; GTok RECOVER; GTok MAIN]) k_mref].
Definition g_index : G := GAnd [GTok 91; GAct (GRep01 22 gexpr) k_ARITY; GAct (GRep01 23 (GTok 58)) k_ARITY; GAct (GRep01 24 gexpr) k_ARITY; GAct (GTok 93) k_index].
Definition d_atom : G := GOr [g_call; g_mref; g_index].
Definition gatom : G := GNamed r_atom d_atom.
Definition g_paren : G := GAnd [GTok 40; GNil; gexpr; GTok 41].
Definition g_fn : G := GAnd [GTok FN; GNil; GAct gfnbody k_fn].
Definition g_slice : G := GAnd [GTok 91; g_args 25; GRep01 26 (GTok 44); GAct (GTok 93) k_slice].
Definition g_base : G := GOr [GAct (GTok IDENT) k_ref; g_paren; g_fn; g_slice].
Definition g_elif : G := GAnd [GTok ELIF; GAct gexpr k__code; gifbody].
Definition g_if : G := GAnd [GAct (GTok IF) m_mute; GNil; GAct gexpr k__code; gifbody; GAct (GRep0 28 g_elif) k__ARITY;
  GAct (GAct (GAct (GRep01 29 (GAnd [GTok ELSE; gifbody])) k__ARITY) m_unmute) k_if].
Definition g_switch : G := GAnd [GAct (GTok SWITCH) m_mute; GNil; GAct (GRep01 30 (GAnd [GNot (GTok 123); gexpr])) k__code; GTok 123; gswbody;
  GAct (GAct (GTok 125) m_unmute) k_switch].
Definition g_for : G := GAnd [GAct (GTok FOR) m_mute; GNil; GAct (GList 31 (GAct (GAnd [GNot (GTok 123); gs]) k__code) (GTok 59) true) k__ARITY; GTok 123;
  g_code 32; GAct (GAct (GTok 125) m_unmute) k_for].
Definition g_new : G := GAnd [GTok NEW; GNil; gclsname; GAct gnewargs k_new].
Definition g_class : G := GAnd [GTok CLASS; GNil; GTok 123; GAct (GRep0 33 gclassb) k_ARITY; GAct (GTok 125) k_class].
Definition g_recover : G := GAnd [GTok RECOVER; GTok 40; GAct (GTok 41) k_recover].
Definition g_main : G := GAnd [GTok MAIN; GAct (GTok 123) m_mute; g_code 34; GAct (GAct (GTok 125) m_unmute) k_main].
Definition g_map : G := GAnd [GTok 123; GNil; GAct (GList 35 (GAnd [gexpr; GTok 58; gexpr]) (GTok 44) true) k_ARITY; GRep01 36 (GTok 44); GAct (GTok 125) k_map].
Definition d_factor : G := GOr [GAct (GTok INT) k_pushi; GAct (GTok FLOAT) k_pushf; GAct (GTok STRING) k_pushs; GAct (GTok CHAR) k_pushc;
  GAnd [g_base; GRep0 27 gatom]; g_if; g_switch; g_for; g_new; g_class; g_recover; g_main; g_map;
  GAnd [GTok 33; GAct gfactor k_not]; GAnd [GTok 45; GAct gfactor k_neg]; GAnd [GTok 43; gfactor]].
Definition q_grams : list (bytes * G) := [(r_term1, d_term1); (r_term2, d_term2); (r_term3, d_term3); (r_term4, d_term4); (r_expr, d_expr); (r_s, d_s);
  (r_doc, d_doc); (r_ifbody, d_ifbody); (r_swbody, d_swbody); (r_fnbody, d_fnbody); (r_clsname, d_clsname); (r_newargs, d_newargs); (r_classb, d_classb); (r_atom, d_atom)].
(** the tokener after compiling *)
Definition q_akw : akw := mkKw (map (fun k => (34 :: s2b (fst k)) ++ [34]) q_keywords) (Some (rev (map (fun k => (s2b (fst k), snd k)) q_keywords))).
(** the compiling result *)
Definition q_dst : dst bytes Empty_set unit := mkD q_grams [(r_factor, d_factor)] (AutoKw q_akw) 37 tt.

(** interpreter.New compiles the grammar to these rules, whatever the libraries, the evaluator and the classes of non-ASCII characters *)
Lemma q_compiled : forall (W : Type) (L : qlib W) ev k isL isD old,
  compiles_to (imarker (fntable L ev k) t_stack t_ipt) isL isD (AutoKw new_akw) old tt q_grammar (ClOk d_doc q_dst).
Proof.
  intros W L ev k isL isD old. apply (compiles_run _ _ _ _ _ _ _ 300); [|discriminate].
  vm_cast_no_check (@eq_refl (clres bytes Empty_set mpan unit) (ClOk d_doc q_dst)).
Qed.

(** ** The evaluator *)
Section Top.
Context {W : Type}.
Variable L : qlib W.
Notation qst := (est nat value (@rest W)).
(** the client of the engine, for an evaluator [ev]; [k] bounds the rounds of for loops *)
Definition q_client (ev : nat -> bytes -> value -> Q (option panicq)) (k : nat) : uclient bytes Empty_set (pv value) qst unit :=
  iclient emb q_pushret q_to_float f_of_int (l_parse_float L) (fntable L ev k) t_stack t_ipt None.
Definition e_nogram : panicq := PUser (PvErr (EOther (VMsg (s2b "grammar not found: %s") []))).
Definition e_nosrc : panicq := PUser (PvErr (EOther (VMsg (s2b "unsupported source type") []))).
(** interpreter.go:349-358 EvalCode on the compiled grammar, tied: [n] bounds the depth of nested evaluations and of
    matching, and the rounds of for loops.  Code is always a token slice or nil (what /_code pushes); EvalSub of nil is an
    error (compiler.go:109-111).  The len fields that nested matching writes are not passed on: they are always written
    before they are read. *)
Fixpoint ev (n : nat) (p : nat) (rule : bytes) (code : value) : Q (option panicq) := fun s =>
  match n with
  | O => no_fuel s
  | S n' =>
      match code with
      | VCode ts =>
          match EvalCode emb q_pushret q_to_float f_of_int (l_parse_float L) (fntable L (ev n') n') t_stack t_ipt None q_dst n' p rule ts (mkSt (fun _ => 0) s) with
          | MNil s' | MNext _ s' => inl (None, ust s')
          | MFail e s' => inl (Some (PMatch e), ust s')
          | MNoGrammar s' | MTokErr _ s' => inl (Some e_nogram, ust s')
          | MPanic p s' => inr (p, ust s')
          | MFuel => no_fuel s
          end
      | _ => inl (Some e_nosrc, s)
      end
  end.

(** ** engine.go *)
Variables isL isD : Z -> bool.
(** engine.go:35-38 Exec: MatchExactly; the engine's Interpreter is the outermost frame.  inl: nil or the error returned; inr: a panic *)
Definition Exec (n : nat) (semis : bool) (old : sc) (src : bytes) (s : qst) : (option (panicq + (nat * smsg)) * qst) + (panicq * qst) :=
  match MatchExactly (cenv q_dst) (lift (q_client (ev n) n)) isL isD false semis iinit n d_doc (AutoKw q_akw) old src (mkSt (fun _ => 0) s) with
  | MNil s' | MNext _ s' | MNoGrammar s' => inl (None, ust s')
  | MTokErr e s' => inl (Some (inr e), ust s')
  | MFail e s' => inl (Some (inl (PMatch e)), ust s')
  | MPanic p s' => inr (p, ust s')
  | MFuel => inr (PUser PvFuel, s)
  end.
(** what errors.New and the error interface make of a panic value: the error SafeExec returns; None: it is neither a string
    nor an error *)
Definition as_error (e : panicq) : option panicq := match e with PUser (PvOther _) => None | _ => Some e end.
(** engine.go:40-59 SafeExec: the deferred function runs whether MatchExactly returned or panicked *)
Definition SafeExec (n : nat) (semis : bool) (old : sc) (src : bytes) (s : qst) : (option (panicq + (nat * smsg)) * qst) + (panicq * qst) :=
  let finish (recov : option panicq) (err : option (panicq + (nat * smsg))) (s1 : qst) :=
    match ExecDefers (ev n) 0 (updf 0 (set_recov recov) s1) with
    | inr r => inr r
    | inl (_, s2) =>
        match fr_recov (getf 0 s2) with
        | None => inl (err, s2)
        | Some e => match as_error e with Some e' => inl (Some (inl e'), s2) | None => inr (e, s2) end
        end
    end in
  match Exec n semis old src s with
  | inl (err, s1) => finish None err s1
  | inr (e, s1) => if uncatchable e then inr (e, s1) else finish (Some e) None s1
  end.
(** engine.go:25-33 New *)
Definition q_start (w : W) : qst := mkE 0 0%nat [] (mkRest [frame0] [] 0 [] w).
End Top.
