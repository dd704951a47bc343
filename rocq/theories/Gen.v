(** Model of tpl/generator/static_parser_gen.go: GenStaticCode. *)
From Coq Require Import String.
From Verif Require Import Base Token Utf8 Scanner Tokenize Grammar Matcher Compiler.
Local Open Scope Z_scope.

(** What the closures of GenStaticCode share (static_parser_gen.go:12-15): grammars, vars, the scanner; with the stack of
    expression texts, top first. *)
Record gdst : Type := mkGd { g_grams : list (bytes * bytes); g_vars : list (bytes * bytes); g_tk : tokener }.
Record gst : Type := mkGs { gstk : list bytes; gd : gdst }.
Definition gpan : Type := cpan Empty_set.
Definition gres : Type := gst + (pan cact Empty_set gpan * gst).
Definition g_ok (x : gst) : gres := inl x.
Definition g_crash (p : gpan) (x : gst) : gres := inr (PUser p, x).

(** f(a), as fmt.Sprintf writes it *)
Definition app1 (f : bytes) (a : bytes) : bytes := f ++ [40] ++ a ++ [41].
(** f(a,b) *)
Definition app2 (f : bytes) (a b : bytes) : bytes := f ++ [40] ++ a ++ [44] ++ b ++ [41].
(** strings.Join(l, ",") *)
Fixpoint commas (l : list bytes) : bytes := match l with [] => [] | [a] => a | a :: l' => a ++ [44] ++ commas l' end.
Definition x_list : bytes := Eval vm_compute in s2b "tpl.List".
Definition x_list0 : bytes := Eval vm_compute in s2b "tpl.List0".
Definition x_marker : bytes := Eval vm_compute in s2b "cmplr.Marker".
Definition x_and : bytes := Eval vm_compute in s2b "tpl.And".
Definition x_or : bytes := Eval vm_compute in s2b "tpl.Or".
Definition x_gr : bytes := Eval vm_compute in s2b "tpl.Gr".
Definition x_tpl : bytes := Eval vm_compute in s2b "tpl.".
Definition x_string : bytes := Eval vm_compute in s2b "tpl.STRING".
Definition x_true : bytes := Eval vm_compute in s2b "tpl.GrTrue".
Definition x_nil : bytes := Eval vm_compute in s2b "nil".
Definition x_rep0 : bytes := Eval vm_compute in s2b "tpl.Repeat0".
Definition x_rep1 : bytes := Eval vm_compute in s2b "tpl.tpl.Repeat1".
Definition x_rep01 : bytes := Eval vm_compute in s2b "tpl.Repeat01".
Definition x_not : bytes := Eval vm_compute in s2b "tpl.Not".
Definition x_peek : bytes := Eval vm_compute in s2b "tpl.Peek".
Definition x_assign : bytes := Eval vm_compute in s2b ".Assign".

(** stk[n-1] = f(stk[n-1]): static_parser_gen.go:123-151 repeat0, repeat1, repeat01, not, peek *)
Definition g_unary (f : bytes) (x : gst) : gres :=
  match gstk x with a :: s => g_ok (mkGs (app1 f a :: s) (gd x)) | [] => g_crash CPCrash x end.
(** static_parser_gen.go:16-27 list, list0 *)
Definition g_list (f : bytes) (x : gst) : gres :=
  match gstk x with b :: a :: s => g_ok (mkGs (app2 f a b :: s) (gd x)) | _ => g_crash CPCrash x end.
(** static_parser_gen.go:34-51 and, or: m = g.Len() *)
Definition g_multi (f : bytes) (m : Z) (x : gst) : gres :=
  if m =? 1 then g_ok x
  else if (m <? 1) || (Z.of_nat (length (gstk x)) <? m) then g_crash CPCrash x
  else let k := Z.to_nat m in g_ok (mkGs (app1 f (commas (rev (firstn k (gstk x)))) :: skipn k (gstk x)) (gd x)).
(** m[n] = v *)
Definition put_key (n v : bytes) (m : list (bytes * bytes)) : list (bytes * bytes) :=
  match find n m with Some _ => update n v m | None => m ++ [(n, v)] end.
(** static_parser_gen.go:52-64 assign *)
Definition g_assign (name : bytes) (x : gst) : gres :=
  match gstk x with
  | a :: s =>
      let d := gd x in
      match find name (g_vars d) with
      | Some _ => g_ok (mkGs s (mkGd (g_grams d) (put_key name (app1 (name ++ x_assign) a) (g_vars d)) (g_tk d)))
      | None =>
          match find name (g_grams d) with
          | Some _ => g_crash (CPExists name) x
          | None => g_ok (mkGs s (mkGd (put_key name a (g_grams d)) (g_vars d) (g_tk d)))
          end
      end
  | [] => g_crash CPCrash x
  end.
(** scanner.Ltot(name), then [text] is pushed: static_parser_gen.go:69-79 (a capitalized name never begins with a quote),
    96-103 gr, 104-111 grString *)
Definition g_token (name text : bytes) (x : gst) : gres :=
  match tk_ltot (g_tk (gd x)) name with
  | Crash => g_crash CPCrash x
  | Val (tok, k) =>
      let d := mkGd (g_grams (gd x)) (g_vars (gd x)) k in
      if tok =? ILLEGAL then g_crash (CPIllegal name) (mkGs (gstk x) d) else g_ok (mkGs (text :: gstk x) d)
  end.
(** static_parser_gen.go:65-94 ident *)
Definition g_ident (name : bytes) (x : gst) : gres :=
  match name with
  | [] => g_crash CPCrash x
  | ch :: _ =>
      if (65 <=? ch) && (ch <=? 90) then g_token name (app1 x_gr (x_tpl ++ name)) x
      else
        let d := gd x in
        match find name (g_grams d) with
        | Some _ => g_ok (mkGs (name :: gstk x) d)
        | None =>
            match find name (g_vars d) with
            | Some s => g_ok (mkGs (s :: gstk x) d)
            | None =>
                let s := if beq name n_true then x_true else name in
                g_ok (mkGs (s :: gstk x) (mkGd (g_grams d) (put_key name s (g_vars d)) (g_tk d)))
            end
        end
  end.
(** The actions are attached as in Cl (static_parser_gen.go:153-180 and compiler.go:309-342 are the same grammar), except that
    a STRING has its own, grString; here it shares CGr and is told by the kind of the token. *)
Definition g_action (a : cact) (ts : list token) (l : Z) (x : gst) : gres :=
  match a with
  | CList => g_list x_list x
  | CList0 => g_list x_list0 x
  | CMark =>                                                             (* static_parser_gen.go:29-33 *)
      match gstk x with
      | g :: s => g_ok (mkGs (app2 x_marker g ([34] ++ lit0 ts ++ [34]) :: s) (gd x))
      | [] => g_crash CPCrash x
      end
  | CAnd => g_multi x_and l x
  | COr => g_multi x_or l x
  | CAssign => g_assign (lit0 ts) x
  | CIdent => g_ident (lit0 ts) x
  | CGr => g_token (lit0 ts) (if match ts with t :: _ => tkind t =? STRING | [] => false end then app1 x_gr x_string else app1 x_gr (lit0 ts)) x
  | CGrTrue => if beq (lit0 ts) [49] then g_ok (mkGs (x_true :: gstk x) (gd x)) else g_crash (CPIllegal (lit0 ts)) x   (* static_parser_gen.go:112-117 *)
  | CGrNil => g_ok (mkGs (x_nil :: gstk x) (gd x))                       (* static_parser_gen.go:119-121 *)
  | CRepeat0 => g_unary x_rep0 x
  | CRepeat1 => g_unary x_rep1 x
  | CRepeat01 => g_unary x_rep01 x
  | CNot => g_unary x_not x
  | CPeek => g_unary x_peek x
  end.
Definition gclient : uclient cact Empty_set gpan gst unit :=
  mkUclient g_action (fun t _ => match t with end) (fun t _ _ _ => match t with end).

(** Result of GenStaticCode: the expressions of the rules, from which [gen_output] makes the text, or an error or panic. *)
Inductive genres : Type :=
| GenOk (vars grams : list (bytes * bytes))
| GenTokErr (e : nat * smsg)
| GenMatchErr (e : merr cact Empty_set)
| GenNoDoc
| GenPanic (p : pan cact Empty_set gpan)
| GenFuel.                                       (* model only *)
Definition gen_finish (d : gdst) : genres :=
  match find n_doc (g_grams d) with Some _ => GenOk (g_vars d) (g_grams d) | None => GenNoDoc end.
(** static_parser_gen.go:11-236; the scanner is a new AutoKwScanner *)
Definition GenStaticCode (isL isD : Z -> bool) (fuel : nat) (old : sc) (src : bytes) : genres :=
  let tk := AutoKw (mkKw [] None) in
  match MatchExactly meta_env (lift gclient) isL isD false true (fun s => s) fuel m_doc tk old src (mkSt (fun _ => 0) (mkGs [] (mkGd [] [] (tk_init tk)))) with
  | MNil s => gen_finish (gd (ust s))
  | MTokErr e _ => GenTokErr e
  | MFail e _ => GenMatchErr e
  | MPanic p _ => GenPanic p
  | _ => GenFuel
  end.
(** The text, static_parser_gen.go:191-233, when the maps are iterated in the orders [vs] and [gs]. *)
Definition nl : bytes := [10].
Definition decl_line (t : bytes) (n : bytes) : bytes := n ++ s2b " = new(tpl." ++ t ++ s2b ")" ++ nl.
Definition var_line (p : bytes * bytes) : bytes := s2b "// GrVar " ++ fst p ++ nl ++ snd p ++ nl.
Definition named_line (p : bytes * bytes) : bytes := s2b "// GrNamed " ++ fst p ++ nl ++ fst p ++ s2b ".Assign(" ++ [34] ++ fst p ++ [34] ++ s2b ", " ++ snd p ++ s2b ")" ++ nl.
Definition gen_head : bytes := Eval vm_compute in
  nl ++ s2b "type StaticCompiler struct {" ++ nl ++ [9] ++ s2b "Grammar  string" ++ nl ++ [9] ++ s2b "Marker   func(g tpl.Grammar, mark string) tpl.Grammar" ++ nl
  ++ [9] ++ s2b "Init     func()" ++ nl ++ [9] ++ s2b "Scanner  tpl.Tokener" ++ nl ++ [9] ++ s2b "ScanMode tpl.ScanMode" ++ nl ++ s2b "}" ++ nl
  ++ s2b "func(cmplr *StaticCompiler)Cl()tpl.CompileRet{" ++ nl.
Definition gen_tail : bytes := Eval vm_compute in
  s2b "ret := tpl.CompileRet{}" ++ nl ++ s2b "ret.Matcher = &tpl.Matcher{" ++ nl ++ [9; 9] ++ s2b "Grammar: doc," ++ nl ++ [9; 9] ++ s2b "Scanner: cmplr.Scanner," ++ nl
  ++ [9; 9] ++ s2b "Init: cmplr.Init," ++ nl ++ [9] ++ s2b "}" ++ nl ++ s2b "return ret}" ++ nl.
Definition gen_output (vs gs : list (bytes * bytes)) : bytes :=
  gen_head ++ s2b "var (" ++ nl ++ flat_map (fun p => decl_line (s2b "GrVar") (fst p)) vs ++ flat_map (fun p => decl_line (s2b "GrNamed") (fst p)) gs ++ s2b ")" ++ nl
  ++ flat_map var_line vs ++ flat_map named_line gs ++ gen_tail.
