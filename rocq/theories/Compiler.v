(** Model of tpl/compiler.go: Compiler.Cl, run by the modelled Matcher on its own meta grammar, and
    CompileRet.EvalSub (below). *)
From Coq Require Import String.
From Verif Require Import Base Token Utf8 Scanner Tokenize Grammar Matcher.

(** Reading a Go map from names. *)
Fixpoint find {X : Type} (n : bytes) (m : list (bytes * X)) : option X :=
  match m with
  | [] => None
  | (k, v) :: m' => if beq n k then Some v else find n m'
  end.
(** m[n] = v for a key that is present. *)
Fixpoint update {X : Type} (n : bytes) (v : X) (m : list (bytes * X)) : list (bytes * X) :=
  match m with
  | [] => []
  | (k, w) :: m' => if beq n k then (k, v) :: m' else (k, w) :: update n v m'
  end.

(** The action functions of Cl (compiler.go:161-307). *)
Inductive cact : Type :=
| CList | CList0 | CMark | CAnd | COr | CAssign | CIdent | CGr | CGrTrue | CGrNil
| CRepeat0 | CRepeat1 | CRepeat01 | CNot | CPeek.

(** The meta grammar, compiler.go:309-342.  The grammar objects with a len field get the identities 0-3. *)
Definition v_factor : bytes := Eval vm_compute in s2b "factor".
Definition mgr := gr cact Empty_set.
Definition m_factor : mgr := GVar v_factor.
(** compiler.go:311-315 *)
Definition m_suffix : mgr := GOr [
  GAnd [GTok 37; GAct m_factor CList];
  GAnd [GTok REM_ASSIGN; GAct m_factor CList0];
  GAnd [GTok 47; GAct (GTok IDENT) CMark]].
Definition m_term : mgr := GAnd [m_factor; GRep0 0 m_suffix].
(** compiler.go:317 *)
Definition m_item : mgr := GOr [m_term; GAct (GTok 33) CGrNil].
Definition m_expr : mgr := GAct (GRep1 1 m_item) CAnd.
(** compiler.go:319 *)
Definition m_grammar : mgr := GAct (GList 2 m_expr (GTok 124) false) COr.
(** compiler.go:321-323 *)
Definition m_rule : mgr := GAct (GAnd [GTok IDENT; GTok 61; m_grammar; GTok 59]) CAssign.
Definition m_doc : mgr := GRep1 3 m_rule.
(** compiler.go:325-336 *)
Definition m_factor_def : mgr := GOr [
  GAct (GTok IDENT) CIdent;
  GAct (GTok CHAR) CGr;
  GAct (GTok STRING) CGr;
  GAct (GTok INT) CGrTrue;
  GAnd [GTok 42; GAct m_factor CRepeat0];
  GAnd [GTok 43; GAct m_factor CRepeat1];
  GAnd [GTok 63; GAct m_factor CRepeat01];
  GAnd [GTok 126; GAct m_factor CNot];
  GAnd [GTok 64; GAct m_factor CPeek];
  GAnd [GTok 40; m_grammar; GTok 41]].
Definition meta_env (v : bytes) : option mgr := if beq v v_factor then Some m_factor_def else None.

Section Compiler.
(** Types of the actions and transactions the user's Marker attaches, of its panic values and its state. *)
Context {A T PM M : Type}.
Notation G := (gr A T).
(** p.Marker (compiler.go:182-185; nilMarker returns g): the replaced grammar, or a panic. *)
Variable marker : G -> bytes -> M -> (G * M) + (PM * M).

(** Panics of the actions. *)
Inductive cpan : Type :=
| CPIllegal (name : bytes)        (* "illegal token: " + name, compiler.go:234, 256, 264 *)
| CPAssigned (name : bytes)       (* ErrVarAssigned, compiler.go:218 *)
| CPExists (name : bytes)         (* "grammar already exists: " + name, compiler.go:221 *)
| CPMarker (p : PM)
| CPCrash.                        (* run-time panic: index out of range, nil map *)

(** What Cl's closures share besides the stack: grammars, vars (GNil: not assigned), the tokener, the number of
    objects created so far, the Marker's own state. *)
Record dst : Type := mkD { d_grams : list (bytes * G); d_vars : list (bytes * G); d_tk : tokener; d_fresh : nat; d_m : M }.
(** ... with the stack, top first. *)
Record cst : Type := mkC { stk : list G; cd : dst }.

Definition add_gram (n : bytes) (g : G) (d : dst) : dst := mkD (d_grams d ++ [(n, g)]) (d_vars d) (d_tk d) (d_fresh d) (d_m d).
Definition add_var (n : bytes) (d : dst) : dst := mkD (d_grams d) (d_vars d ++ [(n, GNil)]) (d_tk d) (d_fresh d) (d_m d).
Definition set_var (n : bytes) (g : G) (d : dst) : dst := mkD (d_grams d) (update n g (d_vars d)) (d_tk d) (d_fresh d) (d_m d).
Definition set_tk (k : tokener) (d : dst) : dst := mkD (d_grams d) (d_vars d) k (d_fresh d) (d_m d).
Definition set_m (m : M) (d : dst) : dst := mkD (d_grams d) (d_vars d) (d_tk d) (d_fresh d) m.
(** a new object with a len field *)
Definition new_obj (d : dst) : nat * dst := (d_fresh d, mkD (d_grams d) (d_vars d) (d_tk d) (S (d_fresh d)) (d_m d)).

Definition cres : Type := cst + (pan cact Empty_set cpan * cst).
Definition ok (x : cst) : cres := inl x.
Definition crash (p : cpan) (x : cst) : cres := inr (PUser p, x).

(** stk[n-1] = f(stk[n-1]) (repeat0 etc., compiler.go:273-307) *)
Definition unary (f : nat -> G -> G) (fresh : bool) (x : cst) : cres :=
  match stk x with
  | a :: s => if fresh then let (i, d) := new_obj (cd x) in ok (mkC (f i a :: s) d) else ok (mkC (f 0%nat a :: s) (cd x))
  | [] => crash CPCrash x
  end.
(** compiler.go:170-180 list, list0 *)
Definition c_list (l0 : bool) (x : cst) : cres :=
  match stk x with
  | b :: a :: s => let (i, d) := new_obj (cd x) in ok (mkC (GList i a b l0 :: s) d)
  | _ => crash CPCrash x
  end.
(** compiler.go:193-211 and, or: m = g.Len() *)
Definition c_multi (mk : list G -> G) (m : Z) (x : cst) : cres :=
  if m =? 1 then ok x
  else if (m <? 1) || (Z.of_nat (length (stk x)) <? m) then crash CPCrash x
  else let k := Z.to_nat m in ok (mkC (mk (rev (firstn k (stk x))) :: skipn k (stk x)) (cd x)).
Definition is_nil (g : G) : bool := match g with GNil => true | _ => false end.
(** compiler.go:213-226 assign *)
Definition c_assign (name : bytes) (x : cst) : cres :=
  match stk x with
  | a :: s =>
      let d := cd x in
      match find name (d_vars d) with
      | Some e => if is_nil e then ok (mkC s (set_var name a d)) else crash (CPAssigned name) x
      | None =>
          match find name (d_grams d) with
          | Some _ => crash (CPExists name) x
          | None => ok (mkC s (add_gram name a d))
          end
      end
  | [] => crash CPCrash x
  end.
(** Gr(scanner.Ltot(name)), compiler.go:232-236, 253-258 *)
Definition c_token (name : bytes) (x : cst) : cres :=
  match tk_ltot (d_tk (cd x)) name with
  | Crash => crash CPCrash x
  | Val (tok, k) =>
      let d := set_tk k (cd x) in
      if tok =? ILLEGAL then crash (CPIllegal name) (mkC (stk x) d) else ok (mkC (GTok tok :: stk x) d)
  end.
Definition n_true : bytes := Eval vm_compute in s2b "true".
Definition n_doc : bytes := Eval vm_compute in s2b "doc".
(** compiler.go:228-250 ident *)
Definition c_ident (name : bytes) (x : cst) : cres :=
  match name with
  | [] => crash CPCrash x
  | ch :: _ =>
      if (65 <=? ch) && (ch <=? 90) then c_token name x
      else
        let d := cd x in
        match find name (d_grams d) with
        | Some g2 => ok (mkC (GNamed name g2 :: stk x) d)
        | None =>
            match find name (d_vars d) with
            | Some _ => ok (mkC (GVar name :: stk x) d)
            | None =>
                if beq name n_true then ok (mkC (GTrue :: stk x) d)
                else ok (mkC (GVar name :: stk x) (add_var name d))
            end
        end
  end.
(** tokens[0].Literal *)
Definition lit0 (ts : list token) : bytes := match ts with t :: _ => tlit t | [] => [] end.

(** The action functions; [l] is g.Len(). *)
Definition c_action (a : cact) (ts : list token) (l : Z) (x : cst) : cres :=
  match a with
  | CList => c_list false x
  | CList0 => c_list true x
  | CMark =>                                                             (* compiler.go:187-191 *)
      match stk x with
      | g :: s =>
          match marker g (lit0 ts) (d_m (cd x)) with
          | inl (g', m) => ok (mkC (g' :: s) (set_m m (cd x)))
          | inr (p, m) => crash (CPMarker p) (mkC (stk x) (set_m m (cd x)))
          end
      | [] => crash CPCrash x
      end
  | CAnd => c_multi (fun gs => GAnd gs) l x
  | COr => c_multi (fun gs => GOr gs) l x
  | CAssign => c_assign (lit0 ts) x
  | CIdent => c_ident (lit0 ts) x
  | CGr => c_token (lit0 ts) x
  | CGrTrue => if beq (lit0 ts) [49] then ok (mkC (GTrue :: stk x) (cd x)) else crash (CPIllegal (lit0 ts)) x   (* compiler.go:262-267 *)
  | CGrNil => ok (mkC (GNil :: stk x) (cd x))                            (* compiler.go:269-271 *)
  | CRepeat0 => unary (fun i g => GRep0 i g) true x
  | CRepeat1 => unary (fun i g => GRep1 i g) true x
  | CRepeat01 => unary (fun i g => GRep01 i g) true x
  | CNot => unary (fun _ g => GNot g) false x
  | CPeek => unary (fun _ g => GPeek g) false x
  end.

Definition cclient : uclient cact Empty_set cpan cst unit :=
  mkUclient c_action (fun t _ => match t with end) (fun t _ _ _ => match t with end).

(** Result of Cl. *)
Inductive clres : Type :=
| ClOk (root : G) (d : dst)                     (* Grammar, and Grammars, Vars in d *)
| ClTokErr (e : nat * smsg)                     (* TokenizeError *)
| ClMatchErr (e : merr cact Empty_set)          (* MatchError *)
| ClNoDoc                                       (* ErrNoDoc *)
| ClUnassigned (names : list bytes)             (* "variable `x` is not assigned" for one of the names *)
| ClPanic (p : pan cact Empty_set cpan)
| ClFuel.                                       (* model only *)

Definition unassigned (d : dst) : list bytes := map fst (filter (fun p => is_nil (snd p)) (d_vars d)).
(** compiler.go:344-360 *)
Definition cl_finish (d : dst) : clres :=
  match find n_doc (d_grams d) with
  | Some root => match unassigned d with [] => ClOk root d | ns => ClUnassigned ns end
  | None => ClNoDoc
  end.

Variables isL isD : Z -> bool.
Definition cst0 (tk : tokener) (m : M) : st cst := mkSt (fun _ => 0) (mkC [] (mkD [] [] (tk_init tk) 0 m)).

(** compiler.go:155-361 Cl, with Scanner = tk (a nil Scanner is a new AutoKwScanner). *)
Definition Cl (fuel : nat) (tk : tokener) (old : sc) (m : M) (src : bytes) : clres :=
  match MatchExactly meta_env (lift cclient) isL isD false true (fun s => s) fuel m_doc tk old src (cst0 tk m) with
  | MNil s => cl_finish (cd (ust s))
  | MTokErr e _ => ClTokErr e
  | MFail e _ => ClMatchErr e
  | MPanic p _ => ClPanic p
  | _ => ClFuel
  end.

(** Rule variables of the result: *GrVar with a nil Elem is not assigned. *)
Definition cenv (d : dst) (v : bytes) : option G :=
  match find v (d_vars d) with Some GNil => None | Some g => Some g | None => None end.
End Compiler.
Arguments dst : clear implicits.
Arguments cst : clear implicits.
Arguments clres : clear implicits.
Arguments cpan : clear implicits.

(** ** CompileRet *)
Section EvalSub.
Context {A T P U V M : Type}.
(** the compiling result; its grammars run in the rule environment [cenv d] *)
Variable d : dst A T M.
Variable c : client A T P U V.
Variables isL isD : Z -> bool.
Variables mComments mSemis : bool.
Variable minit : st U -> st U.
(** compiler.go:76-93 EvalSub of a []Token: runs Init. *)
Definition EvalSubTokens (fuel : nat) (name : bytes) (doc : list token) (s : st U) : mout :=
  match find name (d_grams d) with
  | None => MNoGrammar s
  | Some g =>
      match gmatch (cenv d) c fuel g doc (minit s) with
      | Ret n None s' => if (length doc =? n)%nat then MNil s' else MFail (MErr GEOF doc None 0) s'
      | Ret _ (Some e) s' => MFail e s'
      | Panic p s' => MPanic p s'
      | OutOfFuel => MFuel
      end
  end.
(** compiler.go:94-108 EvalSub of a string or []byte: a new Matcher without Init, sharing the scanner. *)
Definition EvalSubText (fuel : nat) (tk : tokener) (old : sc) (name : bytes) (text : bytes) (s : st U) : mout :=
  match find name (d_grams d) with
  | None => MNoGrammar s
  | Some g => MatchExactly (cenv d) c isL isD mComments mSemis (fun s => s) fuel g tk old text s
  end.
End EvalSub.
