(** Programs with functions: as in QWhile, with functions made, passed around, called in expressions and left by return; deferred
    expressions, panic and recover(); and slices made and indexed.  How they are written and what they do to the variables of the calls
    made so far.  The specification for Property C94: it knows nothing of the stack, of evaluating pieces of code, nor of the grammar.
    Left out: return and defer outside any function (Property C79), calls of library functions other than panic, of methods and of
    classes (Properties C55, C73), panic of objects, indices of what is no slice and no string. *)
From Coq Require Import String SpecFloat.
From Verif Require Import Base Token Scanner Tokenize Grammar Interp QValue Qlang QlangSpec QlangTop QText QExpr QEmbed QWhile.
Local Open Scope Z_scope.

Inductive fx : Type :=
| YLit (v : value)
| YVar (n : bytes)
| YUn (f : value -> opres) (e : fx)
| YBin (f : value -> value -> opres) (a b : fx)
| YAnd (a b : fx)
| YOr (a b : fx)
| YFn (ps : list bytes) (rest : bool) (body : list token)   (* fn(ps) { body }; with [rest]: fn(ps...) { body } *)
| YCall (f : fx) (args : fxs) (spread : bool)               (* f(args); with [spread]: f(args...) *)
| YSlice (l : fxs)                                          (* [l] *)
| YIndex (a i : fx)                                         (* a[i] *)
| YRecover                                                  (* recover() *)
with fxs : Type := YNil | YCons (e : fx) (l : fxs).
Fixpoint how_many (l : fxs) : nat := match l with YNil => 0%nat | YCons _ l' => S (how_many l') end.

Inductive fstmt : Type :=
| FNone                                                     (* nothing between two semicolons *)
| FVal (e : fx)
| FSet (x : bytes) (e : fx)                                 (* x = e *)
| FSets (xs : list bytes) (e : fx)                          (* x, y = e *)
| FInc (f : value -> opres) (x : bytes)                     (* x++ x-- *)
| FOp (f : value -> value -> opres) (x : bytes) (e : fx)    (* x += e ... *)
| FIf (br : fbranches) (els : fblock)
| FSwitch (e : option fx) (br : fbranches) (dflt : fblock)
| FFor (init : fstmt) (c : option fx) (step : fstmt) (body : fblock)
| FReturn (e : option fx)
| FDefer (ts : list token)                                  (* defer e; [ts] is the text of e *)
with fblock : Type := FNil | FCons (s : fstmt) (b : fblock)
with fbranches : Type := GNil | GCons (c : fx) (b : fblock) (br : fbranches).

(** ** How a program is written *)
Section Fun.
Context {W : Type}.
Variable L : qlib W.

(** as in QExpr; and functions and slices, and calls and indices of what a name, a parenthesis, a function, a slice, a call or an index
    gives *)
Inductive xprim : fx -> list token -> Prop :=
| xp_var : forall t, tkind t = IDENT -> xprim (YVar (tlit t)) [t]
| xp_paren : forall t e ts t', tkind t = LPAREN -> xwritten 5 e ts -> tkind t' = RPAREN -> xprim e (t :: ts ++ [t'])
(* the body is any program *)
| xp_fn : forall tf tl ns ps ds v tr t1 bs c t2, tkind tf = FN -> tkind tl = LPAREN -> opt_names ns ps -> opt_tok ELLIPSIS ds (Nat.b2n v) -> tkind tr = RPAREN -> tkind t1 = LBRACE -> opt_doc L bs c -> tkind t2 = RBRACE ->
    xprim (YFn ps v bs) (tf :: tl :: ns ++ ds ++ tr :: t1 :: bs ++ [t2])
(* a comma may follow the last argument *)
| xp_call : forall f fs tl l r ds v cm m tr, xprim f fs -> tkind tl = LPAREN -> xargs l r -> opt_tok ELLIPSIS ds (Nat.b2n v) -> opt_tok COMMA cm m -> tkind tr = RPAREN -> xprim (YCall f l v) (fs ++ tl :: r ++ ds ++ cm ++ [tr])
| xp_slice : forall tl l r cm m tr, tkind tl = LBRACK -> xargs l r -> opt_tok COMMA cm m -> tkind tr = RBRACK -> xprim (YSlice l) (tl :: r ++ cm ++ [tr])
| xp_index : forall a us tl i r tr, xprim a us -> tkind tl = LBRACK -> xwritten 5 i r -> tkind tr = RBRACK -> xprim (YIndex a i) (us ++ tl :: r ++ [tr])
with xwritten : nat -> fx -> list token -> Prop :=
| xw_lit : forall t v, literal L t v -> xwritten 0 (YLit v) [t]
| xw_prim : forall e ts, xprim e ts -> xwritten 0 e ts
| xw_recover : forall t t1 t2, tkind t = RECOVER -> tkind t1 = LPAREN -> tkind t2 = RPAREN -> xwritten 0 YRecover [t; t1; t2]
| xw_not : forall t e ts, tkind t = BANG -> xwritten 0 e ts -> xwritten 0 (YUn Not e) (t :: ts)
| xw_neg : forall t e ts, tkind t = MINUS -> xwritten 0 e ts -> xwritten 0 (YUn Neg e) (t :: ts)
| xw_pos : forall t e ts, tkind t = PLUS -> xwritten 0 e ts -> xwritten 0 e (t :: ts)
| xw_bin : forall l t f a ts b ts', operator L (S l) (tkind t) f -> xwritten (S l) a ts -> xwritten l b ts' -> xwritten (S l) (YBin f a b) (ts ++ t :: ts')
| xw_and : forall t a ts b ts', tkind t = ANDAND -> xwritten 4 a ts -> xwritten 3 b ts' -> xwritten 4 (YAnd a b) (ts ++ t :: ts')
| xw_or : forall t a ts b ts', tkind t = OROR -> xwritten 5 a ts -> xwritten 4 b ts' -> xwritten 5 (YOr a b) (ts ++ t :: ts')
| xw_up : forall l e ts, (l < 5)%nat -> xwritten l e ts -> xwritten (S l) e ts
(* arguments separated by commas *)
with xargs : fxs -> list token -> Prop :=
| xa_nil : xargs YNil []
| xa_cons : forall e ts l r, xwritten 5 e ts -> xmore l r -> xargs (YCons e l) (ts ++ r)
with xmore : fxs -> list token -> Prop :=
| xm_nil : xmore YNil []
| xm_cons : forall t e ts l r, tkind t = COMMA -> xwritten 5 e ts -> xmore l r -> xmore (YCons e l) ((t :: ts) ++ r).
Inductive xowritten : option fx -> list token -> Prop :=
| xo_none : xowritten None []
| xo_some : forall e ts, xwritten 5 e ts -> xowritten (Some e) ts.

Inductive fwritten : fstmt -> list token -> Prop :=
| fw_val : forall e ts, xwritten 5 e ts -> fwritten (FVal e) ts
| fw_set : forall t t1 e ts, tkind t = IDENT -> tlit t <> [] -> tkind t1 = ASSIGN -> xwritten 5 e ts -> fwritten (FSet (tlit t) e) (t :: t1 :: ts)
(* at least two names *)
| fw_sets : forall t t1 ns names t2 e ts, tkind t = IDENT -> tkind t1 = COMMA -> name_list ns names -> Forall (fun n => n <> []) (tlit t :: names) -> tkind t2 = ASSIGN -> xwritten 5 e ts ->
    fwritten (FSets (tlit t :: names) e) (t :: t1 :: ns ++ t2 :: ts)
| fw_inc : forall t t1 f, tkind t = IDENT -> In (tkind t1, f) incdec_ops -> fwritten (FInc f (tlit t)) [t; t1]
| fw_op : forall t t1 f e ts, tkind t = IDENT -> In (tkind t1, f) assign_ops -> xwritten 5 e ts -> fwritten (FOp f (tlit t) e) (t :: t1 :: ts)
(* if c { b } elif c { b } ... else { b } *)
| fw_if : forall t c cs t1 b bs t2 br brs els es, tkind t = IF -> xwritten 5 c cs -> tkind t1 = LBRACE -> fbwritten b bs -> tkind t2 = RBRACE ->
    felwritten br brs -> fewritten els es -> fwritten (FIf (GCons c b br) els) (t :: cs ++ (t1 :: bs ++ [t2]) ++ brs ++ es)
(* switch x { case c: b ... default: b } *)
| fw_switch : forall t x xs t1 br brs d ds t2, tkind t = SWITCH -> xowritten x xs -> tkind t1 = LBRACE -> fcwritten br brs -> fdwritten d ds -> tkind t2 = RBRACE ->
    fwritten (FSwitch x br d) (t :: xs ++ t1 :: brs ++ ds ++ [t2])
(* for { b }, for c { b }, for i; c; s { b } *)
| fw_for : forall t i c st hs t1 b bs t2, tkind t = FOR -> fhwritten i c st hs -> tkind t1 = LBRACE -> fbwritten b bs -> tkind t2 = RBRACE ->
    fwritten (FFor i c st b) (t :: hs ++ t1 :: bs ++ [t2])
| fw_return : forall t e ts, tkind t = RETURN -> xowritten e ts -> fwritten (FReturn e) (t :: ts)
| fw_defer : forall t e ts, tkind t = DEFER -> xwritten 5 e ts -> fwritten (FDefer ts) (t :: ts)
(* statements separated by semicolons *)
with fbwritten : fblock -> list token -> Prop :=
| fbw_nil : fbwritten FNil []
| fbw_cons : forall s ts b r, fwritten s ts -> frwritten b r -> fbwritten (FCons s b) (ts ++ r)
with frwritten : fblock -> list token -> Prop :=
| frw_nil : frwritten FNil []
| frw_stmt : forall t s ts b r, tkind t = SEMI -> fwritten s ts -> frwritten b r -> frwritten (FCons s b) ((t :: ts) ++ r)
| frw_empty : forall t b r, tkind t = SEMI -> hd_error (map tkind r) = None \/ hd_error (map tkind r) = Some SEMI -> frwritten b r -> frwritten (FCons FNone b) (t :: r)
with felwritten : fbranches -> list token -> Prop :=
| felw_nil : felwritten GNil []
| felw_cons : forall t c cs t1 b bs t2 br r, tkind t = ELIF -> xwritten 5 c cs -> tkind t1 = LBRACE -> fbwritten b bs -> tkind t2 = RBRACE -> felwritten br r ->
    felwritten (GCons c b br) ((t :: cs ++ (t1 :: bs ++ [t2])) ++ r)
with fewritten : fblock -> list token -> Prop :=
| few_nil : fewritten FNil []
| few_else : forall t t1 b bs t2, tkind t = ELSE -> tkind t1 = LBRACE -> fbwritten b bs -> tkind t2 = RBRACE -> fewritten b (t :: t1 :: bs ++ [t2])
with fcwritten : fbranches -> list token -> Prop :=
| fcw_nil : fcwritten GNil []
| fcw_cons : forall t c cs t1 b bs br r, tkind t = CASE -> xwritten 5 c cs -> tkind t1 = COLON -> fbwritten b bs -> fcwritten br r ->
    fcwritten (GCons c b br) ((t :: cs ++ t1 :: bs) ++ r)
with fdwritten : fblock -> list token -> Prop :=
| fdw_nil : fdwritten FNil []
| fdw_default : forall t t1 b bs, tkind t = DEFAULT -> tkind t1 = COLON -> fbwritten b bs -> fdwritten b (t :: t1 :: bs)
with fhwritten : fstmt -> option fx -> fstmt -> list token -> Prop :=
| fhw_none : fhwritten FNone None FNone []
| fhw_cond : forall c cs, xwritten 5 c cs -> fhwritten FNone (Some c) FNone cs
| fhw_three : forall i is c cs st ss t1 t2, fwritten i is -> hd_error (map tkind is) <> Some RETURN -> tkind t1 = SEMI -> xwritten 5 c cs -> tkind t2 = SEMI ->
    fwritten st ss -> hd_error (map tkind ss) <> Some RETURN -> fhwritten i (Some c) st (is ++ (t1 :: cs) ++ (t2 :: ss) ++ []).

(** ** The variables *)
(** a call of a function: its own variables, the call (or 0: the program) in which the function was made, the names of other
    calls' variables that it has read, the expressions it has deferred, the last one first, and the panic it is ending with (0: the last program) *)
Record scope : Type := mkScope { sc_own : env; sc_up : option nat; sc_read : bytes -> bool; sc_deferred : list (list token); sc_pending : option pvq }.
(** all calls made so far; the number of functions made so far, which tells functions apart; and the panics recovered so far *)
Record store : Type := mkStore { st_scopes : list scope; st_made : nat; st_caught : list pvq }.
Definition own (h : store) (i : nat) : env := match nth_error (st_scopes h) i with Some c => sc_own c | None => no_vars end.
Definition up (h : store) (i : nat) : option nat := match nth_error (st_scopes h) i with Some c => sc_up c | None => None end.
Definition has_read (h : store) (i : nat) (n : bytes) : bool := match nth_error (st_scopes h) i with Some c => sc_read c n | None => false end.
Definition deferred (h : store) (i : nat) : list (list token) := match nth_error (st_scopes h) i with Some c => sc_deferred c | None => [] end.
Definition pending (h : store) (i : nat) : option pvq := match nth_error (st_scopes h) i with Some c => sc_pending c | None => None end.
Definition is_public (n : bytes) : bool := match n with [] => false | c :: _ => negb (c =? 95) end.
(** whose variable name [n] stands for in call [i]: its own, or for a public name that of the nearest enclosing call that has one *)
Fixpoint owner (k : nat) (h : store) (i : nat) (n : bytes) : option nat :=
  match k with
  | O => None
  | S k' => match own h i n with
            | Some _ => Some i
            | None => if is_public n then match up h i with Some j => owner k' h j n | None => None end else None
            end
  end.
Definition whose (h : store) (i : nat) (n : bytes) : option nat := owner (length (st_scopes h)) h i n.
Definition view (h : store) (i : nat) : env := fun n => match whose h i n with Some j => own h j n | None => None end.
Definition put_own (i : nat) (x : bytes) (v : value) (h : store) : store :=
  match nth_error (st_scopes h) i with
  | Some c => mkStore (set_nth i (mkScope (with_var x v (sc_own c)) (sc_up c) (sc_read c) (sc_deferred c) (sc_pending c)) (st_scopes h)) (st_made h) (st_caught h)
  | None => h
  end.
Definition set_deferred (i : nat) (l : list (list token)) (h : store) : store :=
  match nth_error (st_scopes h) i with
  | Some c => mkStore (set_nth i (mkScope (sc_own c) (sc_up c) (sc_read c) l (sc_pending c)) (st_scopes h)) (st_made h) (st_caught h)
  | None => h
  end.
Definition set_pending (i : nat) (x : option pvq) (h : store) : store :=
  match nth_error (st_scopes h) i with
  | Some c => mkStore (set_nth i (mkScope (sc_own c) (sc_up c) (sc_read c) (sc_deferred c) x) (st_scopes h)) (st_made h) (st_caught h)
  | None => h
  end.
(** recover() in call [p]: the panic that the enclosing call is ending with goes no further; the value is what it was made with
    by panic(), but for strings, or stands for it.  Else nil. *)
Definition recovered (p : nat) (h : store) : store * value :=
  match up h p with
  | None => (h, VNil)
  | Some q => match pending h q with
              | None => (h, VNil)
              | Some (PvOther v) => (set_pending q None h, v)
              | Some e => let h1 := set_pending q None h in (mkStore (st_scopes h1) (st_made h1) (st_caught h1 ++ [e]), VExc (length (st_caught h)))
              end
  end.
(** call [i] has read [n] *)
Definition note_read (i : nat) (n : bytes) (h : store) : store :=
  match nth_error (st_scopes h) i with
  | Some c => if beq n n_unset then h else match whose h i n with
              | Some _ => mkStore (set_nth i (mkScope (sc_own c) (sc_up c) (fun m => beq m n || sc_read c m) (sc_deferred c) (sc_pending c)) (st_scopes h)) (st_made h) (st_caught h)
              | None => h
              end
  | None => h
  end.
(** the value of a name in call [p] that sees [g] *)
Definition name_val (p : nat) (g : env) (n : bytes) : value + pvq :=
  if beq n n_unset then inl (VUnset p)
  else match g n with
  | Some v => inl v
  | None => match n with
            | [] => inr rt_error
            | _ => match l_fnval L n with Some v => inl v | None => inr (msg m_nosym [VStr n]) end
            end
  end.

(** ** Slices *)
Definition is_int (v : value) : bool := match v with VInt _ => true | _ => false end.
Definition is_number (v : value) : bool := match v with VInt _ | VFloat _ => true | _ => false end.
Definition is_text (v : value) : bool := match v with VStr _ | VMsg _ _ => true | _ => false end.
Definition to_float (v : value) : value := match v with VInt z => VFloat (f_of_int z) | _ => v end.
(** a slice of ints, of floats, of strings, or of anything *)
Definition slice_of (l : list value) : value :=
  match l with
  | [] => VSlice TAny []
  | _ => if forallb is_int l then VSlice TInt l
         else if forallb is_number l then VSlice TFloat (map to_float l)
         else if forallb is_text l then VSlice TString l
         else VSlice TAny l
  end.
(** an item of a slice; a byte of a string; None: left out (a [VExtern] is not a value) *)
Definition item (a i : value) : option (value + pvq) :=
  match a, i with
  | VSlice _ l, VInt z =>
      if z <? 0 then Some (inr rt_error)
      else match nth_error l (Z.to_nat z) with Some (VExtern _) => None | Some v => Some (inl v) | None => Some (inr rt_error) end
  | VStr b, VInt z =>
      if z <? 0 then Some (inr rt_error)
      else match nth_error b (Z.to_nat z) with Some c => Some (inl (VByte c)) | None => Some (inr rt_error) end
  | VSlice _ _, _ | VStr _, _ | VInt _, _ => Some (inr rt_error)
  | _, _ => None
  end.
(** the arguments of f(l...): the last of [l] is a slice, and its items are arguments *)
Definition spread_out (l : list value) : option (list value + pvq) :=
  match rev l with
  | [] => Some (inr (msg m_dots []))
  | VSlice _ xs :: r => if forallb (fun v => match v with VExtern _ => false | _ => true end) xs then Some (inl (rev r ++ xs)) else None
  | VCode _ :: _ => None
  | _ => Some (inr (msg m_dotsnon []))
  end.
(** values that cannot be called *)
Definition no_function (v : value) : bool :=
  match v with VNil | VBool _ | VInt _ | VByte _ | VFloat _ | VStr _ | VSlice _ _ | VUndefined | VMsg _ _ | VExc _ => true | _ => false end.
(** what panic(v) panics with; None: left out *)
Definition thrown_by (v : value) (h : store) : option pvq :=
  match v with
  | VNil => Some rt_error
  | VStr _ | VMsg _ _ => Some (PvStr (SOther v))
  | VUndefined => Some (PvErr (EOther v))
  | VExc n => Some (nth n (st_caught h) rt_error)
  | VBool _ | VInt _ | VByte _ | VFloat _ | VSlice _ _ | VFunc _ => Some (PvOther v)
  | _ => None
  end.

(** ** What a program does *)
Inductive result : Type := Gives (v : value) | Panics (q : pvq) | Returns (v : value).
Definition foutcome : Type := store * result.
Definition fthen (o : option foutcome) (k : store -> value -> option foutcome) : option foutcome :=
  match o with Some (h, Gives v) => k h v | _ => o end.
Definition ends_in (r : value + pvq) : result := match r with inl v => Gives v | inr q => Panics q end.
(** at most [k] rounds; None: not finished *)
Fixpoint floop (k : nat) (cond body step : store -> option foutcome) (h : store) : option foutcome :=
  match k with
  | O => None
  | S k' =>
      fthen (cond h) (fun h1 v =>
        match v with
        | VBool true => fthen (body h1) (fun h2 _ => fthen (step h2) (fun h3 _ => floop k' cond body step h3))
        | VBool false => Some (h1, Gives VNil)
        | _ => Some (h1, Panics (msg m_forcond []))
        end)
  end.
(** whether the call has the variable itself, or has read it *)
Definition knows (h : store) (p : nat) (x : bytes) : bool := match own h p x with Some _ => true | None => has_read h p x end.
(** An assignment is to a variable of the call itself, or of an enclosing call if the call has read it before; else it is an error if
    an enclosing call has the variable. *)
Definition fassigned (p : nat) (x : bytes) (v : value) (h : store) : foutcome :=
  match whose h p x with
  | None => (put_own p x v h, Gives v)
  | Some q => if knows h p x then (put_own q x v h, Gives v) else (h, Panics (msg m_extern [VStr x]))
  end.
(** x, y = l: the names are assigned the items of the slice one after the other; there must be as many *)
Fixpoint fassign_all (p : nat) (xs : list bytes) (l : list value) (h : store) : foutcome :=
  match xs, l with
  | x :: xs', v :: l' => match fassigned p x v h with (h1, Gives _) => fassign_all p xs' l' h1 | o => o end
  | _, _ => (h, Gives VNil)
  end.
Definition fsets (p : nat) (xs : list bytes) (v : value) (h : store) : option foutcome :=
  match v with
  | VSlice _ l =>
      if negb (length xs =? length l)%nat then Some (h, Panics (PvErr (e_massign (Z.of_nat (length l)) (Z.of_nat (length xs)))))
      else if forallb (fun v => match v with VExtern _ => false | _ => true end) l then
        match fassign_all p xs l h with (h1, Gives _) => Some (h1, Gives v) | o => Some o end
      else None
  | VCode _ => None
  | _ => Some (h, Panics (PvErr e_notslice))
  end.
(** x++ and x += e: of a variable the call has or has read *)
Definition fupdated (p : nat) (x : bytes) (f : value -> value + pvq) (h : store) : foutcome :=
  if knows h p x then match view h p x with
                      | Some v => match f v with inl w => fassigned p x w h | inr q => (h, Panics q) end
                      | None => (h, Panics (no_variable x))
                      end
  else (h, Panics (no_variable x)).

Section Calls.
(** what calling a function does; None: not finished, or left out *)
Variable call : func -> list value -> store -> option foutcome.
(** the value of an expression in call [p] *)
Fixpoint xval (e : fx) (p : nat) (h : store) : option foutcome :=
  match e with
  | YLit v => Some (h, Gives v)
  | YVar n => Some (note_read p n h, ends_in (name_val p (view h p) n))
  | YUn f a => fthen (xval a p h) (fun h1 v => Some (h1, ends_in (f v)))
  | YBin f a b => fthen (xval a p h) (fun h1 v => fthen (xval b p h1) (fun h2 w => Some (h2, ends_in (f v w))))
  | YAnd a b => fthen (xval a p h) (fun h1 v => match v with VBool false => Some (h1, Gives v) | VBool true => xval b p h1 | _ => Some (h1, Panics (msg m_and [])) end)
  | YOr a b => fthen (xval a p h) (fun h1 v => match v with VBool true => Some (h1, Gives v) | VBool false => xval b p h1 | _ => Some (h1, Panics (msg m_or [])) end)
  (* the function belongs to the call it was made in *)
  | YFn ps v body => Some (mkStore (st_scopes h) (S (st_made h)) (st_caught h), Gives (VFunc (mkFunc (st_made h) ps (match body with [] => None | _ => Some body end) p v)))
  | YCall f args v =>
      fthen (xval f p h) (fun h1 fv =>
        match xvals args p h1 with
        | Some (h2, inl vs) =>
            match (if v then spread_out vs else Some (inl vs)) with
            | Some (inl vs') => match fv with
                                | VFunc fn => call fn vs' h2
                                | VGo n => if beq n n_panic then match vs' with
                                                            | [v1] => match thrown_by v1 h2 with Some q => Some (h2, Panics q) | None => None end
                                                            | _ => Some (h2, Panics (PvErr (EArgCount 1 (Z.of_nat (length vs')))))
                                                            end else None
                                | _ => if no_function fv then Some (h2, Panics rt_error) else None
                                end
            | Some (inr q) => Some (h2, Panics q)
            | None => None
            end
        | Some (h2, inr q) => Some (h2, Panics q)
        | None => None
        end)
  | YSlice l =>
      match xvals l p h with
      | Some (h1, inl vs) => Some (h1, Gives (slice_of vs))
      | Some (h1, inr q) => Some (h1, Panics q)
      | None => None
      end
  | YIndex a i => fthen (xval a p h) (fun h1 v => fthen (xval i p h1) (fun h2 w => match item v w with Some r => Some (h2, ends_in r) | None => None end))
  | YRecover => let (h1, v) := recovered p h in Some (h1, Gives v)
  end
(* of arguments, from left to right *)
with xvals (l : fxs) (p : nat) (h : store) : option (store * (list value + pvq)) :=
  match l with
  | YNil => Some (h, inl [])
  | YCons e l' =>
      match xval e p h with
      | Some (h1, Gives v) =>
          match xvals l' p h1 with
          | Some (h2, inl vs) => Some (h2, inl (v :: vs))
          | r => r
          end
      | Some (h1, Panics q) => Some (h1, inr q)
      | _ => None
      end
  end.
Definition xoval (e : option fx) (p : nat) (h : store) : option foutcome := match e with None => Some (h, Gives (VBool true)) | Some e => xval e p h end.
(** [k] bounds the rounds of each loop; [p] is the call the statement is in *)
Fixpoint frun (k : nat) (st : fstmt) (p : nat) (h : store) : option foutcome :=
  match st with
  | FNone => Some (h, Gives VNil)
  | FVal e => xval e p h
  | FSet x e => fthen (xval e p h) (fun h1 v => Some (fassigned p x v h1))
  | FSets xs e => fthen (xval e p h) (fun h1 v => fsets p xs v h1)
  | FInc f x => Some (fupdated p x f h)
  | FOp f x e => fthen (xval e p h) (fun h1 w => Some (fupdated p x (fun v => f v w) h1))
  | FIf br els => fifrun k br (fbrun k els) p h
  | FSwitch e br dflt => fthen (xoval e p h) (fun h1 v => fcaserun k v br (fbrun k dflt) p h1)
  | FFor i c st b => fthen (frun k i p h) (fun h1 _ => floop k (xoval c p) (fbrun k b p) (frun k st p) h1)
  | FReturn e =>
      fthen (match e with None => Some (h, Gives VNil) | Some e => xval e p h end) (fun h1 v => match up h1 p with None => None | Some _ => Some (h1, Returns v) end)
  | FDefer ts => match up h p with None => None | Some _ => Some (set_deferred p (ts :: deferred h p) h, Gives VNil) end
  end
with fbrun (k : nat) (b : fblock) (p : nat) (h : store) : option foutcome :=
  match b with
  | FNil => Some (h, Gives VNil)
  | FCons s FNil => frun k s p h
  | FCons s b' => fthen (frun k s p h) (fun h1 _ => fbrun k b' p h1)
  end
(* the first branch whose condition is true *)
with fifrun (k : nat) (br : fbranches) (els : nat -> store -> option foutcome) (p : nat) (h : store) : option foutcome :=
  match br with
  | GNil => els p h
  | GCons c b br' =>
      fthen (xval c p h) (fun h1 v =>
        match v with
        | VBool true => fbrun k b p h1
        | VBool false => fifrun k br' els p h1
        | _ => Some (h1, Panics (PvErr (EOther (VMsg m_ifcond []))))
        end)
  end
(* the first branch that is equal *)
with fcaserun (k : nat) (v : value) (br : fbranches) (dflt : nat -> store -> option foutcome) (p : nat) (h : store) : option foutcome :=
  match br with
  | GNil => dflt p h
  | GCons c b br' =>
      fthen (xval c p h) (fun h1 w => match EQ (l_same L) v w with inl (VBool true) => fbrun k b p h1 | inl _ => fcaserun k v br' dflt p h1 | inr q => Some (h1, Panics q) end)
  end.
End Calls.

(** the parameters are the variables a call starts with; a later one of the same name hides an earlier one *)
Fixpoint params (ps : list bytes) (args : list value) (g : env) : env :=
  match ps, args with x :: ps', v :: args' => params ps' args' (with_var x v g) | _, _ => g end.
(** ... and the last parameter of fn(ps...) is the slice of the arguments that are left *)
Definition given (f : func) (args : list value) : env :=
  if f_variadic f then
    let m := (length (f_args f) - 1)%nat in
    with_var (last (f_args f) []) (VSlice TAny (skipn m args)) (params (firstn m (f_args f)) (firstn m args) no_vars)
  else params (f_args f) args no_vars.
(** a wrong number of arguments *)
Definition miscounted (f : func) (args : list value) : option pvq :=
  let n := length (f_args f) in
  if f_variadic f then if (length args <? n - 1)%nat then Some (msg m_argcv [VInt (Z.of_nat n - 1); VInt (Z.of_nat (length args))]) else None
  else if (length args =? n)%nat then None else Some (msg m_argc [VInt (Z.of_nat n); VInt (Z.of_nat (length args))]).
(** what a text is, in so far as it is known; all bodies of functions are texts of programs *)
Variable reads : list token -> option fblock.
(** the deferred expressions of call [p] are evaluated one after the other *)
Fixpoint run_deferred (call : func -> list value -> store -> option foutcome) (l : list (list token)) (p : nat) (h : store) : option foutcome :=
  match l with
  | [] => Some (h, Gives VNil)
  | ts :: l' => match reads ts with
                | Some (FCons (FVal e) FNil) => fthen (xval call e p h) (fun h1 _ => run_deferred call l' p h1)
                | _ => None
                end
  end.
(** A call: a new scope below the one the function was made in; the body is run there, and then, however it ended, what it deferred; what
    it returns, or nil, is the value; a panic goes on unless it is recovered, that of a deferred expression at once.  [k] bounds how
    deep calls are nested, and the rounds of each loop. *)
Fixpoint fcall (k : nat) (f : func) (args : list value) (h : store) : option foutcome :=
  match k with
  | O => None
  | S k' =>
      match miscounted f args with
      | Some q => Some (h, Panics q)
      | None =>
      match f_body f with
      | None => Some (h, Gives VNil)
      | Some ts =>
          (* fn(...) has no parameter for the arguments *)
          if (f_variadic f && (length (f_args f) =? 0)%nat)%bool then Some (h, Panics rt_error)
          else match reads ts with
          | None => None
          | Some b =>
              if (f_parent f <? length (st_scopes h))%nat then
                let h1 := mkStore (st_scopes h ++ [mkScope (given f args) (Some (f_parent f)) (fun _ => false) [] None]) (st_made h) (st_caught h) in
                match fbrun (fcall k') k' b (length (st_scopes h)) h1 with
                | Some (h2, r) =>
                    match run_deferred (fcall k') (deferred h2 (length (st_scopes h))) (length (st_scopes h)) (set_pending (length (st_scopes h)) (match r with Panics q => Some q | _ => None end) h2) with
                    | Some (h3, Gives _) =>
                        Some (set_deferred (length (st_scopes h)) [] h3,
                              match pending h3 (length (st_scopes h)), r with Some q, _ => Panics q | None, Returns v => Gives v | None, _ => Gives VNil end)
                    | Some (h3, Panics q) => Some (h3, Panics q)
                    | _ => None
                    end
                | None => None
                end
              else None
          end
      end
      end
  end.
(** a whole program, outside any function *)
Definition program (k : nat) (b : fblock) (h : store) : option foutcome := fbrun (fcall k) k b 0 h.

(** ** Host programs *)
(** a host program sets and reads variables and has programs run *)
Inductive frequest : Type := QSet (x : bytes) (v : value) | QGet (x : bytes) | QRun (b : fblock).
Inductive frequests (isL isD : Z -> bool) (semis : bool) : action -> frequest -> Prop :=
| fq_set : forall x v, plain v -> frequests isL isD semis (ASet x v) (QSet x v)
| fq_get : forall x, frequests isL isD semis (AGet x) (QGet x)
| fq_run : forall old src ts eof b, Tokenize isL isD false semis (AutoKw q_akw) old src = TzOk ts eof -> b <> FNil -> fbwritten b ts ->
    frequests isL isD semis (AEval old src) (QRun b).
(** an engine before any call *)
Definition start : store := mkStore [mkScope no_vars None (fun _ => false) [] None] 0 [].
(** what the host sees of a request, and the variables after it; None: not finished, or left out *)
Definition fanswered (k : nat) (h : store) (r : frequest) : option (answer * store) :=
  match r with
  | QSet x v => Some (ANothing, put_own 0 x v h)
  | QGet x => Some (AVar (own h 0 x), h)
  | QRun b => match program k b h with Some (h', Gives v) => Some (AValue v, set_pending 0 None h') | Some (h', Panics (PvOther v)) => Some (APanicked v, set_pending 0 (Some (PvOther v)) h') | Some (h', Panics q) => Some (AFailed q, set_pending 0 (Some q) h') | _ => None end
  end.
Fixpoint fanswers (k : nat) (h : store) (l : list frequest) : option (list answer * store) :=
  match l with
  | [] => Some ([], h)
  | r :: l' =>
      match fanswered k h r with
      | Some (a, h1) => match fanswers k h1 l' with Some (al, h2) => Some (a :: al, h2) | None => None end
      | None => None
      end
  end.
End Fun.
