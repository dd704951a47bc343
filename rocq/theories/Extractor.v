(** Model of tpl/extractor/document.go (Node, toMap) and tpl/extractor/extractor.go (marks, Parse). *)
From Coq Require Import String.
From Verif Require Import Base Token Utf8 Scanner Tokenize Grammar Matcher Compiler Interp.

(** document.go:5-11 categories *)
Definition cateLeaf : nat := 0.
Definition cateNode : nat := 1.
Definition cateLeafArray : nat := 2.
Definition cateNodeArray : nat := 3.

Section Doc.
(** values of leaves *)
Context {X : Type}.
(** document.go:13-18 Cons: its val is a leaf's value or a *Node, i.e. the index of a node in the heap *)
Inductive cval : Type := VLeaf (x : X) | VNode (id : nat).
Record cell : Type := mkCell { c_tag : bytes; c_val : cval; c_cate : nat }.
(** The nodes created so far: the hd list of each (cells never change).  Node 0 is Engine.doc. *)
Definition heap : Type := list (list cell).
Definition hd_of (h : heap) (id : nat) : list cell := nth id h [].
Fixpoint set_hd (h : heap) (id : nat) (l : list cell) : heap :=
  match h, id with
  | [], _ => []
  | _ :: h', O => l :: h'
  | x :: h', S id' => x :: set_hd h' id' l
  end.
(** document.go:37-44 insertLeaf *)
Definition insertLeaf (h : heap) (id : nat) (tag : bytes) (val : X) (isArray : bool) : heap :=
  set_hd h id (mkCell tag (VLeaf val) (if isArray then cateLeafArray else cateLeaf) :: hd_of h id).
(** document.go:46-55 insertNode *)
Definition insertNode (h : heap) (id : nat) (tag : bytes) (isArray : bool) : heap * nat :=
  (set_hd h id (mkCell tag (VNode (length h)) (if isArray then cateNodeArray else cateNode) :: hd_of h id) ++ [[]], length h).

(** The resulting Go values; a map is a list of bindings with different keys whose order means nothing, None is the nil map. *)
Inductive jval : Type :=
| JVal (x : X)
| JVals (l : list X)
| JMap (m : option (list (bytes * jval)))
| JMaps (l : list (option (list (bytes * jval)))).
Definition jmap : Type := option (list (bytes * jval)).
(** data[tag] = v *)
Definition put (tag : bytes) (v : jval) (data : list (bytes * jval)) : list (bytes * jval) :=
  match find tag data with Some _ => update tag v data | None => data ++ [(tag, v)] end.
(** document.go:98-109 arrayCollect(hd) *)
Fixpoint same_run (cate : nat) (tag : bytes) (l : list cell) : nat :=
  match l with
  | [] => 0
  | c :: l' => if negb (c_cate c =? cate)%nat || negb (beq (c_tag c) tag) then 0 else S (same_run cate tag l')
  end.
Definition arrayCollect (hd : cell) (tail : list cell) : nat := S (same_run (c_cate hd) (c_tag hd) tail).
(** items[n-1], ..., items[0] of document.go:77-80 and 85-88; None: the type assertion fails or [node] gives None *)
Fixpoint node_items (node : nat -> option jmap) (l : list cell) : option (list jmap) :=
  match l with
  | [] => Some []
  | c :: l' =>
      match c_val c with
      | VNode id => match node id, node_items node l' with Some m, Some ms => Some (ms ++ [m]) | _, _ => None end
      | VLeaf _ => None
      end
  end.
Fixpoint leaf_items (l : list cell) : option (list X) :=
  match l with
  | [] => Some []
  | c :: l' => match c_val c, leaf_items l' with VLeaf x, Some xs => Some (xs ++ [x]) | _, _ => None end
  end.
(** document.go:66-94 the loop of toMap ([k]: bound on its steps); a leaf that holds a *Node does not occur *)
Fixpoint map_loop (node : nat -> option jmap) (k : nat) (l : list cell) (data : list (bytes * jval)) : option (list (bytes * jval)) :=
  match l, k with
  | [], _ => Some data
  | _, O => None
  | c :: tl, S k' =>
      if (c_cate c =? cateLeaf)%nat then match c_val c with VLeaf x => map_loop node k' tl (put (c_tag c) (JVal x) data) | _ => None end
      else if (c_cate c =? cateNode)%nat then
        match c_val c with VNode id => match node id with Some m => map_loop node k' tl (put (c_tag c) (JMap m) data) | None => None end | _ => None end
      else
        let n := arrayCollect c tl in
        if (c_cate c =? cateNodeArray)%nat then
          match node_items node (firstn n l) with Some ms => map_loop node k' (skipn n l) (put (c_tag c) (JMaps ms) data) | None => None end
        else if (c_cate c =? cateLeafArray)%nat then
          match leaf_items (firstn n l) with Some xs => map_loop node k' (skipn n l) (put (c_tag c) (JVals xs) data) | None => None end
        else None                                                                  (* panic("unknown node category") *)
  end.
(** document.go:57-96 toMap; None: one of the above, or out of fuel *)
Fixpoint toMap (fuel : nat) (h : heap) (id : nat) : option jmap :=
  match fuel with
  | O => None
  | S f =>
      match hd_of h id with
      | [] => Some None
      | l => match map_loop (toMap f h) (length l) l [] with Some d => Some (Some d) | None => None end
      end
  end.
End Doc.
Arguments cval : clear implicits.
Arguments cell : clear implicits.
Arguments heap : clear implicits.
Arguments jval : clear implicits.
Arguments jmap : clear implicits.

Section Engine.
Context {X PV M : Type}.
(** options.GetValue or GetValue: a value, or a panic *)
Variable getValue : bytes -> bytes -> X + PV.

(** strings.HasSuffix, strings.LastIndex of a byte *)
Definition has_suffix (s suf : bytes) : bool := (length suf <=? length s)%nat && beq (skipn (length s - length suf) s) suf.
Fixpoint last_index (s : bytes) (b : Z) : option nat :=
  match s with
  | [] => None
  | c :: s' => match last_index s' b with Some i => Some (S i) | None => if c =? b then Some 0%nat else None end
  end.
Definition b_Node : bytes := Eval vm_compute in s2b "Node".
Definition b_Array : bytes := Eval vm_compute in s2b "Array".
(** What the marker's closures remember (extractor.go:92-123): for a leaf its tag, type and isArray; for a node its tag and isArray. *)
Record leafmark : Type := mkLeaf { lf_tag : bytes; lf_typ : bytes; lf_arr : bool }.
Record nodemark : Type := mkNode { nd_tag : bytes; nd_arr : bool }.
Notation G := (gr leafmark nodemark).
(** extractor.go:92-123 marker; its panic: invalid mark *)
Definition xmarker (g : G) (mark : bytes) (m : M) : (G * M) + (bytes * M) :=
  let (stripped, isArray) :=
    if has_suffix mark [115] then (firstn (length mark - 1) mark, true)
    else if has_suffix mark b_Array then (firstn (length mark - 5) mark, true)
    else (mark, false) in
  match last_index stripped 95 with
  | None => inr (mark, m)
  | Some pos =>
      let typ := skipn (pos + 1) stripped in
      let tag := firstn pos stripped in
      if negb (beq typ b_Node) then inl (GAct g (mkLeaf tag typ isArray), m)
      else inl (GTrans g (mkNode tag isArray), m)
  end.

(** The engine's state: the nodes, Engine.stk. *)
Record xst : Type := mkX { x_heap : heap X; x_stk : nat }.
(** Panic values of client code: an index out of range, or getValue's. *)
Inductive xpan : Type := XIndex | XValue (p : PV).
(** transCtx, extractor.go:147-150 *)
Definition transCtx : Type := (nat * list (cell X))%type.
(** extractor.go:107-109 the action of a leaf *)
Definition xact (m : leafmark) (ts : list token) (len : Z) (s : xst) : xst + (pan leafmark nodemark xpan * xst) :=
  match ts with
  | [] => inr (PUser XIndex, s)
  | t :: _ =>
      match getValue (lf_typ m) (tlit t) with
      | inl v => inl (mkX (insertLeaf (x_heap s) (x_stk s) (lf_tag m) v (lf_arr m)) (x_stk s))
      | inr p => inr (PUser (XValue p), s)
      end
  end.
(** extractor.go:111-116 the begin function of a node *)
Definition xbegin (m : nodemark) (s : xst) : transCtx * xst :=
  let trans := (x_stk s, hd_of (x_heap s) (x_stk s)) in
  let (h, id) := insertNode (x_heap s) (x_stk s) (nd_tag m) (nd_arr m) in
  (trans, mkX h id).
(** extractor.go:116-122 its end function *)
Definition xend (m : nodemark) (trans : transCtx) (ok : bool) (s : xst) : xst :=
  mkX (if ok then x_heap s else set_hd (x_heap s) (fst trans) (snd trans)) (fst trans).
Definition xclient : uclient leafmark nodemark xpan xst transCtx := mkUclient xact xbegin xend.
(** extractor.go:84-87 initer *)
Definition xinit (s : st xst) : st xst := mkSt (lens s) (mkX (set_hd (x_heap (ust s)) 0 []) 0).
(** new(Engine) *)
Definition new_xst : xst := mkX [[]] 0.

(** Result of Parse; an error is the matcher's, or a recovered panic. *)
Inductive perr : Type := PErr (o : @mout leafmark nodemark xpan xst) | PRecovered (p : pan leafmark nodemark xpan).
Inductive pout : Type := PDoc (m : jmap X) (s : st xst) | PError (e : perr) (s : st xst) | PPanic (p : pan leafmark nodemark xpan) (s : st xst) | PBroken | PFuel.
Variables isL isD : Z -> bool.
Variables mComments mSemis : bool.
(** extractor.go:154-157 Result *)
Definition Result (s : st xst) : option (jmap X) := toMap (S (length (x_heap (ust s)))) (x_heap (ust s)) 0.
(** extractor.go:159-166 Parse; [root], [d]: the compiled grammar *)
Definition Parse (root : G) (d : dst leafmark nodemark M) (fuel : nat) (old : sc) (code : bytes) (s : st xst) : pout :=
  match MatchExactly (cenv d) (lift xclient) isL isD mComments mSemis xinit fuel root (d_tk d) old code s with
  | MNil s' => match Result s' with Some m => PDoc m s' | None => PBroken end
  | MNext n s' => PError (PErr (MNext n s')) s'
  | MNoGrammar s' => PError (PErr (MNoGrammar s')) s'
  | MTokErr e s' => PError (PErr (MTokErr e s')) s'
  | MFail e s' => PError (PErr (MFail e s')) s'
  | MPanic p s' => PPanic p s'
  | MFuel => PFuel
  end.
(** extractor.go:168-188 SafeParse: panics with a string or an error become errors ([recoverable]: of getValue's panic values) *)
Variable recoverable : PV -> bool.
Definition SafeParse (root : G) (d : dst leafmark nodemark M) (fuel : nat) (old : sc) (code : bytes) (s : st xst) : pout :=
  match Parse root d fuel old code s with
  | PPanic p s' => match p with PUser (XValue v) => if recoverable v then PError (PRecovered p) s' else PPanic p s' | _ => PError (PRecovered p) s' end
  | r => r
  end.
End Engine.
Arguments xst : clear implicits.

(** ** extractor.go:22-58 GetValue *)
Section GetValue.
Context {F : Type}.
(** Go's strconv.Unquote, strconv.ParseFloat(_, 64), strconv.UnquoteChar(_, '\'') (value, multibyte, tail) *)
Variable unquote : bytes -> option bytes.
Variable parse_float : bytes -> option F.
Variable unquote_char : bytes -> option (Z * bool * bytes).
Inductive xval : Type := XStr (b : bytes) | XInt (z : Z) | XFloat (f : F) | XByte (z : Z).
(** strconv's errors, invalid char, slice bounds out of range, unsupported type *)
Inductive xverr : Type := VSyntax (typ lit : bytes) | VChar (lit : bytes) | VBounds | VUnsupported (typ : bytes).
Definition GetValue (typ lit : bytes) : xval + xverr :=
  if beq typ (s2b "String") then match unquote lit with Some v => inl (XStr v) | None => inr (VSyntax typ lit) end
  else if beq typ (s2b "Int") then match StrInt 10 lit with inl v => inl (XInt v) | inr _ => inr (VSyntax typ lit) end
  else if beq typ (s2b "Float") then match parse_float lit with Some v => inl (XFloat v) | None => inr (VSyntax typ lit) end
  else if beq typ (s2b "Char") then
    match lit with
    | _ :: (_ :: _) as tl =>
        match unquote_char (removelast tl) with
        | None => inr (VSyntax typ lit)
        | Some (v, multibyte, tail) => if negb (length tail =? 0)%nat || multibyte then inr (VChar lit) else inl (XByte (v mod 256))
        end
    | _ => inr VBounds
    end
  else if beq typ (s2b "Text") then inl (XStr lit)
  else inr (VUnsupported typ).
End GetValue.
