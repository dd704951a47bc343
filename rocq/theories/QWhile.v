(** Programs without functions: assignments, conditionals and loops over expressions.  How they are written and what they do to a
    map of variables.  The specification for Property C92: it knows nothing of the stack, of evaluating pieces of code, nor of the
    grammar. *)
From Coq Require Import String SpecFloat.
From Verif Require Import Base Token Scanner Tokenize Grammar Interp QValue Qlang QlangSpec QlangTop QText QExpr QEmbed.
Local Open Scope Z_scope.

Inductive stmt : Type :=
| SNone                                                     (* nothing between two semicolons *)
| SVal (e : ex)
| SSet (x : bytes) (e : ex)                                 (* x = e *)
| SInc (f : value -> opres) (x : bytes)                     (* x++ x-- *)
| SOp (f : value -> value -> opres) (x : bytes) (e : ex)    (* x += e ... *)
| SIf (br : branches) (els : block)
| SSwitch (e : option ex) (br : branches) (dflt : block)
| SFor (init : stmt) (c : option ex) (step : stmt) (body : block)
with block : Type := BNil | BCons (s : stmt) (b : block)
with branches : Type := CNil | CCons (c : ex) (b : block) (br : branches).

Section While.
Context {W : Type}.
Variable L : qlib W.

(** ** How a program is written *)
Inductive swritten : stmt -> list token -> Prop :=
| sw_val : forall e ts, written L 5 e ts -> swritten (SVal e) ts
| sw_set : forall t t1 e ts, tkind t = IDENT -> tlit t <> [] -> tkind t1 = ASSIGN -> written L 5 e ts -> swritten (SSet (tlit t) e) (t :: t1 :: ts)
| sw_inc : forall t t1 f, tkind t = IDENT -> In (tkind t1, f) incdec_ops -> swritten (SInc f (tlit t)) [t; t1]
| sw_op : forall t t1 f e ts, tkind t = IDENT -> In (tkind t1, f) assign_ops -> written L 5 e ts -> swritten (SOp f (tlit t) e) (t :: t1 :: ts)
(* if c { b } elif c { b } ... else { b } *)
| sw_if : forall t c cs t1 b bs t2 br brs els es, tkind t = IF -> written L 5 c cs -> tkind t1 = LBRACE -> bwritten b bs -> tkind t2 = RBRACE ->
    elwritten br brs -> ewritten els es -> swritten (SIf (CCons c b br) els) (t :: cs ++ (t1 :: bs ++ [t2]) ++ brs ++ es)
(* switch x { case c: b ... default: b } *)
| sw_switch : forall t x xs t1 br brs d ds t2, tkind t = SWITCH -> owritten x xs -> tkind t1 = LBRACE -> cwritten br brs -> dwritten d ds -> tkind t2 = RBRACE ->
    swritten (SSwitch x br d) (t :: xs ++ t1 :: brs ++ ds ++ [t2])
(* for { b }, for c { b }, for i; c; s { b } *)
| sw_for : forall t i c st hs t1 b bs t2, tkind t = FOR -> hwritten i c st hs -> tkind t1 = LBRACE -> bwritten b bs -> tkind t2 = RBRACE ->
    swritten (SFor i c st b) (t :: hs ++ t1 :: bs ++ [t2])
(* statements separated by semicolons *)
with bwritten : block -> list token -> Prop :=
| bw_nil : bwritten BNil []
| bw_cons : forall s ts b r, swritten s ts -> rwritten b r -> bwritten (BCons s b) (ts ++ r)
with rwritten : block -> list token -> Prop :=
| rw_nil : rwritten BNil []
| rw_stmt : forall t s ts b r, tkind t = SEMI -> swritten s ts -> rwritten b r -> rwritten (BCons s b) ((t :: ts) ++ r)
| rw_empty : forall t b r, tkind t = SEMI -> hd_error (map tkind r) = None \/ hd_error (map tkind r) = Some SEMI -> rwritten b r -> rwritten (BCons SNone b) (t :: r)
with elwritten : branches -> list token -> Prop :=
| elw_nil : elwritten CNil []
| elw_cons : forall t c cs t1 b bs t2 br r, tkind t = ELIF -> written L 5 c cs -> tkind t1 = LBRACE -> bwritten b bs -> tkind t2 = RBRACE -> elwritten br r ->
    elwritten (CCons c b br) ((t :: cs ++ (t1 :: bs ++ [t2])) ++ r)
with ewritten : block -> list token -> Prop :=
| ew_nil : ewritten BNil []
| ew_else : forall t t1 b bs t2, tkind t = ELSE -> tkind t1 = LBRACE -> bwritten b bs -> tkind t2 = RBRACE -> ewritten b (t :: t1 :: bs ++ [t2])
with cwritten : branches -> list token -> Prop :=
| cw_nil : cwritten CNil []
| cw_cons : forall t c cs t1 b bs br r, tkind t = CASE -> written L 5 c cs -> tkind t1 = COLON -> bwritten b bs -> cwritten br r ->
    cwritten (CCons c b br) ((t :: cs ++ t1 :: bs) ++ r)
with dwritten : block -> list token -> Prop :=
| dw_nil : dwritten BNil []
| dw_default : forall t t1 b bs, tkind t = DEFAULT -> tkind t1 = COLON -> bwritten b bs -> dwritten b (t :: t1 :: bs)
with owritten : option ex -> list token -> Prop :=
| ow_none : owritten None []
| ow_some : forall e ts, written L 5 e ts -> owritten (Some e) ts
with hwritten : stmt -> option ex -> stmt -> list token -> Prop :=
| hw_none : hwritten SNone None SNone []
| hw_cond : forall c cs, written L 5 c cs -> hwritten SNone (Some c) SNone cs
| hw_three : forall i is c cs st ss t1 t2, swritten i is -> tkind t1 = SEMI -> written L 5 c cs -> tkind t2 = SEMI -> swritten st ss ->
    hwritten i (Some c) st (is ++ (t1 :: cs) ++ (t2 :: ss) ++ []).

(** ** What it does *)
(** the variables afterwards, and the value, or the panic it ended in *)
Definition outcome : Type := env * (value + pvq).
Definition andthen (o : option outcome) (k : env -> value -> option outcome) : option outcome :=
  match o with Some (g, inl v) => k g v | _ => o end.
(** at most [k] rounds; None: not finished *)
Fixpoint loop (k : nat) (cond : env -> value + pvq) (body step : env -> option outcome) (g : env) : option outcome :=
  match k with
  | O => None
  | S k' =>
      match cond g with
      | inl (VBool true) => andthen (body g) (fun g1 _ => andthen (step g1) (fun g2 _ => loop k' cond body step g2))
      | inl (VBool false) => Some (g, inl VNil)
      | inl _ => Some (g, inr (msg m_forcond []))
      | inr q => Some (g, inr q)
      end
  end.
(** the condition of a loop and the subject of a switch; none: true *)
Definition oval (e : option ex) (g : env) : value + pvq := match e with None => inl (VBool true) | Some e => xval L g e end.
Definition assigned (x : bytes) (r : opres) (g : env) : option outcome := match r with inl v => Some (with_var x v g, inl v) | inr q => Some (g, inr q) end.
Definition no_variable (x : bytes) : pvq := msg m_novar [VStr x].
(** [k] bounds the rounds of each loop *)
Fixpoint srun (k : nat) (st : stmt) (g : env) : option outcome :=
  match st with
  | SNone => Some (g, inl VNil)
  | SVal e => Some (g, xval L g e)
  | SSet x e => assigned x (xval L g e) g
  | SInc f x => match g x with Some v => assigned x (f v) g | None => Some (g, inr (no_variable x)) end
  | SOp f x e =>
      match xval L g e with
      | inl w => match g x with Some v => assigned x (f v w) g | None => Some (g, inr (no_variable x)) end
      | inr q => Some (g, inr q)
      end
  | SIf br els => ifrun k br (brun k els) g
  | SSwitch e br dflt => match oval e g with inl v => caserun k v br (brun k dflt) g | inr q => Some (g, inr q) end
  | SFor i c st b => andthen (srun k i g) (fun g1 _ => loop k (oval c) (brun k b) (srun k st) g1)
  end
with brun (k : nat) (b : block) (g : env) : option outcome :=
  match b with
  | BNil => Some (g, inl VNil)
  | BCons s BNil => srun k s g
  | BCons s b' => andthen (srun k s g) (fun g1 _ => brun k b' g1)
  end
(* the first branch whose condition is true *)
with ifrun (k : nat) (br : branches) (els : env -> option outcome) (g : env) : option outcome :=
  match br with
  | CNil => els g
  | CCons c b br' =>
      match xval L g c with
      | inl (VBool true) => brun k b g
      | inl (VBool false) => ifrun k br' els g
      | inl _ => Some (g, inr (PvErr (EOther (VMsg m_ifcond []))))
      | inr q => Some (g, inr q)
      end
  end
(* the first branch that is equal *)
with caserun (k : nat) (v : value) (br : branches) (dflt : env -> option outcome) (g : env) : option outcome :=
  match br with
  | CNil => dflt g
  | CCons c b br' =>
      match xval L g c with
      | inl w => match EQ (l_same L) v w with inl (VBool true) => brun k b g | inl _ => caserun k v br' dflt g | inr q => Some (g, inr q) end
      | inr q => Some (g, inr q)
      end
  end.

(** ** Sessions *)
(** a host program as in QEmbed that may also have such programs run *)
Inductive prequest : Type := PAsk (r : request) | PRun (b : block).
Inductive prequests (isL isD : Z -> bool) (semis : bool) : action -> prequest -> Prop :=
| pq_ask : forall a r, requests L isL isD semis a r -> prequests isL isD semis a (PAsk r)
| pq_run : forall old src ts eof b, Tokenize isL isD false semis (AutoKw q_akw) old src = TzOk ts eof -> b <> BNil -> bwritten b ts ->
    prequests isL isD semis (AEval old src) (PRun b).
(** None: not finished *)
Definition panswered (k : nat) (g : env) (r : prequest) : option (answer * env) :=
  match r with
  | PAsk r => Some (answered L g r)
  | PRun b => match brun k b g with Some (g', inl v) => Some (AValue v, g') | Some (g', inr q) => Some (AFailed q, g') | None => None end
  end.
Fixpoint panswers (k : nat) (g : env) (l : list prequest) : option (list answer * env) :=
  match l with
  | [] => Some ([], g)
  | r :: l' =>
      match panswered k g r with
      | Some (a, g1) => match panswers k g1 l' with Some (al, g2) => Some (a :: al, g2) | None => None end
      | None => None
      end
  end.
End While.
