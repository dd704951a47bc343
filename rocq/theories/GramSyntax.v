(** Specification of the grammar language (tpl/README.md and the comment compiler.go:131-154), independent of
    the compiler's stack machine: abstract syntax, the token sequence of a syntax tree, and the grammar it denotes. *)
From Coq Require Import String.
From Verif Require Import Base Token Utf8 Scanner Tokenize Grammar Matcher Compiler.

(** ** Abstract syntax, with the documented precedence: prefix operators bind tightest, then the left-associative
    [% %= /mark], then juxtaposition (with [!]), then [|]. *)
Inductive preop : Type := PStar | PPlus | POpt | PNot | PPeek.
Inductive factor : Type :=
| FIdent (name : bytes)
| FChar (lit : bytes)
| FString (lit : bytes)
| FInt (lit : bytes)
| FPre (op : preop) (f : factor)
| FParen (g : list (list item))
with item : Type :=
| IBang
| ITerm (f : factor) (ss : list suffix)
with suffix : Type :=
| SList (f : factor)
| SList0 (f : factor)
| SMark (name : bytes).
Definition expr := list item.
Definition gram := list expr.
Definition rule : Type := (bytes * gram)%type.

(** A tree is a sentence of the language when no alternative and no choice is empty. *)
Definition nonempty {X : Type} (l : list X) : bool := match l with [] => false | _ => true end.
Fixpoint ok_factor (f : factor) : bool :=
  match f with
  | FPre _ f1 => ok_factor f1
  | FParen g =>
      nonempty g && forallb (fun e => nonempty e && forallb ok_item e) g
  | _ => true
  end
with ok_item (i : item) : bool :=
  match i with IBang => true | ITerm f ss => ok_factor f && forallb ok_suffix ss end
with ok_suffix (s : suffix) : bool :=
  match s with SList f | SList0 f => ok_factor f | SMark _ => true end.
Definition ok_expr (e : expr) : bool := nonempty e && forallb ok_item e.
Definition ok_gram (g : gram) : bool := nonempty g && forallb ok_expr g.
Definition ok_doc (d : list rule) : bool := nonempty d && forallb (fun r => ok_gram (snd r)) d.

(** ** Concrete syntax: kinds of tokens, with the literal where it matters. *)
Definition sig : Type := (Z * bytes)%type.
Definition op (k : Z) : sig := (k, []).
Definition has_lit (k : Z) : bool := (k =? IDENT) || (k =? CHAR) || (k =? STRING) || (k =? INT).
Definition sig_of (t : token) : sig := (tkind t, if has_lit (tkind t) then tlit t else []).

Definition pre_kind (o : preop) : Z := match o with PStar => 42 | PPlus => 43 | POpt => 63 | PNot => 126 | PPeek => 64 end.
(** x1 sep x2 sep ... *)
Fixpoint joined (sep : list sig) (ls : list (list sig)) : list sig :=
  match ls with
  | [] => []
  | [l] => l
  | l :: ls' => l ++ sep ++ joined sep ls'
  end.
Fixpoint r_factor (f : factor) : list sig :=
  match f with
  | FIdent n => [(IDENT, n)]
  | FChar l => [(CHAR, l)]
  | FString l => [(STRING, l)]
  | FInt l => [(INT, l)]
  | FPre o f1 => op (pre_kind o) :: r_factor f1
  | FParen g => op LPAREN :: joined [op OR] (map (fun e => flat_map r_item e) g) ++ [op RPAREN]
  end
with r_item (i : item) : list sig :=
  match i with IBang => [op NOT] | ITerm f ss => r_factor f ++ flat_map r_suffix ss end
with r_suffix (s : suffix) : list sig :=
  match s with
  | SList f => op REM :: r_factor f
  | SList0 f => op REM_ASSIGN :: r_factor f
  | SMark n => [op QUO; (IDENT, n)]
  end.
Definition r_expr (e : expr) : list sig := flat_map r_item e.
Definition r_gram (g : gram) : list sig := joined [op OR] (map r_expr g).
Definition r_rule (r : rule) : list sig := (IDENT, fst r) :: op ASSIGN :: r_gram (snd r) ++ [op SEMICOLON].
Definition r_doc (d : list rule) : list sig := flat_map r_rule d.

(** ** Meaning *)
Section Meaning.
Context {A T PM M : Type}.
Notation G := (gr A T).
Notation D := (dst A T M).
Variable marker : G -> bytes -> M -> (G * M) + (PM * M).

(** Elaboration may fail with a panic of the compiler. *)
Definition el (X : Type) : Type := D -> (X * D) + cpan PM.
Definition ret {X} (x : X) : el X := fun d => inl (x, d).
Definition fails {X} (p : cpan PM) : el X := fun _ => inr p.
Definition bind {X Y} (m : el X) (k : X -> el Y) : el Y := fun d => match m d with inl (x, d') => k x d' | inr p => inr p end.
Notation "'let*' x := m 'in' k" := (bind m (fun x => k)) (at level 61, x name, m at next level, right associativity).
Definition fresh : el nat := fun d => inl (new_obj d).

(** A named or quoted token. *)
Definition the_token (name : bytes) : el G := fun d =>
  match tk_ltot (d_tk d) name with
  | Crash => inr CPCrash
  | Val (tok, k) => if tok =? ILLEGAL then inr (CPIllegal name) else inl (GTok tok, set_tk k d)
  end.
(** A name: capitalized names are tokens; a rule already defined is referred to directly, others by a variable;
    [true] is the always-matching rule unless it is a rule. *)
Definition the_name (name : bytes) : el G := fun d =>
  match name with
  | [] => inr CPCrash
  | ch :: _ =>
      if (65 <=? ch) && (ch <=? 90) then the_token name d
      else match find name (d_grams d), find name (d_vars d) with
           | Some g, _ => inl (GNamed name g, d)
           | None, Some _ => inl (GVar name, d)
           | None, None => if beq name n_true then inl (GTrue, d) else inl (GVar name, add_var name d)
           end
  end.
Definition the_mark (g : G) (name : bytes) : el G := fun d =>
  match marker g name (d_m d) with inl (g', m) => inl (g', set_m m d) | inr (p, _) => inr (CPMarker p) end.
Definition prefix (o : preop) (g : G) : el G :=
  match o with
  | PStar => let* i := fresh in ret (GRep0 i g)
  | PPlus => let* i := fresh in ret (GRep1 i g)
  | POpt => let* i := fresh in ret (GRep01 i g)
  | PNot => ret (GNot g)
  | PPeek => ret (GPeek g)
  end.
Section Each.
Context {X Y : Type}.
Variable f : X -> el Y.
Fixpoint each (l : list X) : el (list Y) :=
  match l with [] => ret [] | x :: l' => let* y := f x in let* ys := each l' in ret (y :: ys) end.
End Each.
(** a sequence or choice of one thing is that thing *)
Definition group (mk : list G -> G) (gs : list G) : G := match gs with [g] => g | _ => mk gs end.

Fixpoint e_factor (f : factor) : el G :=
  match f with
  | FIdent n => the_name n
  | FChar l | FString l => the_token l
  | FInt l => if beq l [49] then ret GTrue else fails (CPIllegal l)
  | FPre o f1 => let* g := e_factor f1 in prefix o g
  | FParen g => let* gs := each (fun e => let* xs := each e_item e in ret (group GAnd xs)) g in ret (group GOr gs)
  end
with e_item (i : item) : el G :=
  match i with
  | IBang => ret GNil
  | ITerm f ss => let* g := e_factor f in
      (fix go (ss : list suffix) (g : G) : el G :=
         match ss with [] => ret g | s :: ss' => let* g' := e_suffix s g in go ss' g' end) ss g
  end
with e_suffix (s : suffix) (g : G) : el G :=
  match s with
  | SList f => let* b := e_factor f in let* i := fresh in ret (GList i g b false)
  | SList0 f => let* b := e_factor f in let* i := fresh in ret (GList i g b true)
  | SMark n => the_mark g n
  end.
Definition e_expr (e : expr) : el G := let* xs := each e_item e in ret (group GAnd xs).
Definition e_gram (g : gram) : el G := let* gs := each e_expr g in ret (group GOr gs).
(** A definition gives the variable its value when the name was used before. *)
Definition define (name : bytes) (g : G) : el unit := fun d =>
  match find name (d_vars d) with
  | Some e => if is_nil e then inl (tt, set_var name g d) else inr (CPAssigned name)
  | None => match find name (d_grams d) with
            | Some _ => inr (CPExists name)
            | None => inl (tt, add_gram name g d)
            end
  end.
Definition e_rule (r : rule) : el unit := let* g := e_gram (snd r) in define (fst r) g.
Fixpoint e_doc (d : list rule) : el unit :=
  match d with [] => ret tt | r :: d' => let* _ := e_rule r in e_doc d' end.
End Meaning.
