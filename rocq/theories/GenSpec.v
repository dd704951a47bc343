(** Specification for GenStaticCode (C64): how Go reads the program text, and which grammar texts avoid the generator's
    defects.  Nothing here comes from the generator. *)
From Coq Require Import String.
From Verif Require Import Base Token Utf8 Grammar Compiler GramSyntax CompilerTop.
Local Open Scope Z_scope.

(** ** Words and names of Go *)
Definition delim (c : Z) : bool := (c =? 40) || (c =? 41) || (c =? 44) || (c =? 34) || (c =? 39) || (c =? 10) || (c =? 32).
(** the longest word the text begins with, and the rest *)
Fixpoint word (s : bytes) : bytes * bytes :=
  match s with
  | [] => ([], [])
  | c :: s' => if delim c then ([], s) else let (w, r) := word s' in (c :: w, r)
  end.
Definition expect (c : Z) (s : bytes) : option bytes := match s with x :: r => if x =? c then Some r else None | [] => None end.
Fixpoint skip (p s : bytes) : option bytes :=
  match p with [] => Some s | c :: p' => match expect c s with Some r => skip p' r | None => None end end.
Definition name_byte (first : bool) (c : Z) : bool :=
  ((97 <=? c) && (c <=? 122)) || ((65 <=? c) && (c <=? 90)) || (c =? 95) || (128 <=? c) || (negb first && (48 <=? c) && (c <=? 57)).
(** letters, digits and underscores, not a digit first; bytes from 128 on are taken for parts of letters *)
Definition name_bytes (n : bytes) : bool := match n with [] => false | c :: r => name_byte true c && forallb (name_byte false) r end.
(** Go's keywords, and the names with a meaning in the generated method *)
Definition reserved : list bytes := Eval vm_compute in map s2b [
  "break"; "default"; "func"; "interface"; "select"; "case"; "defer"; "go"; "map"; "struct"; "chan"; "else"; "goto"; "package"; "switch";
  "const"; "fallthrough"; "if"; "range"; "type"; "continue"; "for"; "import"; "return"; "var";
  "_"; "nil"; "true"; "new"; "tpl"; "cmplr"; "ret"]%string.
Definition go_name (n : bytes) : bool := name_bytes n && negb (mem n reserved).

(** ** Expressions of type tpl.Grammar *)
(** constants of tpl/token.go:10-20 *)
Definition go_const : list (bytes * Z) := Eval vm_compute in
  map (fun p => (s2b (fst p), snd p)) [("tpl.ILLEGAL", 0); ("tpl.EOF", 1); ("tpl.COMMENT", 2); ("tpl.IDENT", 3); ("tpl.INT", 4); ("tpl.FLOAT", 5);
    ("tpl.IMAG", 6); ("tpl.CHAR", 7); ("tpl.STRING", 8)]%string.
(** the argument of tpl.Gr: a rune literal 'c' or a constant *)
Definition read_token (s : bytes) : option (Z * bytes) :=
  match s with
  | q :: c :: q' :: r => if (q =? 39) && (q' =? 39) && (32 <=? c) && (c <=? 126) && negb (c =? 39) && negb (c =? 92) then Some (c, r)
                         else let (w, r) := word s in match find w go_const with Some k => Some (k, r) | None => None end
  | _ => None
  end.
Definition w_Gr : bytes := Eval vm_compute in s2b "tpl.Gr".
Definition w_Marker : bytes := Eval vm_compute in s2b "cmplr.Marker".
Definition w_Assign : bytes := Eval vm_compute in s2b ".Assign".
Section Read.
Context {A T : Type}.
Notation G := (gr A T).
(** the names declared, and what cmplr.Marker does *)
Variable declared : bytes -> bool.
Variable mark : bytes -> G -> G.
(** the functions of package tpl: grammar.go:181-600 *)
Definition apply (w : bytes) (gs : list G) : option G :=
  match gs with
  | [g] =>
      if beq w (s2b "tpl.Repeat0") then Some (GRep0 0 g) else if beq w (s2b "tpl.Repeat1") then Some (GRep1 0 g)
      else if beq w (s2b "tpl.Repeat01") then Some (GRep01 0 g) else if beq w (s2b "tpl.Not") then Some (GNot g)
      else if beq w (s2b "tpl.Peek") then Some (GPeek g) else if beq w (s2b "tpl.And") then Some (GAnd [g])
      else if beq w (s2b "tpl.Or") then Some (GOr [g]) else None
  | _ =>
      if beq w (s2b "tpl.And") then Some (GAnd gs) else if beq w (s2b "tpl.Or") then Some (GOr gs)
      else match gs with
           | [a; b] => if beq w (s2b "tpl.List") then Some (GList 0 a b false) else if beq w (s2b "tpl.List0") then Some (GList 0 a b true) else None
           | _ => None
           end
  end.
Definition bare (w : bytes) : option G :=
  if declared w then Some (GVar w) else if beq w (s2b "nil") then Some GNil else if beq w (s2b "tpl.GrTrue") then Some GTrue else None.
(** an expression at the beginning of [s], and what follows it; a call's arguments up to the closing parenthesis *)
Fixpoint read (f : nat) (s : bytes) : option (G * bytes) :=
  match f with
  | O => None
  | S f =>
      let (w, r) := word s in
      match expect 40 r with
      | None => match bare w with Some g => Some (g, r) | None => None end
      | Some r1 =>
          if beq w w_Gr then
            match read_token r1 with
            | Some (k, r2) => match expect 41 r2 with Some r3 => Some (GTok k, r3) | None => None end
            | None => None
            end
          else if beq w w_Marker then
            match read f r1 with
            | Some (g, r2) =>
                match skip [44; 34] r2 with
                | Some r3 => let (n, r4) := word r3 in match skip [34; 41] r4 with Some r5 => Some (mark n g, r5) | None => None end
                | None => None
                end
            | None => None
            end
          else match read_args f r1 with
               | Some (gs, r2) => match apply w gs with Some g => Some (g, r2) | None => None end
               | None => None
               end
      end
  end
with read_args (f : nat) (s : bytes) : option (list G * bytes) :=
  match f with
  | O => None
  | S f =>
      match read f s with
      | Some (g, r) =>
          match expect 44 r with
          | Some r1 => match read_args f r1 with Some (gs, r2) => Some (g :: gs, r2) | None => None end
          | None => match expect 41 r with Some r1 => Some ([g], r1) | None => None end
          end
      | None => None
      end
  end.
(** ** Statements x.Assign(g), of a GrVar, and x.Assign("name", g), of a GrNamed *)
Definition chop (p w : bytes) : option bytes :=
  let k := (length w - length p)%nat in if beq (skipn k w) p then Some (firstn k w) else None.
Definition read_stmt (s : bytes) : option (bytes * option bytes * G) :=
  let (w, r) := word s in
  match chop w_Assign w, expect 40 r with
  | Some n, Some r1 =>
      if declared n then
        match expect 34 r1 with
        | Some r2 =>
            let (l, r3) := word r2 in
            match skip [34; 44; 32] r3 with
            | Some r4 => match read (S (length s)) r4 with Some (g, r5) => if beq r5 [41] then Some (n, Some l, g) else None | None => None end
            | None => None
            end
        | None => match read (S (length s)) r1 with Some (g, r5) => if beq r5 [41] then Some (n, None, g) else None | None => None end
        end
      else None
  | _, _ => None
  end.
(** statements, one a line, with comments *)
Fixpoint read_stmts (ls : list bytes) : option (list (bytes * option bytes * G)) :=
  match ls with
  | [] => Some []
  | l :: ls' =>
      match skip [47; 47] l with
      | Some _ => read_stmts ls'
      | None => match read_stmt l, read_stmts ls' with Some x, Some xs => Some (x :: xs) | _, _ => None end
      end
  end.
End Read.
(** ** The part of the method between its head and its tail: a var block, then statements *)
Fixpoint lines (s : bytes) : list bytes :=
  match s with
  | [] => []
  | c :: s' => if c =? 10 then [] :: lines s' else match lines s' with l :: ls => (c :: l) :: ls | [] => [[c]] end
  end.
(** x = new(tpl.GrVar) or x = new(tpl.GrNamed) *)
Definition read_decl (l : bytes) : option (bytes * bool) :=
  let (n, r) := word l in
  if go_name n then
    if beq r (s2b " = new(tpl.GrVar)") then Some (n, false) else if beq r (s2b " = new(tpl.GrNamed)") then Some (n, true) else None
  else None.
Fixpoint read_decls (ls : list bytes) : option (list (bytes * bool) * list bytes) :=
  match ls with
  | [] => None
  | l :: ls' =>
      if beq l [41] then Some ([], ls')
      else match read_decl l, read_decls ls' with Some x, Some (xs, r) => Some (x :: xs, r) | _, _ => None end
  end.
Definition read_body {A T : Type} (mark : bytes -> gr A T -> gr A T) (s : bytes) : option (list (bytes * bool) * list (bytes * option bytes * gr A T)) :=
  match lines s with
  | l :: ls =>
      if beq l (s2b "var (") then
        match read_decls ls with
        | Some (ds, ls') => match read_stmts (fun n => mem n (map fst ds)) mark ls' with Some ss => Some (ds, ss) | None => None end
        | None => None
        end
      else None
  | [] => None
  end.

(** ** Grammar texts without +, quoted operators and keywords, and with names Go accepts *)
Fixpoint plain_factor (f : factor) : bool :=
  match f with
  | FIdent n => upper n || go_name n
  | FChar l => match l with q :: _ => q =? 39 | [] => false end
  | FString _ => false
  | FInt _ => true
  | FPre o f1 => (match o with PPlus => false | _ => true end) && plain_factor f1
  | FParen g => forallb (fun e => forallb plain_item e) g
  end
with plain_item (i : item) : bool := match i with IBang => true | ITerm f ss => plain_factor f && forallb plain_suffix ss end
with plain_suffix (s : suffix) : bool := match s with SList f | SList0 f => plain_factor f | SMark n => name_bytes n end.
Definition plain_gram (g : gram) : bool := forallb (fun e => forallb plain_item e) g.
(** ... in which no rule that is used before its definition is used again after it *)
Definition faithful (rs : list rule) : Prop :=
  forallb (fun r => go_name (fst r) && plain_gram (snd r)) rs = true /\
  forall a r b n, rs = a ++ r :: b -> In n (refs_gram (snd r)) -> In n (names a) -> ~ early a n.
