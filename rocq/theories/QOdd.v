(** The two constructs that the qlang grammar (cl/qlang.go:14-76) accepts although they are no text of QText: with it, the
    specification of C74_accepted.
    - qlang.go:57 makes the first expression, the colon and the second expression of an index optional, each by itself;
    - qlang.go:67 allows any statement in the header of for. *)
From Coq Require Import String SpecFloat.
From Verif Require Import Base Token Grammar Compiler Interp QValue Qlang QlangSpec QlangTop QText.
Local Open Scope list_scope. Local Open Scope Z_scope.

Section Odd.
Context {W : Type}.
Variable L : qlib W.
(** what can come before an index *)
Definition ends_atom : list Z := [IDENT; RPAREN; RBRACK; RBRACE; CLASS; NEW; RECOVER; MAIN].
(** x[] and x[i j]: an index with no or two expressions and no colon *)
Definition odd_index (ts : list token) : Prop :=
  exists a t l i ci j cj r b, ts = a ++ t :: l :: i ++ j ++ r :: b /\ In (tkind t) ends_atom /\ tkind l = LBRACK /\ opt_expr L i ci /\ opt_expr L j cj /\ tkind r = RBRACK /\ (i = [] <-> j = []).
(** statements with semicolons between them *)
Inductive joined : list (list token) -> list token -> Prop :=
| J_one : forall s, joined [s] s
| J_more : forall s t ss r, tkind t = SEMI -> joined ss r -> joined (s :: ss) (s ++ t :: r).
(** a return statement in the header of for *)
Definition odd_for (ts : list token) : Prop :=
  exists a f hs ss l b, ts = a ++ f :: hs ++ l :: b /\ tkind f = FOR /\ joined ss hs /\ Forall (fun s => exists c, stmt_is L s c) ss /\
    Exists (fun s => hd_error (map tkind s) = Some RETURN) ss /\ tkind l = LBRACE.
Definition odd (ts : list token) : Prop := odd_index ts \/ odd_for ts.
End Odd.
