(** What a calculator's text means: arithmetic expressions over tokens with the usual precedence, evaluated from left
    to right.  [None] is an expression whose evaluation fails. *)
From Verif Require Import Base Token.

Section Spec.
Context {E : Type}.
(** literals and constants: token kind and value *)
Variable lits : list (Z * (bytes -> option E)).
(** binary operators of the two levels: token kind and meaning *)
Variables muls adds : list (Z * (E -> E -> option E)).
Variable neg : E -> option E.
(** functions *)
Variable call : bytes -> list E -> option E.

(** an INT token may stand for a FLOAT *)
Definition kind_is (k : Z) (t : token) : Prop := tkind t = k \/ (tkind t = INT /\ k = FLOAT).
Definition opt1 (f : E -> option E) (a : option E) : option E := match a with Some x => f x | None => None end.
Definition opt2 (f : E -> E -> option E) (a b : option E) : option E := match a, b with Some x, Some y => f x y | _, _ => None end.
Fixpoint all_some (l : list (option E)) : option (list E) :=
  match l with
  | [] => Some []
  | a :: l' => match a, all_some l' with Some x, Some xs => Some (x :: xs) | _, _ => None end
  end.
Definition callv (f : bytes) (args : list (option E)) : option E := match all_some args with Some vs => call f vs | None => None end.

(** [v_factor ts r]: the tokens [ts] are a factor with value [r]; [v_muls a ts r]: [ts] is a sequence of an operator and
    a factor each, which makes [r] of the value [a] on its left; [v_more ts rs]: [ts] is a sequence of a comma and an
    expression each, with the values [rs]. *)
Inductive v_factor : list token -> option E -> Prop :=
| V_lit : forall k f t, In (k, f) lits -> kind_is k t -> v_factor [t] (f (tlit t))
| V_neg : forall t ts a, tkind t = SUB -> v_factor ts a -> v_factor (t :: ts) (opt1 neg a)
| V_pos : forall t ts a, tkind t = ADD -> v_factor ts a -> v_factor (t :: ts) a
| V_par : forall t1 ts t2 a, tkind t1 = LPAREN -> v_doc ts a -> tkind t2 = RPAREN -> v_factor (t1 :: ts ++ [t2]) a
| V_call0 : forall t t1 t2, tkind t = IDENT -> tkind t1 = LPAREN -> tkind t2 = RPAREN -> v_factor [t; t1; t2] (callv (tlit t) [])
| V_call : forall t t1 ts a ts' rs t2, tkind t = IDENT -> tkind t1 = LPAREN -> v_doc ts a -> v_more ts' rs -> tkind t2 = RPAREN ->
    v_factor (t :: t1 :: (ts ++ ts') ++ [t2]) (callv (tlit t) (a :: rs))
with v_muls : option E -> list token -> option E -> Prop :=
| V_mul0 : forall a, v_muls a [] a
| V_mul : forall a t f ts b ts' r, In (tkind t, f) muls -> v_factor ts b -> v_muls (opt2 f a b) ts' r -> v_muls a (t :: ts ++ ts') r
with v_term : list token -> option E -> Prop :=
| V_term : forall ts a ts' r, v_factor ts a -> v_muls a ts' r -> v_term (ts ++ ts') r
with v_adds : option E -> list token -> option E -> Prop :=
| V_add0 : forall a, v_adds a [] a
| V_add : forall a t f ts b ts' r, In (tkind t, f) adds -> v_term ts b -> v_adds (opt2 f a b) ts' r -> v_adds a (t :: ts ++ ts') r
with v_doc : list token -> option E -> Prop :=
| V_doc : forall ts a ts' r, v_term ts a -> v_adds a ts' r -> v_doc (ts ++ ts') r
with v_more : list token -> list (option E) -> Prop :=
| V_more0 : v_more [] []
| V_more : forall t ts a ts' rs, tkind t = COMMA -> v_doc ts a -> v_more ts' rs -> v_more (t :: ts ++ ts') (a :: rs).
End Spec.
