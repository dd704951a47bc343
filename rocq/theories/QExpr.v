(** Expressions of qlang: how they are written and what their values are.  The specification for Property C75: it knows
    nothing of the stack, of evaluating pieces of code, nor of the grammar. *)
From Coq Require Import String SpecFloat.
From Verif Require Import Base Token Grammar Interp QValue Qlang QlangSpec QText.
Local Open Scope Z_scope.

Inductive ex : Type :=
| XLit (v : value)
| XVar (n : bytes)
| XUn (f : value -> opres) (e : ex)
| XBin (f : value -> value -> opres) (a b : ex)
| XAnd (a b : ex)
| XOr (a b : ex).

Section Expr.
Context {W : Type}.
Variable L : qlib W.
Notation St := (est nat value (@rest W)).

(** ** How an expression is written *)
(** literals *)
Inductive literal : token -> value -> Prop :=
| lit_int : forall t z, tkind t = INT -> ParseInt (tlit t) = Val (inl z) -> literal t (VInt z)
| lit_float : forall t f, tkind t = FLOAT -> ParseFloat f_of_int (l_parse_float L) (tlit t) = Val (inl f) -> literal t (VFloat f)
| lit_string : forall t b, tkind t = STRING -> l_unquote L (tlit t) = Some b -> literal t (VStr b)
| lit_char : forall t q c z, tkind t = CHAR -> tlit t = q :: c ++ [q] -> l_unquote_char L c = Some (z, false, []) -> literal t (VByte (wrap8 z)).
(** binary operators: how tightly they bind (1: most), the kind of their token, and the function *)
Inductive operator : nat -> Z -> (value -> value -> opres) -> Prop :=
| op_mul : operator 1 42 Mul | op_quo : operator 1 47 Quo | op_mod : operator 1 37 Mod
| op_add : operator 2 43 Add | op_sub : operator 2 45 Sub
| op_lt : operator 3 60 LT | op_gt : operator 3 62 GT | op_le : operator 3 150 LE | op_ge : operator 3 151 GE
| op_eq : operator 3 148 (EQ (l_same L)) | op_ne : operator 3 149 (NE (l_same L)).
(** [written l e ts]: the tokens [ts] are [e], written with operators that bind at least as tightly as level [l]; binary
    operators are left associative *)
Inductive written : nat -> ex -> list token -> Prop :=
| w_lit : forall t v, literal t v -> written 0 (XLit v) [t]
| w_var : forall t, tkind t = IDENT -> written 0 (XVar (tlit t)) [t]
| w_paren : forall t e ts t', tkind t = LPAREN -> written 5 e ts -> tkind t' = RPAREN -> written 0 e (t :: ts ++ [t'])
| w_not : forall t e ts, tkind t = BANG -> written 0 e ts -> written 0 (XUn Not e) (t :: ts)
| w_neg : forall t e ts, tkind t = MINUS -> written 0 e ts -> written 0 (XUn Neg e) (t :: ts)
| w_pos : forall t e ts, tkind t = PLUS -> written 0 e ts -> written 0 e (t :: ts)
| w_bin : forall l t f a ts b ts', operator (S l) (tkind t) f -> written (S l) a ts -> written l b ts' -> written (S l) (XBin f a b) (ts ++ t :: ts')
| w_and : forall t a ts b ts', tkind t = ANDAND -> written 4 a ts -> written 3 b ts' -> written 4 (XAnd a b) (ts ++ t :: ts')
| w_or : forall t a ts b ts', tkind t = OROR -> written 5 a ts -> written 4 b ts' -> written 5 (XOr a b) (ts ++ t :: ts')
| w_up : forall l e ts, (l < 5)%nat -> written l e ts -> written (S l) e ts.

(** ** Its value in frame [p] of state [s], or the panic it ends in *)
Inductive has_value (s : St) (p : nat) : ex -> value + pvq -> Prop :=
| v_lit : forall v, has_value s p (XLit v) (inl v)
| v_var : forall n q v, n <> n_unset -> sees s n p q v -> has_value s p (XVar n) (inl v)
| v_builtin : forall n v, n <> n_unset -> n <> [] -> (forall q v, ~ sees s n p q v) -> l_fnval L n = Some v -> has_value s p (XVar n) (inl v)
| v_unknown : forall n, n <> n_unset -> n <> [] -> (forall q v, ~ sees s n p q v) -> l_fnval L n = None -> has_value s p (XVar n) (inr (msg m_nosym [VStr n]))
(* unset refers to the function it is read in *)
| v_unset : has_value s p (XVar n_unset) (inl (VUnset p))
| v_noname : (forall q v, ~ sees s [] p q v) -> has_value s p (XVar []) (inr rt_error)
| v_un : forall f e v, has_value s p e (inl v) -> has_value s p (XUn f e) (f v)
| v_un_err : forall f e q, has_value s p e (inr q) -> has_value s p (XUn f e) (inr q)
(* both operands are evaluated, the left one first *)
| v_bin : forall f a b v w, has_value s p a (inl v) -> has_value s p b (inl w) -> has_value s p (XBin f a b) (f v w)
| v_bin_err1 : forall f a b q, has_value s p a (inr q) -> has_value s p (XBin f a b) (inr q)
| v_bin_err2 : forall f a b v q, has_value s p a (inl v) -> has_value s p b (inr q) -> has_value s p (XBin f a b) (inr q)
(* the right operand is evaluated only if the left one does not settle the result *)
| v_and_false : forall a b, has_value s p a (inl (VBool false)) -> has_value s p (XAnd a b) (inl (VBool false))
| v_and_true : forall a b r, has_value s p a (inl (VBool true)) -> has_value s p b r -> has_value s p (XAnd a b) r
| v_and_err : forall a b q, has_value s p a (inr q) -> has_value s p (XAnd a b) (inr q)
| v_and_type : forall a b v, has_value s p a (inl v) -> (forall x, v <> VBool x) -> has_value s p (XAnd a b) (inr (msg m_and []))
| v_or_true : forall a b, has_value s p a (inl (VBool true)) -> has_value s p (XOr a b) (inl (VBool true))
| v_or_false : forall a b r, has_value s p a (inl (VBool false)) -> has_value s p b r -> has_value s p (XOr a b) r
| v_or_err : forall a b q, has_value s p a (inr q) -> has_value s p (XOr a b) (inr q)
| v_or_type : forall a b v, has_value s p a (inl v) -> (forall x, v <> VBool x) -> has_value s p (XOr a b) (inr (msg m_or [])).
(** after a panic in [p]: no variable and nothing else has changed, but there may be more on the stack, and [p] may be based
    somewhere in the part above *)
Definition kept (p : nat) (s s' : St) : Prop :=
  (forall n i v, defines s' n i v <-> defines s n i v) /\
  (forall i, fr_ret (getf i s') = fr_ret (getf i s) /\ fr_recov (getf i s') = fr_recov (getf i s) /\ parent i s' = parent i s /\
             fr_defers (getf i s') = fr_defers (getf i s)) /\
  (forall i, fr_base (getf i s') = fr_base (getf i s) \/ i = p /\ (length (e_stk s) <= fr_base (getf i s') <= length (e_stk s'))%nat) /\
  (exists l, e_stk s' = l ++ e_stk s) /\
  nframes s' = nframes s /\ e_mute s' = e_mute s /\ e_ipt s' = e_ipt s /\
  r_objs (e_rest s') = r_objs (e_rest s) /\ r_ids (e_rest s') = r_ids (e_rest s) /\ r_excs (e_rest s') = r_excs (e_rest s) /\ r_world (e_rest s') = r_world (e_rest s).
(** an evaluation in [p] that started in [s] has given [o]: the value is on the stack and no variable has changed; or it has
    panicked, with some source, and no variable has changed either *)
Definition gave (p : nat) (s : St) (o : value + pvq) (r : @qres W unit) : Prop :=
  match o with
  | inl v => exists s', r = inl (tt, pushed v s') /\ same_defs s s' /\ coherent s'
  | inr q => exists src s', r = inr (wrap src (PUser q), s') /\ kept p s s' /\ coherent s'
  end.
End Expr.
