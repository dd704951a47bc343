(** Reading the text of a program of QFun: a reader by recursive descent, and that what it reads is written so (Property C94). *)
From Coq Require Import String SpecFloat.
From Verif Require Import Base Token Scanner Tokenize Grammar Compiler Interp Calc QValue Qlang QlangSpec QlangTop QText QTidy QExpr QEval PropVars QExprP QEmbed PropEmbed QWhile QWhileP QFun QFunP QFunK.
Local Open Scope list_scope.
Local Open Scope Z_scope.

Section Read.
Context {W : Type}.
Variable L : qlib W.

(** a reader gives what it has read and the tokens after it *)
Definition got (A : Type) : Type := option (A * list token).
Definition opt_then {A B : Type} (o : got A) (k : A -> list token -> option B) : option B := match o with Some (a, r) => k a r | None => None end.
Definition or_else {A : Type} (o o' : got A) : got A := match o with Some _ => o | None => o' end.
Notation "'let*' ( a , r ) := o 'in' k" := (opt_then o (fun a r => k)) (at level 200, a name, r name).
(** a token of kind [k] *)
Definition tok (k : Z) (ts : list token) : got token := match ts with t :: r => if tkind t =? k then Some (t, r) else None | [] => None end.

Definition literal_of (t : token) : option value :=
  if tkind t =? INT then match ParseInt (tlit t) with Val (inl z) => Some (VInt z) | _ => None end
  else if tkind t =? FLOAT then match ParseFloat f_of_int (l_parse_float L) (tlit t) with Val (inl f) => Some (VFloat f) | _ => None end
  else if tkind t =? STRING then match l_unquote L (tlit t) with Some b => Some (VStr b) | None => None end
  else if tkind t =? CHAR then
    match tlit t with
    | q :: r => if beq r (removelast r ++ [q]) then match l_unquote_char L (removelast r) with Some (z, false, []) => Some (VByte (wrap8 z)) | _ => None end else None
    | [] => None
    end
  else None.
(** the binary operators of level [l] *)
Definition op_at (l : nat) (k : Z) : option (fx -> fx -> fx) :=
  match l with
  | 1%nat => if k =? 42 then Some (YBin Mul) else if k =? 47 then Some (YBin Quo) else if k =? 37 then Some (YBin Mod) else None
  | 2%nat => if k =? 43 then Some (YBin Add) else if k =? 45 then Some (YBin Sub) else None
  | 3%nat => if k =? 60 then Some (YBin LT) else if k =? 62 then Some (YBin GT) else if k =? 150 then Some (YBin LE) else if k =? 151 then Some (YBin GE)
             else if k =? 148 then Some (YBin (EQ (l_same L))) else if k =? 149 then Some (YBin (NE (l_same L))) else None
  | 4%nat => if k =? ANDAND then Some YAnd else None
  | 5%nat => if k =? OROR then Some YOr else None
  | _ => None
  end.
Fixpoint r_names (n : nat) (ts : list token) : got (list bytes) :=
  match n with
  | O => None
  | S n => let* (t, r) := tok IDENT ts in
           match tok COMMA r with Some (_, r') => let* (ns, r'') := r_names n r' in Some (tlit t :: ns, r'') | None => Some ([tlit t], r) end
  end.
Definition key (A : Type) (k : Z) (l : list (Z * A)) : option A := option_map snd (List.find (fun x => fst x =? k) l).

(** whether there is a token of kind [k] *)
Definition opt (k : Z) (ts : list token) : got bool := match tok k ts with Some (_, r) => Some (true, r) | None => Some (false, ts) end.

(** [n] bounds how far the reader goes *)
Fixpoint r_expr (n l : nat) (ts : list token) : got fx :=
  match n with
  | O => None
  | S n => match l with
           | O => r_unary n ts
           | S l' => let* (a, r) := r_expr n l' ts in r_more n l' a r
           end
  end
with r_more (n l : nat) (a : fx) (ts : list token) : got fx :=
  match n with
  | O => None
  | S n => match ts with
           | t :: r => match op_at (S l) (tkind t) with Some f => let* (b, r') := r_expr n l r in r_more n l (f a b) r' | None => Some (a, ts) end
           | [] => Some (a, ts)
           end
  end
with r_unary (n : nat) (ts : list token) : got fx :=
  match n with
  | O => None
  | S n => match ts with
           | t :: r =>
               match literal_of t with
               | Some v => Some (YLit v, r)
               | None =>
                   if tkind t =? BANG then let* (e, r') := r_unary n r in Some (YUn Not e, r')
                   else if tkind t =? MINUS then let* (e, r') := r_unary n r in Some (YUn Neg e, r')
                   else if tkind t =? PLUS then r_unary n r
                   else if tkind t =? RECOVER then let* (t1, r1) := tok LPAREN r in let* (t2, r2) := tok RPAREN r1 in Some (YRecover, r2)
                   else let* (f, r') := r_atom n ts in r_calls n f r'
               end
           | [] => None
           end
  end
with r_atom (n : nat) (ts : list token) : got fx :=
  match n with
  | O => None
  | S n => match ts with
           | t :: r =>
               if tkind t =? IDENT then Some (YVar (tlit t), r)
               else if tkind t =? LPAREN then let* (e, r1) := r_expr n 5 r in let* (t', r2) := tok RPAREN r1 in Some (e, r2)
               else if tkind t =? FN then
                 let* (tl, r1) := tok LPAREN r in
                 let* (ps, r2) := match r_names n r1 with Some x => Some x | None => Some ([], r1) end in
                 let* (v, r2') := opt ELLIPSIS r2 in let* (tr, r3) := tok RPAREN r2' in let* (t1, r4) := tok LBRACE r3 in let* (b, r5) := r_block n r4 in let* (t2, r6) := tok RBRACE r5 in
                 Some (YFn ps v (firstn (length r4 - length r5) r4), r6)
               else if tkind t =? LBRACK then
                 let* (l, r1) := r_args n r in let* (c, r2) := opt COMMA r1 in let* (t', r3) := tok RBRACK r2 in Some (YSlice l, r3)
               else None
           | [] => None
           end
  end
with r_calls (n : nat) (f : fx) (ts : list token) : got fx :=
  match n with
  | O => None
  | S n => match tok LPAREN ts with
           | Some (_, r) => let* (l, r1) := r_args n r in let* (v, r2) := opt ELLIPSIS r1 in let* (c, r3) := opt COMMA r2 in let* (tr, r4) := tok RPAREN r3 in r_calls n (YCall f l v) r4
           | None =>
               match tok LBRACK ts with
               | Some (_, r) => let* (i, r1) := r_expr n 5 r in let* (tr, r2) := tok RBRACK r1 in r_calls n (YIndex f i) r2
               | None => Some (f, ts)
               end
           end
  end
with r_args (n : nat) (ts : list token) : got fxs :=
  match n with
  | O => None
  | S n => match r_expr n 5 ts with
           | Some (e, r) => let* (l, r') := r_margs n r in Some (YCons e l, r')
           | None => Some (YNil, ts)
           end
  end
with r_margs (n : nat) (ts : list token) : got fxs :=
  match n with
  | O => None
  | S n => match tok COMMA ts with
           | Some (_, r) => match r_expr n 5 r with Some (e, r1) => let* (l, r2) := r_margs n r1 in Some (YCons e l, r2) | None => Some (YNil, ts) end
           | None => Some (YNil, ts)
           end
  end
with r_stmt (n : nat) (ts : list token) : got fstmt :=
  match n with
  | O => None
  | S n => match ts with
           | [] => None
           | t :: r =>
               if tkind t =? IF then
                 let* (c, r1) := r_expr n 5 r in let* (b, r2) := r_body n r1 in let* (br, r3) := r_elifs n r2 in let* (els, r4) := r_else n r3 in
                 Some (FIf (GCons c b br) els, r4)
               else if tkind t =? SWITCH then
                 let* (x, r1) := match tok LBRACE r with Some _ => Some (None, r) | None => let* (e, r1) := r_expr n 5 r in Some (Some e, r1) end in
                 let* (t1, r2) := tok LBRACE r1 in let* (br, r3) := r_cases n r2 in let* (d, r4) := r_default n r3 in let* (t2, r5) := tok RBRACE r4 in
                 Some (FSwitch x br d, r5)
               else if tkind t =? FOR then
                 match tok LBRACE r with
                 | Some _ => let* (b, r1) := r_body n r in Some (FFor FNone None FNone b, r1)
                 | None =>
                     let* (i, r1) := r_stmt n r in
                     match tok SEMI r1 with
                     | Some (_, r2) =>
                         let* (c, r3) := r_expr n 5 r2 in let* (t2, r4) := tok SEMI r3 in let* (st, r5) := r_stmt n r4 in let* (b, r6) := r_body n r5 in
                         match i, st with FReturn _, _ => None | _, FReturn _ => None | _, _ => Some (FFor i (Some c) st b, r6) end
                     | None => match i with FVal c => let* (b, r2) := r_body n r1 in Some (FFor FNone (Some c) FNone b, r2) | _ => None end
                     end
                 end
               else if tkind t =? RETURN then
                 match r_expr n 5 r with Some (e, r1) => Some (FReturn (Some e), r1) | None => Some (FReturn None, r) end
               else if tkind t =? DEFER then
                 let* (e, r1) := r_expr n 5 r in Some (FDefer (firstn (length r - length r1) r), r1)
               else
                 let other := let* (e, r1) := r_expr n 5 ts in Some (FVal e, r1) in
                 match r with
                 | t1 :: r1 =>
                     if negb (tkind t =? IDENT) then other
                     else if (tkind t1 =? ASSIGN) && negb (beq (tlit t) []) then let* (e, r2) := r_expr n 5 r1 in Some (FSet (tlit t) e, r2)
                     else if tkind t1 =? COMMA then
                       let* (ns, r2) := r_names n r1 in let* (t2, r3) := tok ASSIGN r2 in let* (e, r4) := r_expr n 5 r3 in
                       if forallb (fun x => negb (beq x [])) (tlit t :: ns) then Some (FSets (tlit t :: ns) e, r4) else None
                     else match key _ (tkind t1) incdec_ops, key _ (tkind t1) assign_ops with
                          | Some f, _ => Some (FInc f (tlit t), r1)
                          | None, Some f => let* (e, r2) := r_expr n 5 r1 in Some (FOp f (tlit t) e, r2)
                          | None, None => other
                          end
                 | [] => other
                 end
           end
  end
(* { b } *)
with r_body (n : nat) (ts : list token) : got fblock :=
  match n with
  | O => None
  | S n => let* (t1, r1) := tok LBRACE ts in let* (b, r2) := r_block n r1 in let* (t2, r3) := tok RBRACE r2 in Some (b, r3)
  end
with r_block (n : nat) (ts : list token) : got fblock :=
  match n with
  | O => None
  | S n => match r_stmt n ts with
           | Some (s, r) => let* (b, r') := r_rest n r in Some (FCons s b, r')
           | None => Some (FNil, ts)
           end
  end
with r_rest (n : nat) (ts : list token) : got fblock :=
  match n with
  | O => None
  | S n => match tok SEMI ts with
           | None => Some (FNil, ts)
           | Some (_, r) => match r_stmt n r with
                            | Some (s, r1) => let* (b, r2) := r_rest n r1 in Some (FCons s b, r2)
                            | None => let* (b, r1) := r_rest n r in Some (FCons FNone b, r1)
                            end
           end
  end
with r_elifs (n : nat) (ts : list token) : got fbranches :=
  match n with
  | O => None
  | S n => match tok ELIF ts with
           | None => Some (GNil, ts)
           | Some (_, r) => let* (c, r1) := r_expr n 5 r in let* (b, r2) := r_body n r1 in let* (br, r3) := r_elifs n r2 in Some (GCons c b br, r3)
           end
  end
with r_else (n : nat) (ts : list token) : got fblock :=
  match n with
  | O => None
  | S n => match tok ELSE ts with None => Some (FNil, ts) | Some (_, r) => r_body n r end
  end
with r_cases (n : nat) (ts : list token) : got fbranches :=
  match n with
  | O => None
  | S n => match tok CASE ts with
           | None => Some (GNil, ts)
           | Some (_, r) => let* (c, r1) := r_expr n 5 r in let* (t1, r2) := tok COLON r1 in let* (b, r3) := r_block n r2 in let* (br, r4) := r_cases n r3 in Some (GCons c b br, r4)
           end
  end
with r_default (n : nat) (ts : list token) : got fblock :=
  match n with
  | O => None
  | S n => match tok DEFAULT ts with
           | None => Some (FNil, ts)
           | Some (_, r) => let* (t1, r1) := tok COLON r in r_block n r1
           end
  end.
(** the program a text is *)
Definition read (ts : list token) : option fblock :=
  match r_block (12 * S (length ts)) ts with Some (FCons s b, []) => Some (FCons s b) | _ => None end.

(** ** What is read is written so *)
Lemma then_some : forall A B (o : got A) (k : A -> list token -> option B) x, opt_then o k = Some x -> exists a r, o = Some (a, r) /\ k a r = Some x.
Proof. intros A B [(a, r)|] k x E; [exists a, r; auto|discriminate]. Qed.
Lemma tok_some : forall k ts t r, tok k ts = Some (t, r) -> ts = t :: r /\ tkind t = k.
Proof. intros k [|t0 ts] t r E; [discriminate|]. cbn in E. destruct (Z.eqb_spec (tkind t0) k); [|discriminate]. injection E as <- <-. auto. Qed.
Lemma opt_some : forall k ts v r, opt k ts = Some (v, r) -> exists u, ts = u ++ r /\ opt_tok k u (Nat.b2n v).
Proof.
  intros k ts v r E. unfold opt in E. destruct (tok k ts) as [(t, r0)|] eqn:T; injection E as <- <-; [|exists []; split; [reflexivity|constructor]]. apply tok_some in T. destruct T as (-> & K). exists [t]. split; [reflexivity|constructor; exact K].
Qed.
Lemma literal_ok : forall t v, literal_of t = Some v -> literal L t v.
Proof.
  intros t v. unfold literal_of. destruct (Z.eqb_spec (tkind t) INT) as [K|_].
  { destruct (ParseInt (tlit t)) as [[z|]|] eqn:E; try discriminate. intros [= <-]. apply lit_int; assumption. }
  destruct (Z.eqb_spec (tkind t) FLOAT) as [K|_].
  { destruct (ParseFloat _ _ (tlit t)) as [[z|]|] eqn:E; try discriminate. intros [= <-]. apply lit_float; assumption. }
  destruct (Z.eqb_spec (tkind t) STRING) as [K|_].
  { destruct (l_unquote L (tlit t)) as [b|] eqn:E; try discriminate. intros [= <-]. apply lit_string; assumption. }
  destruct (Z.eqb_spec (tkind t) CHAR) as [K|_]; [|discriminate]. destruct (tlit t) as [|q r] eqn:El; [discriminate|]. destruct (beq r _) eqn:B; [|discriminate]. apply beq_eq in B.
  destruct (l_unquote_char L (removelast r)) as [((z, b), l)|] eqn:E; try discriminate. destruct b; [discriminate|]. destruct l; [|discriminate]. intros [= <-]. eapply lit_char; [exact K|rewrite El; f_equal; exact B|exact E].
Qed.
Lemma op_ok : forall l t f a u b v, op_at (S l) (tkind t) = Some f -> xwritten L (S l) a u -> xwritten L l b v -> xwritten L (S l) (f a b) (u ++ t :: v).
Proof.
  intros l t f a u b v E A B.
  assert (X : forall g, Some (YBin g) = Some f -> operator L (S l) (tkind t) g -> xwritten L (S l) (f a b) (u ++ t :: v)) by (intros g [= <-] Ho; apply xw_bin; assumption).
  destruct l as [|[|[|[|[|l]]]]]; cbn [op_at] in E; try discriminate.
  - destruct (Z.eqb_spec (tkind t) 42) as [K|_]; [apply (X _ E); rewrite K; constructor|]. destruct (Z.eqb_spec (tkind t) 47) as [K|_]; [apply (X _ E); rewrite K; constructor|].
    destruct (Z.eqb_spec (tkind t) 37) as [K|_]; [apply (X _ E); rewrite K; constructor|discriminate].
  - destruct (Z.eqb_spec (tkind t) 43) as [K|_]; [apply (X _ E); rewrite K; constructor|]. destruct (Z.eqb_spec (tkind t) 45) as [K|_]; [apply (X _ E); rewrite K; constructor|discriminate].
  - destruct (Z.eqb_spec (tkind t) 60) as [K|_]; [apply (X _ E); rewrite K; constructor|]. destruct (Z.eqb_spec (tkind t) 62) as [K|_]; [apply (X _ E); rewrite K; constructor|].
    destruct (Z.eqb_spec (tkind t) 150) as [K|_]; [apply (X _ E); rewrite K; constructor|]. destruct (Z.eqb_spec (tkind t) 151) as [K|_]; [apply (X _ E); rewrite K; constructor|].
    destruct (Z.eqb_spec (tkind t) 148) as [K|_]; [apply (X _ E); rewrite K; constructor|]. destruct (Z.eqb_spec (tkind t) 149) as [K|_]; [apply (X _ E); rewrite K; constructor|discriminate].
  - destruct (Z.eqb_spec (tkind t) ANDAND) as [K|_]; [|discriminate]. injection E as <-. apply xw_and; assumption.
  - destruct (Z.eqb_spec (tkind t) OROR) as [K|_]; [|discriminate]. injection E as <-. apply xw_or; assumption.
Qed.
Lemma names_ok : forall n ts ps r, r_names n ts = Some (ps, r) -> exists u, ts = u ++ r /\ name_list u ps.
Proof.
  induction n as [|n IH]; intros ts ps r E; [discriminate|]. cbn [r_names] in E. apply then_some in E. destruct E as (t & r1 & T & E). apply tok_some in T. destruct T as (-> & K).
  destruct (tok COMMA r1) as [(t2, r2)|] eqn:T.
  - apply tok_some in T. destruct T as (-> & K2). apply then_some in E. destruct E as (ns & r3 & R & E). injection E as <- <-. destruct (IH _ _ _ R) as (u & -> & N). exists (t :: t2 :: u). split; [reflexivity|]. apply NL_more; assumption.
  - injection E as <- <-. exists [t]. split; [reflexivity|]. apply NL_one. exact K.
Qed.
Lemma key_in : forall A k (l : list (Z * A)) f, key A k l = Some f -> In (k, f) l.
Proof. intros A k l f E. unfold key in E. destruct (List.find _ l) as [(k', f')|] eqn:F; [|discriminate]. injection E as <-. apply find_some in F. destruct F as (I & F). apply Z.eqb_eq in F. cbn in F. subst k'. exact I. Qed.

Definition ok {A : Type} (P : A -> list token -> Prop) (f : list token -> got A) : Prop := forall ts a r, f ts = Some (a, r) -> exists u, ts = u ++ r /\ P a u.
Definition bracedw (b : fblock) (u : list token) : Prop := exists t1 bs t2, u = t1 :: bs ++ [t2] /\ tkind t1 = LBRACE /\ tkind t2 = RBRACE /\ fbwritten L b bs.
Definition reads_n (n : nat) : Prop :=
  (forall l, (l <= 5)%nat -> ok (xwritten L l) (r_expr n l)) /\
  (forall l a u0, (l < 5)%nat -> xwritten L (S l) a u0 -> ok (fun e u => xwritten L (S l) e (u0 ++ u)) (r_more n l a)) /\
  ok (xwritten L 0) (r_unary n) /\ ok (xprim L) (r_atom n) /\
  (forall f u0, xprim L f u0 -> ok (fun e u => xprim L e (u0 ++ u)) (r_calls n f)) /\
  ok (xargs L) (r_args n) /\ ok (xmore L) (r_margs n) /\ ok (fwritten L) (r_stmt n) /\ ok bracedw (r_body n) /\ ok (fbwritten L) (r_block n) /\ ok (frwritten L) (r_rest n) /\
  ok (felwritten L) (r_elifs n) /\ ok (fewritten L) (r_else n) /\ ok (fcwritten L) (r_cases n) /\ ok (fdwritten L) (r_default n).
Lemma block_doc : plain_lib L -> forall b u, fbwritten L b u -> exists c, opt_doc L u c.
Proof.
  intros PL b u H. destruct (texts_mean L PL (fun _ _ _ => None) 0 ltac:(intros ? ? ? ? [=])) as (_ & TB & _). destruct (block_body L (fun _ _ _ => None) 0 b u (TB b u H)) as (D & _). exact D.
Qed.
Lemma no_return : forall i u, fwritten L i u -> (forall e, i <> FReturn e) -> hd_error (map tkind u) <> Some RETURN.
Proof.
  intros i u H N. destruct H; cbn [map hd_error]; try (match goal with K : tkind _ = _ |- _ => rewrite K; discriminate end).
  - apply (proj1 (proj2 (xwritten_start L)) _ _ _ H).
  - exfalso. apply (N e). reflexivity.
Qed.
Lemma consumed : forall u r : list token, firstn (length (u ++ r) - length r) (u ++ r) = u.
Proof. intros u r. rewrite app_length. replace (length u + length r - length r)%nat with (length u) by lia. rewrite firstn_app, Nat.sub_diag, firstn_all. apply app_nil_r. Qed.
Tactic Notation "step" hyp(E) ident(a) ident(r) ident(X) := apply then_some in E; destruct E as (a & r & X & E).
Tactic Notation "take" hyp(E) ident(t) ident(r) ident(K) := apply then_some in E; destruct E as (t & r & K & E); apply tok_some in K; destruct K as (-> & K).
Tactic Notation "might" hyp(E) ident(v) ident(r) ident(u) ident(K) := apply then_some in E; destruct E as (v & r & K & E); apply opt_some in K; destruct K as (u & -> & K).
Ltac apps := repeat first [rewrite <- app_assoc | progress cbn [app]]; reflexivity.
Theorem reads_all : plain_lib L -> forall n, reads_n n.
Proof.
  intro PL. induction n as [|n (Ie & Im & Iu & Ia & Ic & Ig & Ih & Is & Ib & Ik & Ir & Il & Iz & Iq & Id)].
  { repeat apply conj; intros; intros ? ? ? E0; discriminate E0. }
  repeat apply conj.
  - (* expressions *)
    intros l Hl ts e r E. cbn [r_expr] in E. destruct l as [|l]; [apply Iu; exact E|]. step E a r1 X. destruct (Ie l ltac:(lia) _ _ _ X) as (u & -> & Wa).
    destruct (Im l a u ltac:(lia) ltac:(apply xw_up; [lia|exact Wa]) _ _ _ E) as (u' & -> & Wb). exists (u ++ u'). split; [apply app_assoc|exact Wb].
  - intros l a u0 Hl Wa ts e r E. cbn [r_more] in E. destruct ts as [|t ts]; [injection E as <- <-; exists []; split; [reflexivity|rewrite app_nil_r; assumption]|].
    destruct (op_at (S l) (tkind t)) as [f|] eqn:O; [|injection E as <- <-; exists []; split; [reflexivity|rewrite app_nil_r; assumption]]. step E b r1 X. destruct (Ie l ltac:(lia) _ _ _ X) as (u & Eu & Wb). subst ts.
    destruct (Im l (f a b) (u0 ++ t :: u) Hl (op_ok l t f a u0 b u O Wa Wb) _ _ _ E) as (u' & -> & Wc). exists (t :: u ++ u'). split; [apps|]. rewrite <- app_assoc in Wc. exact Wc.
  - intros ts e r E. cbn [r_unary] in E. destruct ts as [|t ts]; [discriminate E|]. destruct (literal_of t) as [v|] eqn:Lt.
    { injection E as <- <-. exists [t]. split; [reflexivity|]. apply xw_lit. apply literal_ok. exact Lt. }
    destruct (Z.eqb_spec (tkind t) BANG) as [K|_]; [step E a r1 X; injection E as <- <-; destruct (Iu _ _ _ X) as (u & -> & Wu); exists (t :: u); split; [reflexivity|apply xw_not; assumption]|].
    destruct (Z.eqb_spec (tkind t) MINUS) as [K|_]; [step E a r1 X; injection E as <- <-; destruct (Iu _ _ _ X) as (u & -> & Wu); exists (t :: u); split; [reflexivity|apply xw_neg; assumption]|].
    destruct (Z.eqb_spec (tkind t) PLUS) as [K|_]; [destruct (Iu _ _ _ E) as (u & -> & Wu); exists (t :: u); split; [reflexivity|apply xw_pos; assumption]|].
    destruct (Z.eqb_spec (tkind t) RECOVER) as [K|_]; [take E t1 r1 K1; take E t2 r2 K2; injection E as <- <-; exists [t; t1; t2]; split; [reflexivity|apply xw_recover; assumption]|].
    step E f r1 X. destruct (Ia _ _ _ X) as (u & Eu & Wf). destruct (Ic f u Wf _ _ _ E) as (u' & -> & We). exists (u ++ u'). split; [rewrite Eu; apply app_assoc|apply xw_prim; exact We].
  - intros ts e r E. cbn [r_atom] in E. destruct ts as [|t ts]; [discriminate E|].
    destruct (Z.eqb_spec (tkind t) IDENT) as [K|_]; [injection E as <- <-; exists [t]; split; [reflexivity|apply xp_var; exact K]|].
    destruct (Z.eqb_spec (tkind t) LPAREN) as [K|_].
    { step E a r1 X. take E t' r2 K'. injection E as <- <-. destruct (Ie 5%nat ltac:(lia) _ _ _ X) as (u & -> & Wu). exists (t :: u ++ [t']). split; [apps|apply xp_paren; assumption]. }
    destruct (Z.eqb_spec (tkind t) FN) as [K|_].
    2:{ destruct (Z.eqb_spec (tkind t) LBRACK) as [K|_]; [|discriminate E]. step E l r1 X. might E c r2 cm Kc. take E t' r3 K'. injection E as <- <-. destruct (Ig _ _ _ X) as (u & -> & Wl).
        exists (t :: u ++ cm ++ [t']). split; [apps|eapply xp_slice; eassumption]. }
    take E tl r1 Kl. step E ps r2 X. might E v r2' ds Kd. take E tr r3 Kr. take E t1 r4 K1. step E b r5 Y. take E t2 r6 K2. injection E as <- <-.
    destruct (Ik _ _ _ Y) as (bs & -> & Wb). rewrite consumed. destruct (block_doc PL b bs Wb) as (c & D).
    assert (N : exists ns, r1 = ns ++ ds ++ tr :: t1 :: bs ++ t2 :: r6 /\ opt_names ns ps).
    { destruct (r_names n r1) as [(ps', r')|] eqn:R; [|injection X as <- ->; exists []; split; [reflexivity|constructor]]. injection X as -> ->. destruct (names_ok _ _ _ _ R) as (ns & -> & N). exists ns. split; [reflexivity|apply ON_some; exact N]. }
    destruct N as (ns & -> & N). exists (t :: tl :: ns ++ ds ++ tr :: t1 :: bs ++ [t2]). split; [apps|]. eapply xp_fn; eassumption.
  - intros f u0 Wf ts e r E. cbn [r_calls] in E. destruct (tok LPAREN ts) as [(tl, r0)|] eqn:T.
    + apply tok_some in T. destruct T as (-> & Kl). step E l r1 X. might E v r2 ds Kd. might E c r3 cm Kc. take E tr r4 Kr. destruct (Ig _ _ _ X) as (u & -> & Wl).
      destruct (Ic (YCall f l v) (u0 ++ tl :: u ++ ds ++ cm ++ [tr]) ltac:(eapply xp_call; eassumption) _ _ _ E) as (u' & -> & We).
      exists (tl :: u ++ ds ++ cm ++ [tr] ++ u'). split; [apps|]. repeat (rewrite <- app_assoc in We; cbn [app] in We). exact We.
    + destruct (tok LBRACK ts) as [(tl, r0)|] eqn:T2; [|injection E as <- <-; exists []; split; [reflexivity|rewrite app_nil_r; assumption]]. apply tok_some in T2. destruct T2 as (-> & Kl).
      step E i r1 X. take E tr r2 Kr. destruct (Ie 5%nat ltac:(lia) _ _ _ X) as (u & -> & Wi). destruct (Ic (YIndex f i) (u0 ++ tl :: u ++ [tr]) ltac:(apply xp_index; assumption) _ _ _ E) as (u' & -> & We).
      exists (tl :: u ++ [tr] ++ u'). split; [apps|]. repeat (rewrite <- app_assoc in We; cbn [app] in We). exact We.
  - intros ts l r E. cbn [r_args] in E. destruct (r_expr n 5 ts) as [(e, r1)|] eqn:X; [|injection E as <- <-; exists []; split; [reflexivity|constructor]].
    step E l' r2 Y. injection E as <- <-. destruct (Ie 5%nat ltac:(lia) _ _ _ X) as (u & -> & We). destruct (Ih _ _ _ Y) as (u' & -> & Wl). exists (u ++ u'). split; [apply app_assoc|apply xa_cons; assumption].
  - intros ts l r E. cbn [r_margs] in E. destruct (tok COMMA ts) as [(t, r0)|] eqn:T; [|injection E as <- <-; exists []; split; [reflexivity|constructor]].
    destruct (r_expr n 5 r0) as [(e, r1)|] eqn:X; [|injection E as <- <-; exists []; split; [reflexivity|constructor]]. apply tok_some in T. destruct T as (-> & K).
    step E l' r2 Y. injection E as <- <-. destruct (Ie 5%nat ltac:(lia) _ _ _ X) as (u & -> & We). destruct (Ih _ _ _ Y) as (u' & -> & Wl). exists ((t :: u) ++ u'). split; [apps|apply xm_cons; assumption].
  - (* statements *)
    intros ts st r E. cbn [r_stmt] in E. destruct ts as [|t ts]; [discriminate E|].
    destruct (Z.eqb_spec (tkind t) IF) as [K|_].
    { step E c r1 X1. step E b r2 X2. step E br r3 X3. step E els r4 X4. injection E as <- <-. destruct (Ie 5%nat ltac:(lia) _ _ _ X1) as (u1 & -> & W1). destruct (Ib _ _ _ X2) as (u2 & -> & (t1 & bs & t2 & -> & K1 & K2 & W2)).
      destruct (Il _ _ _ X3) as (u3 & -> & W3). destruct (Iz _ _ _ X4) as (u4 & -> & W4). exists (t :: u1 ++ (t1 :: bs ++ [t2]) ++ u3 ++ u4). split; [apps|]. eapply fw_if; eassumption. }
    destruct (Z.eqb_spec (tkind t) SWITCH) as [K|_].
    { step E x r1 X1. take E t1 r2 K1. step E br r3 X3. step E d r4 X4. take E t2 r5 K2. injection E as <- <-. destruct (Iq _ _ _ X3) as (u3 & -> & W3). destruct (Id _ _ _ X4) as (u4 & -> & W4).
      assert (H : exists u1, ts = u1 ++ t1 :: u3 ++ u4 ++ t2 :: r5 /\ xowritten L x u1).
      { destruct (tok LBRACE ts); [injection X1 as <- ->; exists []; split; [reflexivity|constructor]|]. step X1 e0 r1 Y. injection X1 as <- ->. destruct (Ie 5%nat ltac:(lia) _ _ _ Y) as (u1 & -> & W1). exists u1. split; [reflexivity|apply xo_some; exact W1]. }
      destruct H as (u1 & -> & W1). exists (t :: u1 ++ t1 :: u3 ++ u4 ++ [t2]). split; [apps|]. eapply fw_switch; eassumption. }
    destruct (Z.eqb_spec (tkind t) FOR) as [K|_].
    { destruct (tok LBRACE ts).
      { step E b r1 X. injection E as <- <-. destruct (Ib _ _ _ X) as (u & -> & (t1 & bs & t2 & -> & K1 & K2 & W2)). exists (t :: [] ++ t1 :: bs ++ [t2]). split; [reflexivity|]. eapply fw_for; [exact K|constructor|assumption|exact W2|assumption]. }
      step E i r1 X1. destruct (Is _ _ _ X1) as (u1 & -> & W1). destruct (tok SEMI r1) as [(ts1, r2)|] eqn:T.
      - apply tok_some in T. destruct T as (-> & Ks). step E c r3 X3. take E ts2 r4 Ks2. step E st0 r5 X5. step E b r6 X6. destruct (Ie 5%nat ltac:(lia) _ _ _ X3) as (u3 & -> & W3). destruct (Is _ _ _ X5) as (u5 & -> & W5).
        destruct (Ib _ _ _ X6) as (u6 & -> & (t1 & bs & t2 & -> & K1 & K2 & W6)).
        assert (H : (forall e, i <> FReturn e) /\ (forall e, st0 <> FReturn e) /\ Some (FFor i (Some c) st0 b, r6) = Some (st, r)) by (destruct i, st0; try discriminate E; (split; [intros ?; discriminate|split; [intros ?; discriminate|exact E]])).
        destruct H as (Hi & Hs & E'). injection E' as <- <-. exists (t :: (u1 ++ (ts1 :: u3) ++ (ts2 :: u5) ++ []) ++ t1 :: bs ++ [t2]).
        split; [apps|]. eapply fw_for; [exact K| |assumption|exact W6|assumption]. apply fhw_three; try assumption; [apply (no_return i)|apply (no_return st0)]; assumption.
      - destruct i; try discriminate E. step E b r2 X2. injection E as <- <-. destruct (Ib _ _ _ X2) as (u6 & -> & (t1 & bs & t2 & -> & K1 & K2 & W6)). exists (t :: u1 ++ t1 :: bs ++ [t2]).
        split; [apps|]. eapply fw_for; [exact K| |assumption|exact W6|assumption]. apply fhw_cond. inversion W1; subst. assumption. }
    destruct (Z.eqb_spec (tkind t) RETURN) as [K|_].
    { destruct (r_expr n 5 ts) as [(e, r1)|] eqn:X; injection E as <- <-; [|exists [t]; split; [reflexivity|apply fw_return; [exact K|constructor]]].
      destruct (Ie 5%nat ltac:(lia) _ _ _ X) as (u & -> & We). exists (t :: u). split; [reflexivity|]. apply fw_return; [exact K|apply xo_some; exact We]. }
    destruct (Z.eqb_spec (tkind t) DEFER) as [K|_].
    { step E e r1 X. injection E as <- <-. destruct (Ie 5%nat ltac:(lia) _ _ _ X) as (u & -> & We). rewrite consumed. exists (t :: u). split; [reflexivity|]. eapply fw_defer; eassumption. }
    assert (Oth : opt_then (r_expr n 5 (t :: ts)) (fun e r1 => Some (FVal e, r1)) = Some (st, r) -> exists u, t :: ts = u ++ r /\ fwritten L st u).
    { intro Y. step Y e r1 X. injection Y as <- <-. destruct (Ie 5%nat ltac:(lia) _ _ _ X) as (u & -> & We). exists u. split; [reflexivity|apply fw_val; exact We]. }
    destruct ts as [|t1 r1]; [apply Oth; exact E|]. destruct (Z.eqb_spec (tkind t) IDENT) as [K|_]; [|apply Oth; exact E]. cbn [negb] in E. destruct ((tkind t1 =? ASSIGN) && _)%bool eqn:As.
    { apply Bool.andb_true_iff in As. destruct As as (A1 & A2). apply Z.eqb_eq in A1. step E e r2 X. injection E as <- <-. destruct (Ie 5%nat ltac:(lia) _ _ _ X) as (u & -> & We). exists (t :: t1 :: u). split; [reflexivity|].
      apply fw_set; try assumption. intro Z0. rewrite Z0 in A2. discriminate A2. }
    destruct (Z.eqb_spec (tkind t1) COMMA) as [K1|_].
    { step E ns r2 X. take E t2 r3 K2. step E e r4 Y. destruct (forallb _ (tlit t :: ns)) eqn:Fb; [|discriminate E]. injection E as <- <-. destruct (names_ok _ _ _ _ X) as (u & -> & Wn). destruct (Ie 5%nat ltac:(lia) _ _ _ Y) as (u' & -> & We).
      exists (t :: t1 :: u ++ t2 :: u'). split; [apps|]. apply fw_sets; try assumption. apply Forall_forall. intros x Hx ->. rewrite forallb_forall in Fb. discriminate (Fb _ Hx). }
    destruct (key _ (tkind t1) incdec_ops) as [f|] eqn:Ki; [injection E as <- <-; exists [t; t1]; split; [reflexivity|apply fw_inc; [exact K|apply key_in; exact Ki]]|].
    destruct (key _ (tkind t1) assign_ops) as [f|] eqn:Ka; [|apply Oth; exact E]. step E e r2 X. injection E as <- <-. destruct (Ie 5%nat ltac:(lia) _ _ _ X) as (u & -> & We). exists (t :: t1 :: u). split; [reflexivity|].
    apply fw_op; [exact K|apply key_in; exact Ka|exact We].
  - intros ts b r E. cbn [r_body] in E. take E t1 r1 K1. step E b0 r2 X. take E t2 r3 K2. injection E as <- <-. destruct (Ik _ _ _ X) as (u & -> & Wb). exists (t1 :: u ++ [t2]). split; [apps|]. exists t1, u, t2. auto.
  - intros ts b r E. cbn [r_block] in E. destruct (r_stmt n ts) as [(s, r1)|] eqn:X; [|injection E as <- <-; exists []; split; [reflexivity|constructor]].
    step E b0 r2 Y. injection E as <- <-. destruct (Is _ _ _ X) as (u & -> & Ws). destruct (Ir _ _ _ Y) as (u' & -> & Wr). exists (u ++ u'). split; [apply app_assoc|apply fbw_cons; assumption].
  - intros ts b r E. cbn [r_rest] in E. destruct (tok SEMI ts) as [(t, r0)|] eqn:T; [|injection E as <- <-; exists []; split; [reflexivity|constructor]]. apply tok_some in T. destruct T as (-> & K).
    destruct (r_stmt n r0) as [(s, r1)|] eqn:X.
    + step E b0 r2 Y. injection E as <- <-. destruct (Is _ _ _ X) as (u & -> & Ws). destruct (Ir _ _ _ Y) as (u' & -> & Wr). exists ((t :: u) ++ u'). split; [apps|apply frw_stmt; assumption].
    + step E b0 r2 Y. injection E as <- <-. destruct (Ir _ _ _ Y) as (u' & -> & Wr). exists (t :: u'). split; [reflexivity|]. apply frw_empty; [exact K| |exact Wr].
      destruct Wr; [left; reflexivity|right; cbn; congruence|right; cbn; congruence].
  - intros ts br r E. cbn [r_elifs] in E. destruct (tok ELIF ts) as [(t, r0)|] eqn:T; [|injection E as <- <-; exists []; split; [reflexivity|constructor]]. apply tok_some in T. destruct T as (-> & K).
    step E c r1 X1. step E b r2 X2. step E br0 r3 X3. injection E as <- <-. destruct (Ie 5%nat ltac:(lia) _ _ _ X1) as (u1 & -> & W1). destruct (Ib _ _ _ X2) as (u2 & -> & (t1 & bs & t2 & -> & K1 & K2 & W2)). destruct (Il _ _ _ X3) as (u3 & -> & W3).
    exists ((t :: u1 ++ (t1 :: bs ++ [t2])) ++ u3). split; [apps|]. eapply felw_cons; eassumption.
  - intros ts b r E. cbn [r_else] in E. destruct (tok ELSE ts) as [(t, r0)|] eqn:T; [|injection E as <- <-; exists []; split; [reflexivity|constructor]]. apply tok_some in T. destruct T as (-> & K).
    destruct (Ib _ _ _ E) as (u2 & -> & (t1 & bs & t2 & -> & K1 & K2 & W2)). exists (t :: t1 :: bs ++ [t2]). split; [reflexivity|]. eapply few_else; eassumption.
  - intros ts br r E. cbn [r_cases] in E. destruct (tok CASE ts) as [(t, r0)|] eqn:T; [|injection E as <- <-; exists []; split; [reflexivity|constructor]]. apply tok_some in T. destruct T as (-> & K).
    step E c r1 X1. take E t1 r2 K1. step E b r3 X3. step E br0 r4 X4. injection E as <- <-. destruct (Ie 5%nat ltac:(lia) _ _ _ X1) as (u1 & -> & W1). destruct (Ik _ _ _ X3) as (u3 & -> & W3). destruct (Iq _ _ _ X4) as (u4 & -> & W4).
    exists ((t :: u1 ++ t1 :: u3) ++ u4). split; [apps|]. eapply fcw_cons; eassumption.
  - intros ts b r E. cbn [r_default] in E. destruct (tok DEFAULT ts) as [(t, r0)|] eqn:T; [|injection E as <- <-; exists []; split; [reflexivity|constructor]]. apply tok_some in T. destruct T as (-> & K).
    take E t1 r1 K1. destruct (Ik _ _ _ E) as (u & -> & Wb). exists (t :: t1 :: u). split; [reflexivity|]. eapply fdw_default; eassumption.
Qed.
(** what is read as a program is one, written so *)
Theorem read_ok : plain_lib L -> reads_ok L read.
Proof.
  intros PL ts b E. unfold read in E. destruct (r_block _ ts) as [([|s b0], r)|] eqn:R; try discriminate E. destruct r; [|discriminate E]. injection E as <-. split; [discriminate|].
  destruct (reads_all PL (12 * S (length ts))) as (_ & _ & _ & _ & _ & _ & _ & _ & _ & Ik & _). destruct (Ik _ _ _ R) as (u & -> & Wb). rewrite app_nil_r. exact Wb.
Qed.
End Read.
