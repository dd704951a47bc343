(** Properties C74 and C75: what a qlang text means, and the values of expressions. *)
From Coq Require Import String SpecFloat.
From Verif Require Import Base Token Utf8 Scanner Tokenize Grammar Matcher Compiler Interp QValue Qlang QlangSpec QlangTop QlangEx QText QTidy QEval QExpr QExprP PropScan PropCtrl PropVars PropCall PropClass.
Local Open Scope Z_scope.

Section Text.
Context {W : Type}.
Variable L : qlib W.
Notation St := (est nat value (@rest W)).
Notation ev := (QlangTop.ev L).

(** ** C74 *)
(** Evaluating a well-formed piece of code, in any state and any frame, does what [QText] says it means; the engine's grammar,
    its marks, the muted parts and the alternatives it tried leave no trace. *)
Theorem C74_eval : forall rule ts c, text_is L rule ts c -> exists N, forall n p s, (N <= n)%nat -> ev (S n) p rule (VCode ts) s = evaluated (ev n) n p c s.
Proof. exact (eval_text L). Qed.
(** The same for Exec of a source text, from its characters on. *)
Theorem C74_exec : forall isL isD semis old src ts eof c, Tokenize isL isD false semis (AutoKw q_akw) old src = TzOk ts eof -> doc_is L ts c ->
  exists N, forall n s, (N <= n)%nat -> Exec L isL isD n semis old src s =
    match c (ev n) n (e_ipt s) (set_mute 0 s) with inl (_, s') => inl (None, s') | inr (e, s') => inr (e, s') end.
Proof. exact (exec_text L). Qed.
(** No text is ambiguous. *)
Theorem C74_unique : forall rule ts c c', text_is L rule ts c -> text_is L rule ts c' ->
  exists N, forall n p s, (N <= n)%nat -> evaluated (ev n) n p c s = evaluated (ev n) n p c' s.
Proof. intros rule ts c c' H H'. exists 0%nat. intros n p s _. exact (text_det L rule ts c c' H H' (ev n) n p s (tidy_ev L n)). Qed.

(** ** C75 *)
(** An expression, wherever it is evaluated, has the value that [QExpr] gives it; or it panics with the panic that [QExpr] gives it.
    Either way it changes no variable. *)
Theorem C75_value : forall e ts, written L 5 e ts -> exists N, forall n p s o, (N <= n)%nat -> coherent s -> (p < nframes s)%nat -> has_value L s p e o ->
  gave p s o (evalCode (ev n) p n_expr (VCode ts) s).
Proof. exact (expr_value L). Qed.
(** Every expression has a value or a panic, in every state, and only one: *)
Lemma sees_or_not : forall (s : St) n, coherent s -> forall p, (exists q v, sees s n p q v) \/ (forall q v, ~ sees s n p q v).
Proof.
  intros s n C p. induction p as [p IH] using lt_wf_ind.
  assert (D : (exists v, defines s n p v) \/ forall v, ~ defines s n p v).
  { unfold defines. destruct (var_of p n s) as [u|]; [|right; intros v (D & _); discriminate D]. destruct (plain_dec u) as [Pu|(q & ->)]; [left; eauto|]. right. intros v (D & Pv). injection D as <-. exact (Pv q eq_refl). }
  destruct D as [(v & D)|D]; [left; exists p, v; apply sees_own; exact D|].
  assert (Pub : public n \/ ~ public n).
  { destruct n as [|c n']; [right; intros (c & n' & E & _); discriminate E|]. destruct (Z.eq_dec c 95) as [->|Nc]; [right; intros (c & n0 & E & Nc); injection E as <- _; contradiction|left; exists c, n'; auto]. }
  destruct Pub as [Pub|Pub]; [|right; intros q v S; inversion S; subst; [eapply D; eassumption|contradiction]].
  destruct (parent p s) as [j|] eqn:Ej; [|right; intros q v S; inversion S; subst; [eapply D; eassumption|congruence]].
  destruct (IH j (proj1 C _ _ Ej)) as [(q & v & S)|N]; [left; exists q, v; eapply sees_up; eassumption|].
  right. intros q v S. inversion S as [|? j' ? ? _ _ Ej' S']; subst; [eapply D; eassumption|]. rewrite Ej in Ej'. injection Ej' as <-. exact (N _ _ S').
Qed.
Theorem C75_total : forall e s p, coherent s -> exists o, has_value L s p e o.
Proof.
  intros e s p C. induction e as [v|n|f e (o & IH)|f a (o & IHa) b (o' & IHb)|a (o & IHa) b (o' & IHb)|a (o & IHa) b (o' & IHb)].
  - eexists. apply v_lit.
  - destruct (list_eq_dec Z.eq_dec n n_unset) as [->|Nu]; [eexists; apply v_unset|]. destruct (sees_or_not s n C p) as [(q & v & S)|N]; [eexists; eapply v_var; eassumption|].
    destruct n as [|c n']; [eexists; apply v_noname; exact N|]. destruct (l_fnval L (c :: n')) as [v|] eqn:E; [eexists; apply v_builtin; [exact Nu|discriminate|exact N|exact E]|]. eexists. apply v_unknown; [exact Nu|discriminate|exact N|exact E].
  - destruct o as [v|q]; eexists; [apply v_un|apply v_un_err]; exact IH.
  - destruct o as [v|q]; [destruct o' as [w|q]|]; eexists; [eapply v_bin; eassumption|eapply v_bin_err2; eassumption|eapply v_bin_err1; eassumption].
  - destruct o as [v|q]; [|eexists; eapply v_and_err; eassumption]. destruct v as [| [|] | | | | | | | | | | | | | | | | | | | | | | |]; try (eexists; eapply v_and_type; [exact IHa|discriminate]); [eexists; eapply v_and_true; eassumption|eexists; eapply v_and_false; eassumption].
  - destruct o as [v|q]; [|eexists; eapply v_or_err; eassumption]. destruct v as [| [|] | | | | | | | | | | | | | | | | | | | | | | |]; try (eexists; eapply v_or_type; [exact IHa|discriminate]); [eexists; eapply v_or_true; eassumption|eexists; eapply v_or_false; eassumption].
Qed.
Theorem C75_unique : forall e s p o o', has_value L s p e o -> has_value L s p e o' -> o = o'.
Proof.
  intros e s p. induction e as [v|n|f e IH|f a IHa b IHb|a IHa b IHb|a IHa b IHb]; intros o o' H H';
    inversion H; subst; inversion H'; subst; try reflexivity; try congruence;
    repeat match goal with
      | X : sees s _ p _ ?v, Y : sees s _ p _ ?w |- _ => destruct (sees_fun _ _ _ _ _ X _ _ Y) as (_ & E); subst; clear X; try reflexivity
      | X : sees s ?n p ?q ?v, Y : forall q v, ~ sees s ?n p q v |- _ => exfalso; exact (Y _ _ X)
      | IH : forall o o', has_value L s p ?e o -> _, X : has_value L s p ?e ?a, Y : has_value L s p ?e ?b |- _ =>
          lazymatch a with b => fail | _ => pose proof (IH _ _ X Y) as E; clear Y; first [discriminate E | injection E as E; subst]; try reflexivity end
      end; try congruence; eauto; try (exfalso; eauto; fail).
  all: match goal with Nb : forall x, _ <> VBool x |- _ => exfalso; eapply Nb; reflexivity | _ => eauto end.
Qed.
Lemma level_up : forall l e ts, (l <= 5)%nat -> written L l e ts -> written L 5 e ts.
Proof. intros l e ts Hl H. assert (X : forall k, (l + k <= 5)%nat -> written L (l + k) e ts).
  { induction k as [|k IH]; intro Hk; [rewrite Nat.add_0_r; exact H|]. rewrite Nat.add_succ_r. apply w_up; [lia|]. apply IH. lia. }
  specialize (X (5 - l)%nat). replace (l + (5 - l))%nat with 5%nat in X by lia. apply X. lia.
Qed.
(** Exec of an expression leaves its value on the stack and changes no variable. *)
Theorem C75_run : forall isL isD semis old src ts eof e, Tokenize isL isD false semis (AutoKw q_akw) old src = TzOk ts eof -> written L 5 e ts ->
  exists N, forall n s o, (N <= n)%nat -> coherent s -> (e_ipt s < nframes s)%nat -> e_mute s = 0 -> has_value L s (e_ipt s) e o ->
    match o with
    | inl v => exists s', Exec L isL isD n semis old src s = inl (None, pushed v s') /\ same_defs s s' /\ coherent s'
    | inr q => exists src' s', Exec L isL isD n semis old src s = inr (wrap src' (PUser q), s') /\ kept (e_ipt s) s s' /\ coherent s'
    end.
Proof.
  intros isL isD semis old src ts eof e Ht H. destruct (written_means L _ _ _ H) as (c & A & (N & M)). cbn [level_is] in A.
  pose proof (D L _ _ [] nop (S_expr L ts c A) (R_nil L)) as Hd. rewrite app_nil_r in Hd.
  destruct (exec_text L isL isD semis old src _ eof _ Ht Hd) as (N' & E). exists (N + N')%nat. intros n s o Hn Hc Hp Hmu Hv. rewrite E by lia.
  replace (set_mute 0 s) with s by (rewrite <- Hmu; destruct s; reflexivity). unfold seq, bind. specialize (M n (e_ipt s) s o ltac:(lia) (conj Hc Hp) Hv).
  destruct o as [v|q].
  - destruct M as (s1 & -> & S1 & C1). exists s1. auto.
  - destruct M as (src' & s1 & -> & Hk). exists src', s1. auto.
Qed.
(** Exec of  x = e  outside any function makes the value that of variable x and changes no other. *)
Theorem C75_exec : forall isL isD semis old src t t1 ts eof e, Tokenize isL isD false semis (AutoKw q_akw) old src = TzOk (t :: t1 :: ts) eof ->
  tkind t = IDENT -> tlit t <> [] -> tkind t1 = ASSIGN -> written L 5 e ts ->
  exists N, forall n s o, (N <= n)%nat -> coherent s -> (e_ipt s < nframes s)%nat -> parent (e_ipt s) s = None -> e_mute s = 0 -> has_value L s (e_ipt s) e o ->
    match o with
    | inl v => plain v -> exists s', Exec L isL isD n semis old src s = inl (None, s') /\ wrote (e_ipt s) (tlit t) v (v :: e_stk s) s s' /\ coherent s'
    | inr q => exists src' s', Exec L isL isD n semis old src s = inr (wrap src' (PUser q), s') /\ kept (e_ipt s) s s' /\ coherent s'
    end.
Proof.
  intros isL isD semis old src t t1 ts eof e Ht K Nn K1 H. destruct (written_means L _ _ _ H) as (c & A & (N & M)). cbn [level_is] in A.
  pose proof (D L _ _ [] nop (S_assign L t t1 ts c K K1 A) (R_nil L)) as Hd. rewrite app_nil_r in Hd.
  destruct (exec_text L isL isD semis old src _ eof _ Ht Hd) as (N' & E). exists (N + N')%nat. intros n s o Hn Hc Hp Hpar Hmu Hv. rewrite E by lia.
  replace (set_mute 0 s) with s by (rewrite <- Hmu; destruct s; reflexivity). unfold seq, bind. specialize (M n (e_ipt s) s o ltac:(lia) (conj Hc Hp) Hv).
  destruct o as [v|q].
  - intro Pv. destruct M as (s1 & -> & S1 & C1). unfold blame, raise, bind. set (p := e_ipt s) in *. set (s2 := pushed v s1). assert (C2 : coherent s2) by (apply coherent_stk; exact C1).
    pose proof S1 as (A1 & A2 & A3 & A4 & A5 & A6 & A7 & A8 & A9 & A10).
    assert (Hpar2 : parent p s2 = None) by (rewrite <- Hpar; apply (A2 p)).
    assert (X : exists s', Assign p (tlit t) s2 = inl (None, s') /\ wrote p (tlit t) v (e_stk s2) s2 s' /\ coherent s').
    { destruct (var_of p (tlit t) s2) as [u|] eqn:Eu.
      - assert (Pu : plain u). { intros q ->. destruct (proj2 C2 p (tlit t) q Eu) as (w & Sw). inversion Sw as [i u (Du & Pu)|i j q' u _ _ Pj _]; subst; [|congruence]. rewrite Eu in Du. injection Du as <-. exact (Pu _ eq_refl). }
        apply (C57_assign p (tlit t) s2 p u v (e_stk s1) C2 eq_refl Pv); [unfold has_entry; congruence|]. apply sees_own. split; assumption.
      - apply (C57_assign_new p (tlit t) s2 v (e_stk s1) C2); auto; [change (nframes s2) with (nframes s1); rewrite A3; exact Hp|].
        intros q u Sw. inversion Sw as [i w (Du & _)|i j q' w _ _ Pj _]; subst; [rewrite Eu in Du; discriminate Du|congruence]. }
    destruct X as (s' & -> & (W1 & W2 & W3 & W4 & W5 & W6 & W7 & W8 & W9 & W10) & C'). exists s'. unfold nop, ret. split; [reflexivity|]. split; [|exact C']. split; [|split; [|split]].
    + rewrite W1. cbn. rewrite A4. reflexivity.
    + intros m i u. rewrite W2. destruct (_ && _)%bool; [reflexivity|apply A1].
    + intro i. destruct (W3 i) as (a & b & c0 & d & f). destruct (A2 i) as (a' & b' & c0' & d' & f'). rewrite a, b, c0, d, f. repeat split; assumption.
    + change (nframes s2) with (nframes s1) in W4. cbn [s2 pushed set_stk e_mute e_ipt e_rest] in *. unfold p in *. repeat split; etransitivity; eassumption.
  - destruct M as (src' & s1 & -> & Hk). exists src', s1. auto.
Qed.
End Text.

(** ** Examples *)
Local Open Scope string_scope.
Definition toks (t : string) : list token := match Tokenize no_class no_class false false (AutoKw q_akw) PropScan.fresh (s2b t) with TzOk ts _ => ts | _ => [] end.

(** a program, from its characters to its meaning *)
Definition prog : string := "f = fn(a, b...) { return a * 2 }; x = f(1, 2) + -3; if x == 5 && true { y = [1] } else { y = 2; };".
Definition prog_toks : list token := Eval vm_compute in toks prog.
Definition seg (i n : nat) : list token := firstn n (skipn i prog_toks).
Definition tk (i : nat) : token := nth i prog_toks (mkTok 0 0 []).
Ltac name_at i := refine (F_base L0 (seg i 1) _ [] _ (B_name L0 (tk i) eq_refl) (AT_nil L0)).
Ltac t1_at i n := refine (T1 L0 (seg i n) _ [] _ _ (O1_nil L0)).
Ltac t2_at i n := refine (T2 L0 (seg i n) _ [] _ _ (O2_nil L0)); t1_at i n.
Ltac t3_at i n := refine (T3 L0 (seg i n) _ [] _ _ (O3_nil L0)); t2_at i n.
Ltac up_at i n := refine (EX L0 (seg i n) _ [] _ (T4 L0 (seg i n) _ [] _ (T3 L0 (seg i n) _ [] _ (T2 L0 (seg i n) _ [] _ _ (O2_nil L0)) (O3_nil L0)) (O4_nil L0)) (O5_nil L0)).
Ltac expr_at i n := up_at i n; t1_at i n.
Ltac int_at i := exact (F_int L0 (tk i) eq_refl).
Example prog_means : exists c, doc_is L0 prog_toks c.
Proof.
  eexists. refine (D L0 (seg 0 15) _ (seg 15 34) _ _ _).
  - refine (S_assign L0 (tk 0) (tk 1) (seg 2 13) _ eq_refl eq_refl _). expr_at 2%nat 13%nat. refine (F_base L0 (seg 2 13) _ [] _ _ (AT_nil L0)).
    refine (B_fn L0 (tk 2) (seg 3 12) _ eq_refl _). refine (FB L0 (tk 3) (seg 4 3) _ (seg 7 1) _ (tk 8) (tk 9) (seg 10 4) _ (tk 14) eq_refl _ (OT_some _ (tk 7) eq_refl) eq_refl eq_refl _ eq_refl).
    + apply ON_some. refine (NL_more (tk 4) (tk 5) (seg 6 1) _ eq_refl eq_refl _). exact (NL_one (tk 6) eq_refl).
    + apply OD_some. refine (D L0 (seg 10 4) _ [] _ _ (R_nil L0)). refine (S_return L0 (tk 10) (seg 11 3) _ _ eq_refl _). apply OV_some. up_at 11%nat 3%nat.
      refine (T1 L0 (seg 11 1) _ (seg 12 2) _ _ _); [name_at 11%nat|]. refine (O1_op L0 (tk 12) _ _ (seg 13 1) _ [] _ _ _ (O1_nil L0)); [left; reflexivity|int_at 13%nat].
  - refine (R_stmt L0 (tk 15) (seg 16 11) _ (seg 27 22) _ eq_refl _ _).
    + refine (S_assign L0 (tk 16) (tk 17) (seg 18 9) _ eq_refl eq_refl _).
      refine (EX L0 (seg 18 9) _ [] _ (T4 L0 (seg 18 9) _ [] _ (T3 L0 (seg 18 9) _ [] _ (T2 L0 (seg 18 6) _ (seg 24 3) _ _ _) (O3_nil L0)) (O4_nil L0)) (O5_nil L0)).
      * t1_at 18%nat 6%nat. refine (F_base L0 (seg 18 1) _ (seg 19 5) _ (B_name L0 (tk 18) eq_refl) _).
        refine (AT_call L0 (tk 19) (seg 20 3) _ _ [] _ [] _ (tk 23) [] _ eq_refl _ (OT_none _) (OT_none _) eq_refl (AT_nil L0)).
        refine (ES_some L0 (seg 20 1) _ (seg 21 2) _ _ _ _); [expr_at 20%nat 1%nat; int_at 20%nat|].
        refine (M_cons L0 (tk 21) (seg 22 1) _ [] _ _ eq_refl _ (M_nil L0)). expr_at 22%nat 1%nat; int_at 22%nat.
      * refine (O2_op L0 (tk 24) _ _ (seg 25 2) _ [] _ _ _ (O2_nil L0)); [left; reflexivity|]. t1_at 25%nat 2%nat. refine (F_neg L0 (tk 25) (seg 26 1) _ eq_refl _). int_at 26%nat.
    + refine (R_stmt L0 (tk 27) (seg 28 20) _ (seg 48 1) _ eq_refl _ _); [|exact (R_empty L0 (tk 48) [] _ eq_refl (or_introl eq_refl) (R_nil L0))].
      apply S_expr. expr_at 28%nat 20%nat.
      refine (F_if L0 (tk 28) (seg 29 5) _ (seg 34 7) (seg 35 5) _ (seg 41 7) _ eq_refl _ _ [] [] (EL_nil L0) _).
      * refine (EX L0 (seg 29 5) _ [] _ (T4 L0 (seg 29 3) _ (seg 32 2) _ (T3 L0 (seg 29 1) _ (seg 30 2) _ _ _) _) (O5_nil L0)).
        -- t2_at 29%nat 1%nat. name_at 29%nat.
        -- refine (O3_op L0 (tk 30) _ _ (seg 31 1) _ [] _ _ _ (O3_nil L0)); [right; right; left; reflexivity|]. t2_at 31%nat 1%nat. int_at 31%nat.
        -- refine (O4_op L0 (tk 32) (seg 33 1) _ [] _ eq_refl _ (O4_nil L0)). t3_at 33%nat 1%nat. name_at 33%nat.
      * refine (BD L0 (tk 34) (seg 35 5) _ (tk 40) eq_refl _ eq_refl). apply OD_some. refine (D L0 (seg 35 5) _ [] _ _ (R_nil L0)).
        refine (S_assign L0 (tk 35) (tk 36) (seg 37 3) _ eq_refl eq_refl _). expr_at 37%nat 3%nat. refine (F_base L0 (seg 37 3) _ [] _ _ (AT_nil L0)).
        refine (B_slice L0 (tk 37) (seg 38 1) _ _ [] _ (tk 39) eq_refl _ (OT_none _) eq_refl). refine (ES_some L0 (seg 38 1) _ [] _ _ _ (M_nil L0)). expr_at 38%nat 1%nat. int_at 38%nat.
      * refine (EE_some L0 (tk 41) (seg 42 6) _ _ eq_refl _). refine (BD L0 (tk 42) (seg 43 4) _ (tk 47) eq_refl _ eq_refl). apply OD_some. refine (D L0 (seg 43 3) _ (seg 46 1) _ _ _).
        -- refine (S_assign L0 (tk 43) (tk 44) (seg 45 1) _ eq_refl eq_refl _). expr_at 45%nat 1%nat. int_at 45%nat.
        -- exact (R_empty L0 (tk 46) [] _ eq_refl (or_introl eq_refl) (R_nil L0)).
Qed.
Example prog_tokenized : exists eof, Tokenize no_class no_class false false (AutoKw q_akw) PropScan.fresh (s2b prog) = TzOk prog_toks eof.
Proof. eexists. vm_compute. reflexivity. Qed.
Example prog_run : leaves prog ["x"; "y"] = (Fine, [VNil], [Some (VInt (-1)); Some (VInt 2)]).
Proof. vm_compute. reflexivity. Qed.

(** an expression with all its parts, whose right operand of || would panic *)
Definition sum : string := "x = 7 - 2 - (1 + z) * 2 > -5 || !(z != 9) || z < nosuch".
Definition sum_toks : list token := Eval vm_compute in toks sum.
Definition sum_ex : ex :=
  let z := XVar (s2b "z") in
  XOr (XOr (XBin GT (XBin Sub (XBin Sub (XLit (VInt 7)) (XLit (VInt 2))) (XBin Mul (XBin Add (XLit (VInt 1)) z) (XLit (VInt 2)))) (XUn Neg (XLit (VInt 5))))
    (XUn Not (XBin (NE (l_same L0)) z (XLit (VInt 9))))) (XBin LT z (XVar (s2b "nosuch"))).
Definition sg (i n : nat) : list token := firstn n (skipn i sum_toks).
Definition st (i : nat) : token := nth i sum_toks (mkTok 0 0 []).
Ltac num i := refine (w_lit L0 (st i) _ _); apply lit_int; reflexivity.
Ltac nam i := exact (w_var L0 (st i) eq_refl).
Ltac wup := apply w_up; [lia|].
Example sum_written : written L0 5 sum_ex (sg 2 25).
Proof.
  refine (w_or L0 (st 23) _ (sg 2 21) _ (sg 24 3) eq_refl _ _).
  - refine (w_or L0 (st 16) _ (sg 2 14) _ (sg 17 6) eq_refl _ _).
    + wup. wup. refine (w_bin L0 2 (st 13) _ _ (sg 2 11) _ (sg 14 2) (op_gt L0) _ _).
      * wup. refine (w_bin L0 1 (st 5) _ _ (sg 2 3) _ (sg 6 7) (op_sub L0) _ _).
        -- refine (w_bin L0 1 (st 3) _ _ (sg 2 1) _ (sg 4 1) (op_sub L0) _ _); [do 2 wup; num 2%nat|wup; num 4%nat].
        -- refine (w_bin L0 0 (st 11) _ _ (sg 6 5) _ (sg 12 1) (op_mul L0) _ _); [|num 12%nat]. wup. refine (w_paren L0 (st 6) _ (sg 7 3) (st 10) eq_refl _ eq_refl). do 3 wup.
           refine (w_bin L0 1 (st 8) _ _ (sg 7 1) _ (sg 9 1) (op_add L0) _ _); [do 2 wup; num 7%nat|wup; nam 9%nat].
      * do 2 wup. refine (w_neg L0 (st 14) _ (sg 15 1) eq_refl _). num 15%nat.
    + do 4 wup. refine (w_not L0 (st 17) _ (sg 18 5) eq_refl _). refine (w_paren L0 (st 18) _ (sg 19 3) (st 22) eq_refl _ eq_refl). do 2 wup.
      refine (w_bin L0 2 (st 20) _ _ (sg 19 1) _ (sg 21 1) (op_ne L0) _ _); [do 3 wup; nam 19%nat|do 2 wup; num 21%nat].
  - wup. refine (w_bin L0 2 (st 25) _ _ (sg 24 1) _ (sg 26 1) (op_lt L0) _ _); [do 3 wup; nam 24%nat|do 2 wup; nam 26%nat].
Qed.
(** z is 9, or missing *)
Definition z9 : est nat value (@rest unit) := Eval vm_compute in match exec "z = 9" with inl (_, s) | inr (_, s) => s end.
Example z9_ok : coherent z9 /\ (e_ipt z9 < nframes z9)%nat /\ parent (e_ipt z9) z9 = None /\ e_mute z9 = 0.
Proof.
  repeat split; try (cbn; lia).
  - intros i j H. unfold parent, getf in H. cbn in H. destruct i as [|[|i]]; discriminate H.
  - intros i n q H. unfold var_of, getf in H. cbn in H. destruct i as [|[|i]]; cbn in H; try discriminate H. destruct (beq n [122]); discriminate H.
Qed.
Example sum_value : has_value L0 z9 0 sum_ex (inl (VBool true)).
Proof.
  assert (Z : has_value L0 z9 0 (XVar (s2b "z")) (inl (VInt 9))) by (apply (v_var L0 z9 0 (s2b "z") 0 (VInt 9)); [discriminate|apply sees_own; split; [reflexivity|discriminate]]).
  apply v_or_true, v_or_false.
  - refine (v_bin L0 z9 0 GT _ _ (VInt (-15)) (VInt (-5)) _ _); [|exact (v_un L0 z9 0 Neg _ (VInt 5) (v_lit _ _ _ _))].
    refine (v_bin L0 z9 0 Sub _ _ (VInt 5) (VInt 20) _ _); [exact (v_bin L0 z9 0 Sub _ _ (VInt 7) (VInt 2) (v_lit _ _ _ _) (v_lit _ _ _ _))|].
    refine (v_bin L0 z9 0 Mul _ _ (VInt 10) (VInt 2) _ (v_lit _ _ _ _)). exact (v_bin L0 z9 0 Add _ _ (VInt 1) (VInt 9) (v_lit _ _ _ _) Z).
  - refine (v_un L0 z9 0 Not _ (VBool false) _). exact (v_bin L0 z9 0 (NE (l_same L0)) _ _ (VInt 9) (VInt 9) Z (v_lit _ _ _ _)).
Qed.
Example sum_missing : has_value L0 (q_start tt) 0 sum_ex (inr (msg m_nosym [VStr (s2b "z")])).
Proof.
  assert (Z : has_value L0 (q_start tt) 0 (XVar (s2b "z")) (inr (msg m_nosym [VStr (s2b "z")]))).
  { apply v_unknown; [discriminate..| |reflexivity]. intros q v S. inversion S as [i u (H & _)|i j q' u _ _ H _]; subst; discriminate H. }
  apply v_or_err, v_or_err, v_bin_err1. refine (v_bin_err2 L0 (q_start tt) 0 Sub _ _ (VInt 5) _ _ _); [exact (v_bin L0 (q_start tt) 0 Sub _ _ (VInt 7) (VInt 2) (v_lit _ _ _ _) (v_lit _ _ _ _))|].
  apply v_bin_err1. exact (v_bin_err2 L0 (q_start tt) 0 Add _ _ (VInt 1) _ (v_lit _ _ _ _) Z).
Qed.
Example sum_tokenized : exists eof, Tokenize no_class no_class false false (AutoKw q_akw) PropScan.fresh (s2b sum) = TzOk (st 0 :: st 1 :: sg 2 25) eof /\ tkind (st 0) = IDENT /\ tlit (st 0) = s2b "x" /\ tkind (st 1) = ASSIGN.
Proof. eexists. split; [vm_compute; reflexivity|]. repeat split. Qed.
Example sum_run : leaves ("z = 9;" ++ sum) ["x"; "z"] = (Fine, [VBool true], [Some (VBool true); Some (VInt 9)]) /\ leaves sum ["x"] = (Panicked (VMsg m_nosym [VStr (s2b "z")]), [VInt 1; VInt 5], [None]).
Proof. split; vm_compute; reflexivity. Qed.

Print Assumptions C74_eval.
Print Assumptions C74_exec.
Print Assumptions C74_unique.
Print Assumptions C75_value.
Print Assumptions C75_total.
Print Assumptions C75_unique.
Print Assumptions C75_run.
Print Assumptions C75_exec.
