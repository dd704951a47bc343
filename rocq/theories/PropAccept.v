(** Property C74, the other direction: the programs that the engine accepts are the texts of QText, up to two constructs. *)
From Coq Require Import String SpecFloat.
From Verif Require Import Base Token Utf8 Scanner Tokenize Grammar Matcher MatchProofs2 PegSpec GramLang Compiler Interp QValue Qlang QlangSpec QlangTop QText QOdd QConv QTidy QStep PegRel QEval QSafe QSafeP QSafeE QSafeT QlangEx PropCtrl PropVars PropCall PropText PropStack.
From Verif Require PropScan PropClass.
Notation no_class := PropClass.no_class.
Local Open Scope list_scope. Local Open Scope Z_scope.

Section Accept.
Context {W : Type}.
Variable L : qlib W.
Notation St := (est nat value (@rest W)).
Notation ev := (QlangTop.ev L).

Lemma q_closed : forall v g ts, cenv q_dst v = Some g -> lang (Fq L) g ts -> Fq L v ts.
Proof.
  intros v g ts E H ->. assert (X : cenv q_dst r_factor = Some d_factor) by reflexivity. rewrite X in E. injection E as <-. apply l_d_factor. exact H.
Qed.
Lemma consumed : forall (u : uclient bytes Empty_set (pv value) St unit) f g src s n s', gmatch (cenv q_dst) (lift u) f g src s = Ret n None s' -> (length src <= n)%nat -> lang (Fq L) g src.
Proof.
  intros u f g src s n s' E Hn. destruct (ret_sound (cenv q_dst) u f g src s n None s' E) as (tr & H & _). pose proof (proj1 (lang_sound (Fq L) (cenv q_dst) q_closed) _ _ _ _ H _ _ eq_refl) as X.
  rewrite firstn_all2 in X by exact Hn. exact X.
Qed.

(** If Exec returns nil the source is a text, and what happened is what it means; or it has an index with no or two expressions
    and no colon, or a return statement in the header of a for. *)
Theorem C74_accepted : forall isL isD n semis old src s s', Exec L isL isD n semis old src s = inl (None, s') ->
  exists ts eof, Tokenize isL isD false semis (AutoKw q_akw) old src = TzOk ts eof /\
    ((exists c, doc_is L ts c /\ c (ev n) n (e_ipt s) (set_mute 0 s) = inl (tt, s')) \/ odd_index L ts \/ odd_for L ts).
Proof.
  intros isL isD n semis old src s s' E. destruct (Tokenize isL isD false semis (AutoKw q_akw) old src) as [ts eof|sc e|] eqn:Ht.
  2,3: unfold Exec, MatchExactly, Match in E; change (match d_doc with GNil => _ | _ => ?x end) with x in E; rewrite Ht in E; discriminate E.
  exists ts, eof. split; [reflexivity|].
  assert (G : lang (Fq L) d_doc ts).
  { unfold Exec, MatchExactly, Match in E. change (match d_doc with GNil => _ | _ => ?x end) with x in E. rewrite Ht in E.
    destruct (gmatch (cenv q_dst) (lift (q_client L (ev n) n)) n d_doc ts (iinit {| lens := fun _ => 0; ust := s |})) as [m [err|] s1|p s1|] eqn:Eg; try discriminate E.
    destruct (skipn m ts) as [|t r] eqn:Es; [|discriminate E]. apply (consumed _ _ _ _ _ _ _ Eg). pose proof (skipn_length m ts) as K. rewrite Es in K. cbn in K. lia. }
  destruct (l_doc L ts G) as [(c & Hc)|O]; [|right; exact O]. left. exists c. split; [exact Hc|].
  destruct (exec_out L isL isD semis old src ts eof c n s Ht Hc) as [F|F]; rewrite E in F; [discriminate F|]. destruct (c (ev n) n (e_ipt s) (set_mute 0 s)) as [([], s2)|(e, s2)]; [|discriminate F]. injection F as <-. reflexivity.
Qed.
(** The same for the pieces of code that the interpreter evaluates: operands, conditions, statements and bodies. *)
Theorem C74_accepted_code : forall n p rule code s s', In rule [r_term3; r_term4; r_expr; r_s; r_doc] -> ev n p rule code s = inl (None, s') ->
  exists k ts, n = S k /\ code = VCode ts /\ ((exists c, text_is L rule ts c /\ evaluated (ev k) k p c s = inl (None, s')) \/ odd_index L ts \/ odd_for L ts).
Proof.
  intros n p rule code s s' Hr E. destruct n as [|k]; [discriminate E|]. assert (C : exists ts, code = VCode ts) by (destruct code; try discriminate E; eauto). destruct C as (ts & ->). exists k, ts. split; [reflexivity|]. split; [reflexivity|].
  assert (G : forall g, find rule (d_grams q_dst) = Some g -> lang (Fq L) g ts).
  { intros g Hg. cbn [QlangTop.ev] in E. unfold EvalCode, EvalSubTokens in E. rewrite Hg in E.
    match type of E with context [gmatch ?a ?b ?c ?d ?e ?f] => destruct (gmatch a b c d e f) as [m [err|] s1|q s1|] eqn:Eg; try discriminate E end.
    destruct (length ts =? m)%nat eqn:Em; [|discriminate E]. apply Nat.eqb_eq in Em. apply (consumed _ _ _ _ _ _ _ Eg). lia. }
  assert (X : (exists c, text_is L rule ts c) \/ odd L ts).
  { unfold text_is. cbn [In] in Hr. destruct Hr as [<-|[<-|[<-|[<-|[<-|[]]]]]].
    - destruct (l_term3 L ts (G _ eq_refl)) as [(c & Hc)|O]; [left; exists c; tauto|right; exact O].
    - destruct (l_term4 L ts (G _ eq_refl)) as [(c & Hc)|O]; [left; exists c; tauto|right; exact O].
    - destruct (l_expr L ts (G _ eq_refl)) as [(c & Hc)|O]; [left; exists c; tauto|right; exact O].
    - destruct (l_s L ts (G _ eq_refl)) as [(c & Hc)|O]; [left; exists c; tauto|right; exact O].
    - destruct (l_doc L ts (G _ eq_refl)) as [(c & Hc)|O]; [left; exists c; tauto|right; exact O]. }
  destruct X as [(c & Hc)|O]; [|right; exact O]. left. exists c. split; [exact Hc|]. destruct (ev_out L rule ts c k p s Hc) as [F|F]; rewrite E in F; [discriminate F|]. symmetry. exact F.
Qed.
(** A text is never refused: Exec of it returns no error. *)
Theorem C74_no_error : forall isL isD n semis old src s s' ts eof c err, Tokenize isL isD false semis (AutoKw q_akw) old src = TzOk ts eof -> doc_is L ts c ->
  Exec L isL isD n semis old src s <> inl (Some err, s').
Proof.
  intros isL isD n semis old src s s' ts eof c err Ht Hc E. destruct (exec_out L isL isD semis old src ts eof c n s Ht Hc) as [F|F]; rewrite E in F; [discriminate F|]. destruct (c (ev n) n (e_ipt s) (set_mute 0 s)) as [([], s2)|(e, s2)]; discriminate F.
Qed.
(** So what C76 says of the stack holds of every program that the engine accepts, unless it has one of the two constructs. *)
Theorem C76_accepted : forall IW isL isD n semis old src s s', wf_lib L IW -> usable L IW s -> Exec L isL isD n semis old src s = inl (None, s') ->
  (usable L IW s' /\ e_ipt s' = e_ipt s /\ exists v, wf_value L v /\ (e_stk s' = v :: e_stk s \/ e_stk s' = v :: lowest (base s) (e_stk s))) \/
  exists ts eof, Tokenize isL isD false semis (AutoKw q_akw) old src = TzOk ts eof /\ (odd_index L ts \/ odd_for L ts).
Proof.
  intros IW isL isD n semis old src s s' HL U E. destruct (C74_accepted isL isD n semis old src s s' E) as (ts & eof & Ht & [(c & Hc & _)|O]); [left|right; eauto].
  pose proof (C76_exec L IW HL isL isD n semis old src ts eof c s Ht Hc U) as X. rewrite E in X. cbn [exec_safe] in X. destruct X as (X1 & X2 & _ & X4). auto.
Qed.
End Accept.

(** ** Examples *)
Local Open Scope string_scope.
Definition accepted (t : string) : Prop := exists s', Exec L0 no_class no_class 200 false PropScan.fresh (s2b t) (q_start tt) = inl (None, s').
Definition is_fine (r : (option (panicq + (nat * smsg)) * est nat value (@rest unit)) + (panicq * est nat value (@rest unit))) : bool := match r with inl (None, _) => true | _ => false end.
Lemma accepted_run : forall t, is_fine (Exec L0 no_class no_class 200 false PropScan.fresh (s2b t) (q_start tt)) = true -> accepted t.
Proof. intros t H. unfold accepted. destruct (Exec L0 no_class no_class 200 false PropScan.fresh (s2b t) (q_start tt)) as [([x|], s')|(e, s')]; try discriminate H. eauto. Qed.
Example prog_accepted : accepted prog.
Proof. apply accepted_run. vm_compute. reflexivity. Qed.
Example stray_accepted : accepted stray.
Proof. apply accepted_run. vm_compute. reflexivity. Qed.
(** That every accepted program is a text is false: the program that leaves four values is none. *)
Theorem C74_only_texts_refuted : ~ (forall src s', Exec L0 no_class no_class 200 false PropScan.fresh src (q_start tt) = inl (None, s') ->
  exists ts eof c, Tokenize no_class no_class false false (AutoKw q_akw) PropScan.fresh src = TzOk ts eof /\ doc_is L0 ts c).
Proof.
  intro H. specialize (H (s2b stray)).
  assert (E : match Exec L0 no_class no_class 200 false PropScan.fresh (s2b stray) (q_start tt) with inl (None, s') => length (e_stk s') | _ => O end = 4%nat) by (vm_compute; reflexivity).
  assert (U : usable L0 (fun _ => True) (q_start tt)) by exact (proj1 (C76_session L0 (fun _ => True) L0_wf no_class no_class (q_start tt) (Started L0 _ no_class no_class tt Logic.I))).
  destruct (Exec L0 no_class no_class 200 false PropScan.fresh (s2b stray) (q_start tt)) as [([x|], s')|(e, s')] eqn:Ex; try discriminate E. destruct (H s' eq_refl) as (ts & eof & c & Ht & Hc).
  pose proof (C76_exec L0 _ L0_wf no_class no_class 200 false PropScan.fresh (s2b stray) ts eof c (q_start tt) Ht Hc U) as X. rewrite Ex in X. destruct X as (_ & _ & _ & v & _ & [X|X]); rewrite X in E; discriminate E.
Qed.
(** its index has two expressions: 1 + 2 * x  and the empty slice [,] *)
Definition stray_toks : list token := Eval vm_compute in toks stray.
Definition sseg (i n : nat) : list token := firstn n (skipn i stray_toks).
Definition stk_ (i : nat) : token := nth i stray_toks (mkTok 0 0 []).
Example stray_odd : odd_index L0 stray_toks.
Proof.
  assert (A : exists ci, expr_is L0 (sseg 18 5) ci).
  { eexists. refine (EX L0 (sseg 18 5) _ [] _ (T4 L0 (sseg 18 5) _ [] _ (T3 L0 (sseg 18 5) _ [] _ (T2 L0 (sseg 18 1) _ (sseg 19 4) _ _ _) (O3_nil L0)) (O4_nil L0)) (O5_nil L0)).
    - refine (T1 L0 (sseg 18 1) _ [] _ _ (O1_nil L0)). exact (F_int L0 (stk_ 18) eq_refl).
    - refine (O2_op L0 (stk_ 19) _ _ (sseg 20 3) _ [] _ _ _ (O2_nil L0)); [left; reflexivity|]. refine (T1 L0 (sseg 20 1) _ (sseg 21 2) _ _ _); [exact (F_int L0 (stk_ 20) eq_refl)|].
      refine (O1_op L0 (stk_ 21) _ _ (sseg 22 1) _ [] _ _ _ (O1_nil L0)); [left; reflexivity|]. exact (F_base L0 (sseg 22 1) _ [] _ (B_name L0 (stk_ 22) eq_refl) (AT_nil L0)). }
  assert (B : exists cj, expr_is L0 (sseg 23 3) cj).
  { eexists. refine (EX L0 (sseg 23 3) _ [] _ (T4 L0 (sseg 23 3) _ [] _ (T3 L0 (sseg 23 3) _ [] _ (T2 L0 (sseg 23 3) _ [] _ (T1 L0 (sseg 23 3) _ [] _ _ (O1_nil L0)) (O2_nil L0)) (O3_nil L0)) (O4_nil L0)) (O5_nil L0)).
    refine (F_base L0 (sseg 23 3) _ [] _ _ (AT_nil L0)). exact (B_slice L0 (stk_ 23) [] _ _ (sseg 24 1) _ (stk_ 25) eq_refl (ES_none L0) (OT_some _ (stk_ 24) eq_refl) eq_refl). }
  destruct A as (ci & A). destruct B as (cj & B). exists (sseg 0 16), (stk_ 16), (stk_ 17), (sseg 18 5), ci, (sseg 23 3), cj, (stk_ 26), [].
  split; [reflexivity|]. split; [left; reflexivity|]. split; [reflexivity|]. split; [apply OE_some; exact A|]. split; [apply OE_some; exact B|]. split; [reflexivity|]. split; discriminate.
Qed.
(** the return statement here is never run *)
Definition forret : string := "for x = 1; false; return 2 { }".
Example forret_accepted : accepted forret.
Proof. apply accepted_run. vm_compute. reflexivity. Qed.
Definition forret_toks : list token := Eval vm_compute in toks forret.
Definition fseg (i n : nat) : list token := firstn n (skipn i forret_toks).
Definition ftk (i : nat) : token := nth i forret_toks (mkTok 0 0 []).
Ltac fexpr i := refine (EX L0 (fseg i 1) _ [] _ (T4 L0 (fseg i 1) _ [] _ (T3 L0 (fseg i 1) _ [] _ (T2 L0 (fseg i 1) _ [] _ (T1 L0 (fseg i 1) _ [] _ _ (O1_nil L0)) (O2_nil L0)) (O3_nil L0)) (O4_nil L0)) (O5_nil L0)).
Example forret_odd : odd_for L0 forret_toks.
Proof.
  exists [], (ftk 0), (fseg 1 8), [fseg 1 3; fseg 5 1; fseg 7 2], (ftk 9), (fseg 10 1). split; [reflexivity|]. split; [reflexivity|]. split; [|split; [|split; [|reflexivity]]].
  - apply (J_more (fseg 1 3) (ftk 4) [fseg 5 1; fseg 7 2] (fseg 5 4)); [reflexivity|]. apply (J_more (fseg 5 1) (ftk 6) [fseg 7 2] (fseg 7 2)); [reflexivity|]. apply J_one.
  - repeat constructor.
    + eexists. refine (S_assign L0 (ftk 1) (ftk 2) (fseg 3 1) _ eq_refl eq_refl _). fexpr 3%nat. exact (F_int L0 (ftk 3) eq_refl).
    + eexists. apply S_expr. fexpr 5%nat. exact (F_base L0 (fseg 5 1) _ [] _ (B_name L0 (ftk 5) eq_refl) (AT_nil L0)).
    + eexists. refine (S_return L0 (ftk 7) (fseg 8 1) _ _ eq_refl _). apply OV_some. fexpr 8%nat. exact (F_int L0 (ftk 8) eq_refl).
  - right. right. left. reflexivity.
Qed.
(** a program that is refused is no text *)
Definition unfinished : string := "x = 1 + ; y = 2".
Example unfinished_refused : exists err s', Exec L0 no_class no_class 200 false PropScan.fresh (s2b unfinished) (q_start tt) = inl (Some err, s').
Proof. do 2 eexists. vm_compute. reflexivity. Qed.
Example unfinished_no_text : forall c, ~ doc_is L0 (toks unfinished) c.
Proof.
  intros c Hc. destruct unfinished_refused as (err & s' & E). assert (T : exists eof, Tokenize no_class no_class false false (AutoKw q_akw) PropScan.fresh (s2b unfinished) = TzOk (toks unfinished) eof) by (eexists; vm_compute; reflexivity).
  destruct T as (eof & T). exact (C74_no_error L0 no_class no_class 200 false PropScan.fresh (s2b unfinished) (q_start tt) s' (toks unfinished) eof c err T Hc E).
Qed.

Print Assumptions C74_accepted.
Print Assumptions C74_accepted_code.
Print Assumptions C74_no_error.
Print Assumptions C76_accepted.
Print Assumptions C74_only_texts_refuted.
