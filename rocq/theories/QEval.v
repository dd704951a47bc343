(** Evaluating a text does what the text means. *)
From Coq Require Import String SpecFloat.
From Verif Require Import Base Token Scanner Tokenize Grammar Matcher PegSpec MatchProofs MatchProofs2 PegTools Compiler Interp QValue Qlang QlangSpec QlangTop QText QTidy QStep QGlue PegRel QParse QFwd QFwd2.
Local Open Scope Z_scope.

Section Eval.
Context {W : Type}.
Variable L : qlib W.
Notation St := (est nat value (@rest W)).
Notation env := (cenv q_dst).
Notation sem := (@sem W).
Notation B := (ok env (both L)).
Notation ev := (QlangTop.ev L).

(** the evaluator puts aside the state of evaluation *)
Lemma tidy_ev : forall n, tidy (ev n).
Proof.
  intros [|n] p rule c s; cbn [QlangTop.ev]; [apply se_refl|]. destruct c; try apply se_refl.
  unfold EvalCode. destruct (EvalSubTokens _ _ _ _ _ _ _); cbn; apply se_refl || (split; reflexivity).
Qed.

(** the grammar of a rule and what it does on a text *)
Lemma text_parses : forall rule ts c, text_is L rule ts c -> exists g l, find rule (d_grams q_dst) = Some g /\ B g ts [] l c.
Proof.
  intros rule ts c H. destruct (forward L) as (_ & _ & _ & _ & _ & _ & _ & _ & Ht3 & _ & Ht4 & _ & He & _ & _ & _ & _ & _ & _ & _ & _ & _ & _ & _ & _ & _ & _ & _ & _ & _ & Hs & _ & Hd & _).
  assert (N : forall v g l, B (GNamed v g) ts [] l c -> exists l', B g ts [] l' c).
  { intros v g l (tr & P & Hb). unfold parses in P. inversion P; subst. destruct o as [n l'| |]; try discriminate. cbn [with_len] in *.
    match goal with E : _ = OOk (length ts) l |- _ => injection E as -> _ end. exists l', tr. split; assumption. }
  destruct H as [(-> & H)|[(-> & H)|[(-> & H)|[(-> & H)|(-> & H)]]]].
  - exists d_expr. destruct (He ts c H) as (_ & X). destruct (N _ _ _ (X [] eq_refl)) as (l & Y). exists l. split; [reflexivity|exact Y].
  - exists d_doc. destruct (N _ _ _ (Hd ts c H [] eq_refl)) as (l & Y). exists l. split; [reflexivity|exact Y].
  - exists d_s. destruct (Hs ts c H) as (_ & X & _). destruct (N _ _ _ (X [] eq_refl)) as (l & Y). exists l. split; [reflexivity|exact Y].
  - exists d_term3. destruct (Ht3 ts c H) as (_ & X). destruct (N _ _ _ (X [] eq_refl)) as (l & Y). exists l. split; [reflexivity|exact Y].
  - exists d_term4. destruct (Ht4 ts c H) as (_ & X). destruct (N _ _ _ (X [] eq_refl)) as (l & Y). exists l. split; [reflexivity|exact Y].
Qed.
(** a match of a grammar that does [c], with enough fuel *)
Lemma match_does : forall g ts l c, B g ts [] l c -> exists N, forall f e k s, (N <= f)%nat -> tidy e -> e_mute (ust s) = 0 ->
  exists s', gmatch env (lift (q_client L e k)) f g ts s =
    match c e k (e_ipt (ust s)) (ust s) with inl _ => Ret (length ts) None s' | inr (p, _) => Panic p s' end /\ ust s' = QlangSpec.after (c e k (e_ipt (ust s)) (ust s)).
Proof.
  intros g ts l c (tr & P & (D & _)). unfold parses in P. rewrite app_nil_r in P. destruct (proj1 (sim_uniform (P := pv value) (U := St) (V := unit) env) _ _ _ _ P) as (N & HN).
  exists N. intros f e k s Hf He Hm. destruct (D e k He) as (D1 & _). specialize (D1 (ust s) [] Hm).
  destruct (HN (q_client L e k) f Hf s) as [(p & s' & Hg & Hr)|(s' & Hg & _ & Hr)]; specialize (Hr []); exists s'; rewrite Hg; rewrite D1 in Hr; unfold done in Hr;
    destruct (c e k (e_ipt (ust s)) (ust s)) as [(y, x')|(q, x')]; try discriminate Hr; injection Hr; intros; subst; split; cbn; reflexivity || congruence.
Qed.
Theorem eval_text : forall rule ts c, text_is L rule ts c -> exists N, forall n p s, (N <= n)%nat -> ev (S n) p rule (VCode ts) s = evaluated (ev n) n p c s.
Proof.
  intros rule ts c H. destruct (text_parses rule ts c H) as (g & l & Hg & Hb). destruct (match_does g ts l c Hb) as (N & HN). exists N. intros n p s Hn.
  cbn [QlangTop.ev]. unfold EvalCode, EvalSubTokens. rewrite Hg. unfold iinit.
  destruct (HN n (ev n) n (mkSt (fun _ => 0) (set_mute 0 (set_ipt p s))) Hn (tidy_ev n) eq_refl) as (s' & E & Es). cbn [lens ust] in *.
  change (iclient emb q_pushret q_to_float f_of_int (l_parse_float L) (fntable L (ev n) n) t_stack t_ipt None) with (q_client L (ev n) n). rewrite E. unfold evaluated. cbn [e_ipt set_mute set_ipt] in *.
  destruct (c (ev n) n p (set_mute 0 (set_ipt p s))) as [(y, x')|(q, x')]; cbn in Es; rewrite <- Es; [rewrite Nat.eqb_refl|]; reflexivity.
Qed.
(** a text has one meaning *)
Theorem text_det : forall rule ts c c', text_is L rule ts c -> text_is L rule ts c' -> forall e k p s, tidy e -> evaluated e k p c s = evaluated e k p c' s.
Proof.
  intros rule ts c c' H H' e k p s He. destruct (text_parses rule ts c H) as (g & l & Hg & (tr & P & (D & _))). destruct (text_parses rule ts c' H') as (g' & l' & Hg' & (tr' & P' & (D' & _))).
  rewrite Hg' in Hg. injection Hg as ->. destruct (peg_det env _ _ _ _ _ _ P P') as (_ & <-). destruct (D e k He) as (A & _). destruct (D' e k He) as (A' & _).
  specialize (A (set_mute 0 (set_ipt p s)) [] eq_refl). specialize (A' (set_mute 0 (set_ipt p s)) [] eq_refl). rewrite A in A'. unfold done, evaluated in *. cbn [e_ipt set_mute set_ipt] in *.
  destruct (c e k p _) as [(y, x)|(q, x)]; destruct (c' e k p _) as [(y', x')|(q', x')]; try discriminate A'; injection A' as <-; congruence.
Qed.
(** Exec of a source text *)
Theorem exec_text : forall isL isD semis old src ts eof c, Tokenize isL isD false semis (AutoKw q_akw) old src = TzOk ts eof -> doc_is L ts c ->
  exists N, forall n s, (N <= n)%nat -> Exec L isL isD n semis old src s =
    match c (ev n) n (e_ipt s) (set_mute 0 s) with inl (_, s') => inl (None, s') | inr (e, s') => inr (e, s') end.
Proof.
  intros isL isD semis old src ts eof c Ht H. destruct (text_parses r_doc ts c (or_intror (or_introl (conj eq_refl H)))) as (g & l & Hg & Hb). injection Hg as <-.
  destruct (match_does d_doc ts l c Hb) as (N & HN). exists N. intros n s Hn. unfold Exec, MatchExactly, Match. rewrite Ht. unfold iinit.
  destruct (HN n (ev n) n (mkSt (fun _ => 0) (set_mute 0 s)) Hn (tidy_ev n) eq_refl) as (s' & E & Es). cbn [lens ust] in *.
  change (match d_doc with GNil => _ | _ => ?x end) with x. rewrite E. cbn [e_ipt set_mute] in *.
  destruct (c (ev n) n (e_ipt s) (set_mute 0 s)) as [(y, x')|(q, x')]; cbn in Es; rewrite <- Es; [rewrite skipn_all|]; reflexivity.
Qed.
End Eval.
