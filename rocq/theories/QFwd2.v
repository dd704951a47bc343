(** The induction. *)
From Coq Require Import String SpecFloat.
From Verif Require Import Base Token Grammar Matcher PegSpec MatchProofs MatchProofs2 PegTools Compiler Interp QValue Qlang QlangSpec QlangTop QText QTidy QStep QGlue PegRel QParse QFwd.
Local Open Scope Z_scope.

Section Fwd.
Context {W : Type}.
Variable L : qlib W.
Notation St := (est nat value (@rest W)).
Notation env := (cenv q_dst).
Notation sem := (@sem W).
Infix ">>" := seq (at level 60, right associativity).
Notation B := (ok env (both L)).
Notation BS := (okS env (both L)).
Notation BR := (okR env (both L)).
Notation M := (ok env (pushes L)).
Notation MS := (okS env (pushes L)).
Notation MR := (okR env (pushes L)).
Notation ME := (ME L).
Notation both := (both L).

Ltac semeq := let ev := fresh "ev" in let k := fresh "k" in let p := fresh "p" in let x := fresh "x" in intros ev k p x; cbn [app put_all]; unfold seq, nop, bind, ret;
  repeat match goal with |- context [match ?m with inl _ => _ | inr _ => _ end] => destruct m as [([], ?)|?] eqn:? end; first [reflexivity|assumption|symmetry; assumption].
Ltac hd := cbn [app]; solve [eassumption | eapply hin_tok; [eassumption|reflexivity]].
Ltac hok := eapply headok_tok; [eassumption|reflexivity|reflexivity].
Ltac kind := cbn [hdk app]; match goal with H : tkind ?t = _ |- Some (tkind ?t) = _ => rewrite H; reflexivity end.
Ltac fac i := eapply (factor_alt L i); [reflexivity|reflexivity|kind|reflexivity|].
Ltac alt i := eapply (alt_sel L _ i); [reflexivity|kind|reflexivity|].
Ltac balt i := eapply (alt_sel L [GAct (GTok IDENT) k_ref; g_paren; g_fn; g_slice] i); [reflexivity|kind|reflexivity|].
Ltac toks := repeat first [apply b_bang | apply b_tok; [eassumption|]].

Lemma not_ok : forall t r rest g l c, tkind t <> LBRACE -> g <> GNil -> B g (t :: r) rest l c -> B (GAnd [GNot (GTok 123); g]) (t :: r) rest 2 c.
Proof.
  intros t r rest g l c Ht Hg H.
  eapply (b_ext L); [apply (b_and L [GNot (GTok 123); g]); apply (b_cons L (GNot (GTok 123)) [g] [] (t :: r) rest (-1) nop c); [discriminate| |eapply b_last; [exact Hg|exact H]]|semeq].
  exists []. split; [|apply both_nil]. apply (P_Not env (GTok 123) _ OFail []). apply P_Tok_fail. intros t' r' E. cbn in E. injection E as <- _. intros [K|(_ & K)]; [apply Ht; exact K|discriminate K].
Qed.
Lemma not_no : forall g rest, hin [Some LBRACE] rest -> g <> GNil -> peg env (GAnd [GNot (GTok 123); g]) rest OFail [].
Proof.
  intros g rest H Hg. apply hin_in in H. destruct H as [H|[]]. destruct rest as [|t r]; [discriminate H|]. cbn in H. injection H as H.
  apply (P_And env _ _ OFail []). apply S_fail; [discriminate|]. apply (P_Not env (GTok 123) (t :: r) (OOk 1 (-1)) []). apply P_Tok. left. symmetry. exact H.
Qed.

Lemma forward :
  (forall ts c, factor_is L ts c -> lvl L gfactor F1 ts c) /\ (forall ts c, base_is L ts c -> Pbase L ts c) /\ (forall ts c, atoms_are L ts c -> Patoms L ts c) /\
  (forall ts c, ops1_are L ts c -> opsl L (GOr (map (op_alt gfactor) ops1)) F2 F1 ts c) /\ (forall ts c, term1_is L ts c -> lvl L gterm1 F2 ts c) /\
  (forall ts c, ops2_are L ts c -> opsl L (GOr (map (op_alt gterm1) ops2)) F3 F2 ts c) /\ (forall ts c, term2_is L ts c -> lvl L gterm2 F3 ts c) /\
  (forall ts c, ops3_are L ts c -> opsl L (GOr (map (op_alt gterm2) ops3)) F4 F3 ts c) /\ (forall ts c, term3_is L ts c -> lvl L gterm3 F4 ts c) /\
  (forall ts c, ops4_are L ts c -> opsl L (lazy_alt 143 gterm3 k_and) F5 F4 ts c) /\ (forall ts c, term4_is L ts c -> lvl L gterm4 F5 ts c) /\
  (forall ts c, ops5_are L ts c -> opsl L (lazy_alt 144 gterm4 k_or) FE F5 ts c) /\ (forall ts c, expr_is L ts c -> lvl L gexpr FE ts c) /\
  (forall ts c, opt_expr L ts c -> Poexpr L ts c) /\ (forall ts n c, opt_value L ts n c -> Povalue L ts n c) /\ (forall ts n c, exprs_are L ts n c -> Pexprs L ts n c) /\
  (forall ts n c, more_are L ts n c -> Pmore L ts n c) /\ (forall ts n c, entries_are L ts n c -> Pentries L ts n c) /\ (forall ts n c, more_entries L ts n c -> Pmentries L ts n c) /\
  (forall ts bs c, body_is L ts bs c -> Pbody L ts bs c) /\ (forall ts br, elifs_are L ts br -> Pelifs L ts br) /\ (forall ts ec, else_is L ts ec -> Pelse L ts ec) /\
  (forall ts br, cases_are L ts br -> Pcases L ts br) /\ (forall ts ec, default_is L ts ec -> Pdefault L ts ec) /\ (forall ts hs, header_is L ts hs -> Pheader L ts hs) /\
  (forall ts hs, more_header L ts hs -> Pmheader L ts hs) /\ (forall ts c, fnbody_is L ts c -> Pfnbody L ts c) /\ (forall ts c, clsname_is L ts c -> Pclsname L ts c) /\
  (forall ts c, newargs_are L ts c -> Pnewargs L ts c) /\ (forall ts n c, methods_are L ts n c -> Pmethods L ts n c) /\ (forall ts c, stmt_is L ts c -> Pstmt L ts c) /\
  (forall ts c, rest_is L ts c -> Prest L ts c) /\ (forall ts c, doc_is L ts c -> Pdoc L ts c) /\ (forall ts c, opt_doc L ts c -> Podoc L ts c).
Proof.
  apply text_mi.
  (* factor *)
  - intros t Ht. split; [hok|]. intros rest Hr. fac 0%nat. apply b_acttok; [exact Ht|apply b_pushi].
  - intros t Ht. split; [hok|]. intros rest Hr. fac 1%nat. apply b_acttok; [exact Ht|apply b_pushf].
  - intros t Ht. split; [hok|]. intros rest Hr. fac 2%nat. apply b_acttok; [exact Ht|apply a_pushs].
  - intros t Ht. split; [hok|]. intros rest Hr. fac 3%nat. apply b_acttok; [exact Ht|apply a_pushc].
  - intros ts c ts' c' _ (H1 & (k & Hk & Hi) & H2) _ (A1 & A2). split; [apply headok_app; assumption|]. intros rest Hr. destruct (A2 rest Hr) as (n & A).
    apply (factor_alt L 4 _ (GAnd [g_base; GRep0 27 gatom]) (ts ++ ts') rest k 2 _ eq_refl eq_refl).
    + destruct ts; [discriminate Hk|exact Hk].
    + repeat (destruct Hi as [<-|Hi]; [reflexivity|]). destruct Hi.
    + apply (b_and L [g_base; GRep0 27 gatom]). eapply b_cons; [discriminate|apply H2|]. eapply b_last; [discriminate|]. apply b_rep0. exact A.
  - intros t c cc b bs bc els ec Ht _ (Hc & IHc) _ ((t1 & r1 & t2 & Eb & Hb1 & Hb2) & IHb) elifs br _ IHel _ (He1 & He2 & l & vs & He3 & He4).
    split; [hok|]. intros rest Hr. eapply b_ext; [fac 5%nat; apply b_and; apply mute_in; [exact Ht|]; apply e_bang; eapply e_cons; [discriminate|eapply m_code; apply IHc; subst b; hd|];
      eapply e_cons; [discriminate|apply IHb|]; eapply e_cons; [discriminate|apply m_arity; apply m_rep0; apply IHel; apply He2; exact Hr|];
      eapply e_last; [apply m_arity; apply He4; exact Hr|apply b_if; exact He1]|].
    intros ev k p x. rewrite <- (glue_if els br c bs ec (vs ++ [VInt l]) ev k p x He3). rewrite headok_code by exact Hc. cbn [flatc flat_map fst snd app]. rewrite <- !app_assoc. reflexivity.
  - intros t x xc t1 cs br d dc t2 Ht _ Hx Hx1 Ht1 _ (C1 & C2) _ (D1 & l & vs & D2 & D3) Ht2. split; [hok|]. intros rest Hr.
    replace (cs ++ d ++ [t2]) with ((cs ++ d) ++ [t2]) by (rewrite app_assoc; reflexivity).
    assert (Hd : hin [Some RBRACE] ([t2] ++ rest)) by hd.
    assert (Hcode : exists n, M (GAct (GRep01 30 (GAnd [GNot (GTok 123); gexpr])) k__code) x ((t1 :: (cs ++ d) ++ [t2]) ++ rest) n [code x]).
    { destruct Hx as [->|(X1 & X2)].
      - exists 0. eapply m_code. apply b_optno. apply not_no; [hd|discriminate].
      - exists 1. destruct x as [|tx x]; [destruct X1|]. eapply m_code. eapply b_opt. eapply not_ok; [intro K; apply Hx1; cbn; rewrite K; reflexivity|discriminate|]. apply X2. hd. }
    destruct Hcode as (n & Hcode).
    eapply b_ext; [fac 6%nat; apply b_and; apply mute_in; [exact Ht|]; apply e_bang; eapply e_cons; [discriminate|exact Hcode|]; apply e_tok; [exact Ht1|];
      eapply e_cons; [discriminate|eapply m_named; apply m_and_; eapply m_cons; [discriminate|apply m_arity; apply m_rep0; apply C2; apply D1; exact Hd|]; eapply m_last; [discriminate|]; apply m_arity; apply D3; exact Hd|];
      eapply e_last; [apply m_tok1; exact Ht2|apply a_switch]|].
    intros ev k p y. rewrite <- (glue_switch L [t2] x br dc (vs ++ [VInt l]) ev k p y D2). rewrite app_nil_r, <- !app_assoc. reflexivity.
  - intros t hs header t1 b bc t2 Ht _ Hh Ht1 _ Hb Ht2. split; [hok|]. intros rest Hr. destruct (Hb 32%nat ([t2] ++ rest) ltac:(hd)) as (n & Hb').
    eapply b_ext; [fac 7%nat; apply b_and; apply mute_in; [exact Ht|]; apply e_bang; eapply e_cons; [discriminate|apply m_arity; apply Hh; hd|]; apply e_tok; [exact Ht1|];
      eapply e_cons; [discriminate|exact Hb'|]; eapply e_last; [apply m_tok1; exact Ht2|apply a_for]|].
    intros ev k p y. rewrite <- (glue_for [t2] header b ev k p y). rewrite app_nil_r, <- !app_assoc. reflexivity.
  - intros t cn cc as_ ac Ht _ Hc _ Ha. split; [hok|]. intros rest Hr. fac 8%nat. apply b_and. toks. eapply b_cons; [discriminate|apply Hc|]. eapply b_last; [discriminate|]. apply b_act; [apply Ha; exact Hr|apply a_new].
  - intros t t1 ms n mc t2 Ht Ht1 _ (M1 & M2) Ht2. split; [hok|]. intros rest Hr. eapply b_ext; [fac 9%nat; apply b_and; toks; eapply b_cons; [discriminate|apply b_arityact; apply b_rep0; apply M2; hd|];
      eapply b_last; [discriminate|]; apply b_acttok; [exact Ht2|apply a_class]|semeq].
  - intros t t1 t2 Ht Ht1 Ht2. split; [hok|]. intros rest Hr. fac 10%nat. apply b_and. toks. eapply b_last; [discriminate|]. apply b_acttok; [exact Ht2|apply a_recover].
  - intros t t1 b bc t2 Ht Ht1 _ Hb Ht2. split; [hok|]. intros rest Hr. destruct (Hb 34%nat ([t2] ++ rest) ltac:(hd)) as (n & Hb').
    eapply b_ext; [fac 11%nat; apply b_and; apply b_tok; [exact Ht|]; apply mute_in; [exact Ht1|]; eapply e_cons; [discriminate|exact Hb'|]; eapply e_last; [apply m_tok1; exact Ht2|apply a_main]|semeq].
  - intros t es n ec cm m t2 Ht _ He Hcm Ht2. split; [hok|]. intros rest Hr.
    eapply b_ext; [fac 12%nat; apply b_and; toks; eapply b_cons; [discriminate|apply b_arityact; apply He; rewrite <- app_assoc; eapply lend_comma; [exact Hcm|hd]|];
      eapply b_cons; [discriminate|apply b_opttok; [exact Hcm|eapply (rej_tok 0); [exact Ht2|reflexivity]]|]; eapply b_last; [discriminate|]; apply b_acttok; [exact Ht2|apply a_map]|semeq].
  - intros t ts c Ht _ (H1 & H2). split; [hok|]. intros rest Hr. fac 13%nat. apply b_and. toks. eapply b_last; [discriminate|]. apply b_act; [apply H2; exact Hr|apply a_not].
  - intros t ts c Ht _ (H1 & H2). split; [hok|]. intros rest Hr. fac 14%nat. apply b_and. toks. eapply b_last; [discriminate|]. apply b_act; [apply H2; exact Hr|apply a_neg].
  - intros t ts c Ht _ (H1 & H2). split; [hok|]. intros rest Hr. fac 15%nat. apply b_and. toks. eapply b_last; [discriminate|]. apply H2; exact Hr.
  (* base *)
  - intros t Ht. split; [split; [rewrite Ht; cbn; tauto|intros _; exact Logic.I]|]. split; [exists IDENT; split; [kind|cbn; tauto]|]. intro rest. balt 0%nat. apply b_acttok; [exact Ht|apply a_ref].
  - intros t ts c t2 Ht _ (H1 & H2) Ht2. split; [hok|]. split; [exists LPAREN; split; [kind|cbn; tauto]|]. intro rest.
    eapply b_ext; [balt 1%nat; apply b_and; toks; eapply b_cons; [discriminate|apply H2; hd|]; eapply b_last; [discriminate|apply b_tok1; exact Ht2]|semeq].
  - intros t ts c Ht _ H. split; [hok|]. split; [exists FN; split; [kind|cbn; tauto]|]. intro rest. balt 2%nat. apply b_and. toks. eapply b_last; [discriminate|]. apply b_act; [apply H|apply a_fn].
  - intros t es n ec cm m t2 Ht _ He Hcm Ht2. split; [hok|]. split; [exists LBRACK; split; [kind|cbn; tauto]|]. intro rest.
    eapply b_ext; [balt 3%nat; apply b_and; toks; eapply b_cons; [discriminate|apply b_arityact; apply He; rewrite <- app_assoc; eapply lend_comma; [exact Hcm|hd]|];
      eapply b_cons; [discriminate|apply b_opttok; [exact Hcm|eapply (rej_tok 0); [exact Ht2|reflexivity]]|]; eapply b_last; [discriminate|]; apply b_acttok; [exact Ht2|apply a_slice]|semeq].
  (* atoms *)
  - split; [exact Logic.I|]. intros rest Hr. exists 0. apply b_end. apply (rej_hin 1 _ F1); [reflexivity|exact Hr].
  - intros t es n ec ds d cm m t2 r rc Ht _ He Hds Hcm Ht2 _ (R1 & R2). split; [eapply nasg_tok; [exact Ht|reflexivity]|]. intros rest Hr. destruct (R2 rest Hr) as (a & R). exists (a + 1).
    eapply b_more; [|exact R]. eapply b_named. alt 0%nat. eapply b_ext; [apply b_and; toks; eapply b_cons; [discriminate|apply b_arityact; apply He; rewrite <- !app_assoc; eapply lend_dots; [exact Hds|eapply lend_comma; [exact Hcm|hd]]|];
      eapply b_cons; [discriminate|apply b_arityact; apply b_opttok; [exact Hds|]|];
      [destruct Hcm as [|tc Hc]; [eapply (rej_tok 0); [exact Ht2|reflexivity]|eapply (rej_tok 0); [exact Hc|reflexivity]]|];
      eapply b_cons; [discriminate|apply b_opttok; [exact Hcm|eapply (rej_tok 0); [exact Ht2|reflexivity]]|]; eapply b_last; [discriminate|]; apply b_acttok; [exact Ht2|apply a_call]|semeq].
  - intros t t2 r rc Ht Ht2 _ (R1 & R2). split; [eapply nasg_tok; [exact Ht|reflexivity]|]. intros rest Hr. destruct (R2 rest Hr) as (a & R). exists (a + 1).
    apply (b_more L gatom [t; t2] r rest (-1) a); [|exact R]. eapply b_named. alt 1%nat. apply b_and. toks. eapply b_last; [discriminate|].
    unfold member_kinds in Ht2. cbn [In] in Ht2. destruct Ht2 as [E|[E|[E|[E|[E|[]]]]]]; symmetry in E;
      (eapply b_ext; [apply b_act; [first [alt 0%nat; apply b_tok1; exact E|alt 1%nat; apply b_tok1; exact E|alt 2%nat; apply b_tok1; exact E|alt 3%nat; apply b_tok1; exact E|alt 4%nat; apply b_tok1; exact E]|apply a_mref]|semeq]).
  - intros t i ic t2 r rc Ht _ (H1 & H2) Ht2 _ (R1 & R2). split; [eapply nasg_tok; [exact Ht|reflexivity]|]. intros rest Hr. destruct (R2 rest Hr) as (a & R). exists (a + 1).
    eapply b_more; [|exact R]. eapply b_named. alt 2%nat. change (i ++ [t2]) with (i ++ [] ++ [] ++ [t2]).
    eapply b_ext; [apply b_and; toks; eapply b_cons; [discriminate|apply (b_arityact L _ _ _ 1%nat); eapply b_opt; apply H2; hd|];
      eapply b_cons; [discriminate|apply (b_arityact L _ _ _ 0%nat); apply b_optno; eapply (rej_tok 0); [exact Ht2|reflexivity]|];
      eapply b_cons; [discriminate|apply (b_arityact L _ _ _ 0%nat); apply b_optno; eapply (rej_tok 1); [exact Ht2|reflexivity]|];
      eapply b_last; [discriminate|]; apply b_acttok; [exact Ht2|apply a_index]|semeq].
  - intros t i n ic t1 j m jc t2 r rc Ht _ Hi Ht1 _ Hj Ht2 _ (R1 & R2). split; [eapply nasg_tok; [exact Ht|reflexivity]|]. intros rest Hr. destruct (R2 rest Hr) as (a & R). exists (a + 1).
    eapply b_more; [|exact R]. eapply b_named. alt 2%nat. change (i ++ t1 :: j ++ [t2]) with (i ++ [t1] ++ j ++ [t2]).
    eapply b_ext; [apply b_and; toks; eapply b_cons; [discriminate|apply b_arityact; apply Hi; hd|];
      eapply b_cons; [discriminate|apply (b_arityact L _ _ _ 1%nat); eapply b_opt; apply b_tok1; exact Ht1|];
      eapply b_cons; [discriminate|apply b_arityact; apply Hj; hd|];
      eapply b_last; [discriminate|]; apply b_acttok; [exact Ht2|apply a_index]|semeq].
  (* operators *)
  - apply ops_nil; reflexivity.
  - intros t m f ts c r rc Hin _ (H1 & H2) _ R. unfold level1 in Hin. cbn [In] in Hin.
    destruct Hin as [E|[E|[E|[]]]]; injection E as Ek <- <-; symmetry in Ek; (eapply ops_cons; [exact Ek|reflexivity|reflexivity| |exact R]); intros rest Hr;
      first [solve [eapply (op_ok L ops1 gfactor 0); [reflexivity|discriminate|exact Ek|reflexivity|apply H2; exact Hr|reflexivity|reflexivity]]|solve [eapply (op_ok L ops1 gfactor 1); [reflexivity|discriminate|exact Ek|reflexivity|apply H2; exact Hr|reflexivity|reflexivity]]|solve [eapply (op_ok L ops1 gfactor 2); [reflexivity|discriminate|exact Ek|reflexivity|apply H2; exact Hr|reflexivity|reflexivity]]].
  - intros ts c r rc _ H _ R. eapply lvl_term; [exact H|exact R|discriminate].
  - apply ops_nil; reflexivity.
  - intros t m f ts c r rc Hin _ (H1 & H2) _ R. unfold level2 in Hin. cbn [In] in Hin.
    destruct Hin as [E|[E|[]]]; injection E as Ek <- <-; symmetry in Ek; (eapply ops_cons; [exact Ek|reflexivity|reflexivity| |exact R]); intros rest Hr;
      first [solve [eapply (op_ok L ops2 gterm1 0); [reflexivity|discriminate|exact Ek|reflexivity|apply H2; exact Hr|reflexivity|reflexivity]]|solve [eapply (op_ok L ops2 gterm1 1); [reflexivity|discriminate|exact Ek|reflexivity|apply H2; exact Hr|reflexivity|reflexivity]]].
  - intros ts c r rc _ H _ R. eapply lvl_term; [exact H|exact R|discriminate].
  - apply ops_nil; reflexivity.
  - intros t m f ts c r rc Hin _ (H1 & H2) _ R. unfold level3 in Hin. cbn [In] in Hin.
    destruct Hin as [E|[E|[E|[E|[E|[E|[]]]]]]]; injection E as Ek <- <-; symmetry in Ek; (eapply ops_cons; [exact Ek|reflexivity|reflexivity| |exact R]); intros rest Hr;
      first [solve [eapply (op_ok L ops3 gterm2 0); [reflexivity|discriminate|exact Ek|reflexivity|apply H2; exact Hr|reflexivity|reflexivity]]|solve [eapply (op_ok L ops3 gterm2 1); [reflexivity|discriminate|exact Ek|reflexivity|apply H2; exact Hr|reflexivity|reflexivity]]|solve [eapply (op_ok L ops3 gterm2 2); [reflexivity|discriminate|exact Ek|reflexivity|apply H2; exact Hr|reflexivity|reflexivity]]|solve [eapply (op_ok L ops3 gterm2 3); [reflexivity|discriminate|exact Ek|reflexivity|apply H2; exact Hr|reflexivity|reflexivity]]|solve [eapply (op_ok L ops3 gterm2 4); [reflexivity|discriminate|exact Ek|reflexivity|apply H2; exact Hr|reflexivity|reflexivity]]|solve [eapply (op_ok L ops3 gterm2 5); [reflexivity|discriminate|exact Ek|reflexivity|apply H2; exact Hr|reflexivity|reflexivity]]].
  - intros ts c r rc _ H _ R. eapply lvl_term; [exact H|exact R|discriminate].
  - apply ops_nil; reflexivity.
  - intros t ts c r rc Ht _ (H1 & H2) _ R. eapply ops_cons; [exact Ht|reflexivity|reflexivity| |exact R]. intros rest Hr.
    eapply b_ext; [apply b_and; apply mute_in; [exact Ht|]; eapply e_last; [eapply m_code; apply H2; exact Hr|apply a_and]|].
    intros ev k p x. rewrite headok_code by exact H1. rewrite <- glue_lazy. reflexivity.
  - intros ts c r rc _ H _ R. eapply lvl_term; [exact H|exact R|discriminate].
  - apply ops_nil; reflexivity.
  - intros t ts c r rc Ht _ (H1 & H2) _ R. eapply ops_cons; [exact Ht|reflexivity|reflexivity| |exact R]. intros rest Hr.
    eapply b_ext; [apply b_and; apply mute_in; [exact Ht|]; eapply e_last; [eapply m_code; apply H2; exact Hr|apply a_or]|].
    intros ev k p x. rewrite headok_code by exact H1. rewrite <- glue_lazy. reflexivity.
  - intros ts c r rc _ H _ R. eapply lvl_term; [exact H|exact R|discriminate].
  (* lists of expressions *)
  - left. reflexivity.
  - intros ts c _ H. right. exact H.
  - intros id rest Hr. apply b_optno. apply (rej_hin 1 _ FO); [reflexivity|exact Hr].
  - intros ts c _ (H1 & H2) id rest Hr. eapply b_opt. apply H2. eapply hin_sub; [|exact Hr]. reflexivity.
  - intros id rest Hr. apply b_listno. apply lend_no; [reflexivity|exact Hr].
  - intros ts c r n rc _ (H1 & H2) _ (R1 & R2) id rest Hr. rewrite Nat2Z.inj_succ. eapply b_list; [apply H2; apply R1; exact Hr|apply R2; exact Hr].
  - split; [exact lend_expr|]. intros rest Hr. apply b_end. apply lend_stop; [reflexivity|discriminate|exact Hr].
  - intros t ts c r n rc Ht _ (H1 & H2) _ (R1 & R2). split; [intros rest _; hd|]. intros rest Hr. rewrite Nat2Z.inj_succ. eapply b_more; [|apply R2; exact Hr].
    apply b_and. toks. eapply b_last; [discriminate|]. apply H2. apply R1. exact Hr.
  - intros id rest Hr. apply b_listno. apply lend_no; [reflexivity|exact Hr].
  - intros ks kc t vs vc r n rc _ (K1 & K2) Ht _ (V1 & V2) _ (R1 & R2) id rest Hr. rewrite Nat2Z.inj_succ. eapply b_list; [|apply R2; exact Hr].
    apply b_and. eapply b_cons; [discriminate|apply K2; hd|]. toks. eapply b_last; [discriminate|]. apply V2. apply R1. exact Hr.
  - split; [exact lend_expr|]. intros rest Hr. apply b_end. apply lend_stop; [reflexivity|discriminate|exact Hr].
  - intros t ks kc t1 vs vc r n rc Ht _ (K1 & K2) Ht1 _ (V1 & V2) _ (R1 & R2). split; [intros rest _; hd|]. intros rest Hr. rewrite Nat2Z.inj_succ. eapply b_more; [|apply R2; exact Hr].
    apply b_and. toks. eapply b_last; [discriminate|]. apply b_and. eapply b_cons; [discriminate|apply K2; hd|]. toks. eapply b_last; [discriminate|]. apply V2. apply R1. exact Hr.
  (* bodies *)
  - intros t b c t2 Ht _ Hb Ht2. split; [exists t, b, t2; auto|]. intro rest. destruct (Hb 8%nat ([t2] ++ rest) ltac:(hd)) as (n & Hb').
    eapply m_named. apply m_and_. apply m_tok; [exact Ht|]. apply (m_cons L (g_code 8) [GTok 125] b [t2] rest n [code b] []); [discriminate|exact Hb'|]. eapply m_last; [discriminate|]. apply m_tok1. exact Ht2.
  - intros rest Hr. apply m_end. apply (rej_hin 1 _ (F1 ++ [Some ELSE])); [reflexivity|exact Hr].
  - intros t c cc b bs bc r br Ht _ (H1 & H2) _ ((t1 & r1 & t2 & Eb & Hb1 & Hb2) & IHb) _ R rest Hr. cbn [length]. rewrite Nat2Z.inj_succ.
    apply (m_more L g_elif (t :: c ++ b) r rest 3 (Z.of_nat (length br)) [VCode c; code bs]); [|apply R; exact Hr].
    apply (m_and_ L [GTok ELIF; GAct gexpr k__code; gifbody]). apply m_tok; [exact Ht|]. rewrite <- (headok_code c H1).
    apply (m_cons L (GAct gexpr k__code) [gifbody] c b _ (-1) [code c] [code bs]); [discriminate|eapply m_code; apply H2; subst b; hd|]. eapply m_last; [discriminate|]. apply IHb.
  - split; [left; reflexivity|]. split; [intros rest Hr; apply hin_app; exact Hr|]. exists 0, []. split; [left; auto|]. intros rest Hr. apply m_optno. apply (rej_hin 1 _ F1); [reflexivity|exact Hr].
  - intros t b bs bc Ht _ ((t1 & r1 & t2 & Eb & Hb1 & Hb2) & IHb). split; [right; exists (t :: t1 :: r1), t2; subst b; auto|]. split; [intros rest _; hd|].
    exists 1, [code bs]. split; [right; reflexivity|]. intros rest Hr. eapply m_opt. apply (m_and_ L [GTok ELSE; gifbody]). apply m_tok; [exact Ht|]. eapply m_last; [discriminate|]. apply IHb.
  - split; [intros rest Hr; eapply hin_sub; [|exact Hr]; reflexivity|]. intros rest Hr. apply m_end. apply (rej_hin 1 _ [Some DEFAULT; Some RBRACE]); [reflexivity|exact Hr].
  - intros t c cc t1 b bc r br Ht _ (H1 & H2) Ht1 _ Hb _ (R1 & R2). split; [intros rest _; hd|]. intros rest Hr. cbn [length]. rewrite Nat2Z.inj_succ. destruct (Hb 9%nat (r ++ rest) (R1 rest Hr)) as (n & Hb').
    apply (m_more L g_case (t :: c ++ t1 :: b) r rest 5 (Z.of_nat (length br)) [VCode c; code b]); [|apply R2; exact Hr].
    apply (m_and_ L [GTok CASE; GNil; GAct gexpr k__code; GTok 58; g_code 9]). apply m_tok; [exact Ht|]. apply m_bang. rewrite <- (headok_code c H1).
    apply (m_cons L (GAct gexpr k__code) [GTok 58; g_code 9] c (t1 :: b) _ (-1) [code c] [code b]); [discriminate|eapply m_code; apply H2; hd|]. apply m_tok; [exact Ht1|]. eapply m_last; [discriminate|exact Hb'].
  - split; [intros rest Hr; eapply hin_sub; [|exact Hr]; reflexivity|]. exists 0, []. split; [left; auto|]. intros rest Hr. apply m_optno. apply (rej_hin 1 _ [Some RBRACE]); [reflexivity|exact Hr].
  - intros t t1 b bc Ht Ht1 _ Hb. split; [intros rest _; hd|]. exists 1, [code b]. split; [right; reflexivity|]. intros rest Hr. destruct (Hb 11%nat rest ltac:(eapply hin_sub; [|exact Hr]; reflexivity)) as (n & Hb').
    eapply m_opt. apply (m_and_ L [GTok DEFAULT; GNil; GTok 58; g_code 11]). apply m_tok; [exact Ht|]. apply m_bang. apply m_tok; [exact Ht1|]. eapply m_last; [discriminate|exact Hb'].
  (* headers of for *)
  - intros rest Hr. apply m_listno. apply P_Act_no; [apply not_no; [exact Hr|discriminate]|cbn; tauto].
  - intros s c r hs _ (S1 & S2 & S3) (P1 & P2) _ (R1 & R2) rest Hr. cbn [length map]. rewrite Nat2Z.inj_succ.
    apply (m_list L 31 _ (GTok 59) true s r rest 2 (Z.of_nat (length hs)) [code s]); [|apply R2; exact Hr]. destruct s as [|t s]; [congruence|].
    eapply m_code. eapply not_ok; [intro K; apply P1; cbn; rewrite K; reflexivity|discriminate|]. apply S3; [exact P2|]. apply R1. exact Hr.
  - split; [intros rest Hr; eapply hin_sub; [|exact Hr]; reflexivity|]. intros rest Hr. apply m_end. apply (rej_hin 1 _ [Some LBRACE]); [reflexivity|exact Hr].
  - intros t s c r hs Ht _ (S1 & S2 & S3) (P1 & P2) _ (R1 & R2). split; [intros rest _; hd|]. intros rest Hr. cbn [length map]. rewrite Nat2Z.inj_succ.
    eapply (m_more L _ (t :: s) r rest _ (Z.of_nat (length hs)) [code s]); [|apply R2; exact Hr]. destruct s as [|t' s]; [congruence|].
    apply m_and_. apply m_tok; [exact Ht|]. eapply m_last; [discriminate|]. eapply m_code. eapply not_ok; [intro K; apply P1; cbn; rewrite K; reflexivity|discriminate|]. apply S3; [exact P2|]. apply R1. exact Hr.
  (* functions and classes *)
  - intros t ns names ds d t1 t2 b bc t3 Ht Hns Hds Ht1 Ht2 _ Hb Ht3 rest. destruct (Hb 15%nat ([t3] ++ rest) ltac:(hd)) as (n & Hb').
    assert (N : B (GList 13 (GAct (GTok IDENT) k_name) (GTok 44) true) ns ((ds ++ t1 :: t2 :: b ++ [t3]) ++ rest) (Z.of_nat (length names)) (put_names names)).
    { assert (X : hin [Some ELLIPSIS; Some RPAREN] ((ds ++ t1 :: t2 :: b ++ [t3]) ++ rest)) by (destruct Hds as [|td Hd]; hd).
      destruct Hns as [|ns names Hns]; [apply b_listno|apply names_ok; [exact Hns|]]; apply (rej_hin 1 _ [Some ELLIPSIS; Some RPAREN]); try exact X; reflexivity. }
    eapply b_ext; [eapply b_named; apply b_and; apply b_tok; [exact Ht|]; eapply b_cons; [discriminate|apply b_arityact; exact N|];
      eapply b_cons; [discriminate|apply b_arityact; apply b_opttok; [exact Hds|eapply (rej_tok 0); [exact Ht1|reflexivity]]|]; apply b_tok; [exact Ht1|]; apply mute_in; [exact Ht2|];
      eapply e_cons; [discriminate|exact Hb'|]; eapply e_last0; apply m_tok1; exact Ht3|semeq].
  - intros t Ht rest. eapply b_named. alt 1%nat. apply b_acttok; [exact Ht|apply a_ref].
  - intros t1 t t2 Ht1 Ht Ht2 rest. eapply b_ext; [eapply b_named; alt 0%nat; apply b_and; toks; change [t; t2] with ([t] ++ [t2]); eapply b_cons; [discriminate|apply b_acttok; [exact Ht|apply a_ref]|];
      eapply b_last; [discriminate|apply b_tok1; exact Ht2]|semeq].
  - intros rest Hr. eapply b_ext; [eapply b_named; apply (b_arityact L _ _ _ 0%nat); apply b_optno; apply (rej_hin 1 _ F1); [reflexivity|exact Hr]|semeq].
  - intros t es n ec t2 Ht _ He Ht2 rest Hr. eapply b_ext; [eapply b_named; apply (b_arityact L _ _ _ 1%nat); eapply b_opt; apply b_and; toks; eapply b_cons; [discriminate|apply b_arityact; apply He; left; hd|];
      eapply b_last; [discriminate|apply b_tok1; exact Ht2]|semeq].
  - split; [intros rest Hr; eapply hin_sub; [|exact Hr]; reflexivity|]. intros rest Hr. apply b_end. apply (rej_hin 1 _ [Some RBRACE]); [reflexivity|exact Hr].
  - intros t tn fb fc sc k r n rc Ht Htn _ Hf Hsc _ (R1 & R2). split; [intros rest _; hd|]. intros rest Hr. rewrite Nat2Z.inj_succ. eapply b_more; [|apply R2; exact Hr].
    change (t :: tn :: fb ++ sc) with (t :: [tn] ++ fb ++ sc). eapply b_ext; [eapply b_named; apply b_and; toks; eapply b_cons; [discriminate|apply b_acttok; [exact Htn|apply b_name]|];
      eapply b_cons; [discriminate|apply Hf|]; eapply b_last; [discriminate|]; apply b_act; [apply b_opttok; [exact Hsc|]|apply a_mfn]|semeq].
    apply (rej_hin 1 _ [Some RBRACE; Some FN]); [reflexivity|apply R1; exact Hr].
  (* statements *)
  - intros t t1 ts c Ht Ht1 _ (H1 & H2). assert (X : forall rest, hin FS rest -> B gs (t :: t1 :: ts) rest (-1) (c >> (fun _ _ p => blame (t :: t1 :: ts) (raise (Assign p (tlit t)))))).
    { intros rest Hr. eapply (s_name L 0); [reflexivity|lia|exact Ht|reflexivity|]. apply b_act; [|apply a_assign]. apply b_and. toks. eapply b_last; [discriminate|]. apply H2. eapply hin_sub; [|exact Hr]. reflexivity. }
    split; [discriminate|]. split; [intros rest Hr; apply X; eapply hin_sub; [|exact Hr]; reflexivity|intros _; exact X].
  - intros t t1 ns names t2 ts c Ht Ht1 Hns Ht2 _ (H1 & H2).
    assert (X : forall rest, hin FS rest -> B gs (t :: t1 :: ns ++ t2 :: ts) rest (-1) (puts (VStr (tlit t)) >> put_names names >> count (length names) >> c >> (fun _ _ p => blame ts (raise (MultiAssign p))))).
    { intros rest Hr. eapply (s_name L 1); [reflexivity|lia|exact Ht|cbn [app hdk]; rewrite Ht1; reflexivity|]. change (t :: t1 :: ns ++ t2 :: ts) with ([t; t1] ++ ns ++ t2 :: ts).
      eapply b_ext; [apply b_and; eapply b_cons; [discriminate|apply b_act; [apply b_and; toks; apply b_nil|apply b_name]|]; eapply b_cons; [discriminate|apply b_arityact; apply names_ok; [exact Hns|eapply (rej_tok 0); [exact Ht2|reflexivity]]|];
        toks; eapply b_last; [discriminate|]; apply b_act; [apply H2; eapply hin_sub; [|exact Hr]; reflexivity|apply a_massign]|semeq]. }
    split; [discriminate|]. split; [intros rest Hr; apply X; eapply hin_sub; [|exact Hr]; reflexivity|intros _; exact X].
  - intros t t1 f Ht Hf. assert (X : forall rest, B gs [t; t1] rest (-1) (fun _ _ p => blame [t; t1] (raise (IncDec f p (tlit t))))).
    { intro rest. destruct (a_incdec L t t1 f 2 Hf) as (m & Hm & A). destruct Hm as [E|[E|[]]]; injection E as Ek <-; symmetry in Ek;
        [eapply (s_name L 2); [reflexivity|lia|exact Ht|cbn [app hdk]; rewrite Ek; reflexivity|]|eapply (s_name L 3); [reflexivity|lia|exact Ht|cbn [app hdk]; rewrite Ek; reflexivity|]];
        (eapply b_ext; [apply b_act; [apply b_and; toks; apply b_nil|exact A]|semeq]). }
    split; [discriminate|]. split; [intros rest Hr; apply X|intros _ rest Hr; apply X].
  - intros t t1 f ts c Ht Hf _ (H1 & H2). assert (X : forall rest, hin FS rest -> B gs (t :: t1 :: ts) rest (-1) (c >> (fun _ _ p => blame (t :: t1 :: ts) (raise (OpAssign f p (tlit t)))))).
    { intros rest Hr. assert (Hr' : hin FE rest) by (eapply hin_sub; [|exact Hr]; reflexivity). unfold assign_ops in Hf. cbn [In] in Hf.
      destruct Hf as [E|[E|[E|[E|[E|[]]]]]]; injection E as Ek <-; symmetry in Ek;
        first [solve [eapply (s_name L 4); [reflexivity|lia|exact Ht|cbn [app hdk]; rewrite Ek; reflexivity|]; apply b_act; [apply b_and; toks; eapply b_last; [discriminate|]; apply H2; exact Hr'|]; apply (b_ipt_stre L _ t (t1 :: ts) _ (OpAssign _)); [reflexivity|reflexivity|reflexivity|intros; apply tq_OpAssign]]
        |solve [eapply (s_name L 5); [reflexivity|lia|exact Ht|cbn [app hdk]; rewrite Ek; reflexivity|]; apply b_act; [apply b_and; toks; eapply b_last; [discriminate|]; apply H2; exact Hr'|]; apply (b_ipt_stre L _ t (t1 :: ts) _ (OpAssign _)); [reflexivity|reflexivity|reflexivity|intros; apply tq_OpAssign]]
        |solve [eapply (s_name L 6); [reflexivity|lia|exact Ht|cbn [app hdk]; rewrite Ek; reflexivity|]; apply b_act; [apply b_and; toks; eapply b_last; [discriminate|]; apply H2; exact Hr'|]; apply (b_ipt_stre L _ t (t1 :: ts) _ (OpAssign _)); [reflexivity|reflexivity|reflexivity|intros; apply tq_OpAssign]]
        |solve [eapply (s_name L 7); [reflexivity|lia|exact Ht|cbn [app hdk]; rewrite Ek; reflexivity|]; apply b_act; [apply b_and; toks; eapply b_last; [discriminate|]; apply H2; exact Hr'|]; apply (b_ipt_stre L _ t (t1 :: ts) _ (OpAssign _)); [reflexivity|reflexivity|reflexivity|intros; apply tq_OpAssign]]
        |solve [eapply (s_name L 8); [reflexivity|lia|exact Ht|cbn [app hdk]; rewrite Ek; reflexivity|]; apply b_act; [apply b_and; toks; eapply b_last; [discriminate|]; apply H2; exact Hr'|]; apply (b_ipt_stre L _ t (t1 :: ts) _ (OpAssign _)); [reflexivity|reflexivity|reflexivity|intros; apply tq_OpAssign]]]. }
    split; [discriminate|]. split; [intros rest Hr; apply X; eapply hin_sub; [|exact Hr]; reflexivity|intros _; exact X].
  - intros t ts n c Ht _ H. split; [discriminate|]. split; [|intro K; exfalso; apply K; cbn; rewrite Ht; reflexivity]. intros rest Hr.
    eapply b_ext; [eapply (s_kind L 9); [reflexivity|exact Ht|reflexivity|]; apply b_and; toks; eapply b_last; [discriminate|]; apply b_act; [apply b_arityact; apply H; apply hin_app; exact Hr|apply a_return]|semeq].
  - intros t ts c Ht _ (H1 & H2). assert (X : forall rest, hin FS rest -> B gs (t :: ts) rest (-1) (puts (VCode ts) >> (fun _ _ p => blame ts (Defer p)))).
    { intros rest Hr. eapply b_ext; [eapply (s_kind L 10); [reflexivity|exact Ht|reflexivity|]; apply b_and; apply mute_in; [exact Ht|]; apply e_bang; eapply e_last; [eapply m_code; apply H2; eapply hin_sub; [|exact Hr]; reflexivity|apply a_defer]|].
      rewrite headok_code by exact H1. semeq. }
    split; [discriminate|]. split; [intros rest Hr; apply X; eapply hin_sub; [|exact Hr]; reflexivity|intros _; exact X].
  - intros ts c _ (H1 & H2). assert (X : forall rest, hin FS rest -> B gs ts rest (-1) c).
    { intros rest Hr. eapply s_expr; [exact H1|exact Hr|]. apply H2. eapply hin_sub; [|exact Hr]. reflexivity. }
    split; [apply headok_ne; exact H1|]. split; [intros rest Hr; apply X; eapply hin_sub; [|exact Hr]; reflexivity|intros _; exact X].
  (* documents *)
  - split; [intros rest Hr; apply hin_app; exact Hr|]. intros rest Hr. exists 0. apply b_end. apply (rej_hin 1 _ FD); [reflexivity|exact Hr].
  - intros t s c r rc Ht _ (S1 & S2 & S3) _ (R1 & R2). split; [intros rest _; hd|]. intros rest Hr. destruct (R2 rest Hr) as (n & R). exists (n + 1). eapply b_more; [|exact R].
    alt 0%nat. apply b_and. change (t :: s) with ([t] ++ s). eapply b_cons; [discriminate|apply b_acttok; [exact Ht|apply a_clear]|]. eapply b_last; [discriminate|]. apply S2. apply R1. exact Hr.
  - intros t r rc Ht Hs _ (R1 & R2). split; [intros rest _; hd|]. intros rest Hr. destruct (R2 rest Hr) as (n & R). exists (n + 1). apply (b_more L _ [t] r rest 2 n _ rc); [|exact R].
    assert (N : peg env gs (r ++ rest) OFail []).
    { destruct r as [|t' r]; [apply (rej_hin 1 _ FD); [reflexivity|exact Hr]|]. destruct Hs as [Hs|Hs]; cbn in Hs; [discriminate Hs|]. injection Hs as Hs. apply (rej_tok 1 _ _ _ _ Hs). reflexivity. }
    exists ([EvAct k_clear [t] (-1)] ++ [EvAct k_pushn [t] (-1)]). split; [|apply both_app; [apply a_clear|apply b_pushn]].
    apply (P_Or env [GAnd [GAct (GTok 59) k_clear; gs]; GAct (GTok 59) k_pushn] _ (OOk 1 (-1))). apply A_next.
    + apply (P_And env _ _ OFail). apply (S_ok env _ _ (GAct (GTok 59) k_clear) [gs] false _ 1 (-1) OFail [EvAct k_clear [t] (-1)] []); [discriminate| |].
      * apply (pr_act env (GTok 59) k_clear [t] (r ++ rest) (-1) []). apply pr_tok. exact Ht.
      * apply S_fail; [discriminate|exact N].
    + apply A_ok. apply (pr_act env (GTok 59) k_pushn [t] (r ++ rest) (-1) []). apply pr_tok. exact Ht.
  - intros s c r rc _ (S1 & S2 & S3) _ (R1 & R2) rest Hr. destruct (R2 rest Hr) as (n & R). eapply b_named. apply b_and. eapply b_cons; [discriminate|apply S2; apply R1; exact Hr|].
    eapply b_last; [discriminate|]. apply b_rep0. exact R.
  - intros id rest Hr. exists 0. eapply m_code. apply b_optno. apply (rej_hin 1 _ FD); [reflexivity|exact Hr].
  - intros ts c _ H id rest Hr. exists 1. eapply m_code. eapply b_opt. apply H. exact Hr.
Qed.
End Fwd.
