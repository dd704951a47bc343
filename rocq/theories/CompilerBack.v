(** Whatever the compiler's meta grammar accepts is the spelling of a syntax tree (C33), and the meta grammar
    terminates (C31). *)
From Coq Require Import String.
From Verif Require Import Base Token Utf8 Scanner Tokenize Grammar Matcher PegSpec MatchProofs MatchProofs2 MatchProofs3 Wf PegTools Compiler GramSyntax CompilerProofs.

(** ** Reading successful derivations *)
Section Inv.
Context {A T : Type}.
Variable env : bytes -> option (gr A T).
Notation pegs := (peg env).

Lemma tok_inv : forall k src n l tr, pegs (GTok k) src (OOk n l) tr -> k <> FLOAT -> exists t r, src = t :: r /\ n = 1%nat /\ tkind t = k.
Proof. intros k src n l tr H Hk. inversion H; subst. match goal with H : tok_ok _ _ |- _ => destruct H as [E|[_ E]]; [|congruence] end. eauto. Qed.
Lemma act_inv : forall g a src n l tr, pegs (GAct g a) src (OOk n l) tr -> exists tr', pegs g src (OOk n l) tr'.
Proof. intros g a src n l tr H. inversion H; subst; eauto. Qed.
Lemma var_inv : forall v g src n l tr, pegs (GVar v) src (OOk n l) tr -> env v = Some g -> exists l' tr', pegs g src (OOk n l') tr'.
Proof.
  intros v g src n l tr H E. inversion H; subst. match goal with H : env v = Some ?x |- _ => assert (x = g) by congruence; subst x end.
  destruct o as [m l'| |]; try discriminate. match goal with H : with_len _ _ = _ |- _ => cbn in H; injection H as -> _ end. eauto.
Qed.
Lemma or_inv : forall gs src n l tr, pegs (GOr gs) src (OOk n l) tr -> exists g l' tr', In g gs /\ pegs g src (OOk n l') tr'.
Proof.
  intros gs src n l tr H. inversion H; subst. match goal with H : peg_alt _ _ _ _ _ |- _ => rename H into Ha end.
  destruct o as [m l'| |]; try discriminate. match goal with H : with_len _ _ = _ |- _ => cbn in H; injection H as -> _ end. clear H.
  induction gs as [|g gs IH] in tr, Ha |- *; inversion Ha; subst.
  - exists g. eauto with datatypes.
  - destruct (IH _ ltac:(eassumption)) as (g' & l2' & tr2' & Hi & Hp). exists g'. eauto with datatypes.
Qed.
Lemma seq_inv : forall p src0 gs ff src n l tr, peg_seq env p src0 gs ff src (OOk n l) tr ->
  match gs with
  | [] => n = 0%nat
  | g :: gs' => g <> GNil -> exists n1 n2 l1 l2 tr1 tr2, n = (n1 + n2)%nat /\ pegs g src (OOk n1 l1) tr1 /\ peg_seq env p src0 gs' ff (skipn n1 src) (OOk n2 l2) tr2
  end.
Proof.
  intros p src0 gs ff src n l tr H. inversion H; subst; auto.
  - congruence.
  - intros _. destruct o as [m l'| |]; try discriminate. match goal with H : shift _ _ = _ |- _ => cbn in H; injection H as <- _ end.
    eexists _, _, _, _, _, _. eauto.
Qed.
Lemma and_inv : forall gs src n l tr, pegs (GAnd gs) src (OOk n l) tr -> exists p src0 l' tr', peg_seq env p src0 gs false src (OOk n l') tr'.
Proof.
  intros gs src n l tr H. inversion H; subst. destruct o as [m l'| |]; try discriminate.
  match goal with H : with_len _ _ = _ |- _ => cbn in H; injection H as -> _ end. eauto.
Qed.
Lemma and2_inv : forall g h src n l tr, pegs (GAnd [g; h]) src (OOk n l) tr -> g <> GNil -> h <> GNil ->
  exists n1 n2 l1 l2 tr1 tr2, n = (n1 + n2)%nat /\ pegs g src (OOk n1 l1) tr1 /\ pegs h (skipn n1 src) (OOk n2 l2) tr2.
Proof.
  intros g h src n l tr H Hg Hh. destruct (and_inv _ _ _ _ _ H) as (p & s0 & l' & tr' & H1). apply seq_inv in H1.
  destruct (H1 Hg) as (n1 & n2 & l1 & l2 & tr1 & tr2 & -> & P1 & H2). apply seq_inv in H2.
  destruct (H2 Hh) as (n3 & n4 & l3 & l4 & tr3 & tr4 & -> & P2 & H3). apply seq_inv in H3. subst n4. rewrite Nat.add_0_r.
  exists n1, n3. eauto 10.
Qed.
Lemma and3_inv : forall g h i src n l tr, pegs (GAnd [g; h; i]) src (OOk n l) tr -> g <> GNil -> h <> GNil -> i <> GNil ->
  exists n1 n2 n3 l1 l2 l3 tr1 tr2 tr3, n = (n1 + (n2 + n3))%nat /\ pegs g src (OOk n1 l1) tr1 /\ pegs h (skipn n1 src) (OOk n2 l2) tr2 /\
    pegs i (skipn n2 (skipn n1 src)) (OOk n3 l3) tr3.
Proof.
  intros g h i src n l tr H Hg Hh Hi. destruct (and_inv _ _ _ _ _ H) as (p & s0 & l' & tr' & H1). apply seq_inv in H1.
  destruct (H1 Hg) as (n1 & n2 & l1 & l2 & tr1 & tr2 & -> & P1 & H2). apply seq_inv in H2.
  destruct (H2 Hh) as (n3 & n4 & l3 & l4 & tr3 & tr4 & -> & P2 & H3). apply seq_inv in H3.
  destruct (H3 Hi) as (n5 & n6 & l5 & l6 & tr5 & tr6 & -> & P3 & H4). apply seq_inv in H4. subst n6. rewrite Nat.add_0_r.
  exists n1, n3, n5. eauto 12.
Qed.
Lemma rep_inv : forall g src c n tr, peg_rep env g src (inl (c, n)) tr ->
  (n = 0%nat /\ c = 0) \/ exists n1 n2 l tr1 tr2 c', n = (n1 + n2)%nat /\ pegs g src (OOk n1 l) tr1 /\ peg_rep env g (skipn n1 src) (inl (c', n2)) tr2.
Proof.
  intros g src c n tr H. remember (inl (c, n)) as o eqn:E. destruct H; try discriminate; injection E as <- <-; [left; auto|right].
  eexists _, _, _, _, _, _. eauto.
Qed.
Lemma rep0_inv : forall id g src n l tr, pegs (GRep0 id g) src (OOk n l) tr -> peg_rep env g src (inl (l, n)) tr.
Proof. intros id g src n l tr H. inversion H; subst. assumption. Qed.
Lemma rep1_inv : forall id g src n l tr, pegs (GRep1 id g) src (OOk n l) tr ->
  exists n1 n2 l1 tr1 tr2 c, n = (n1 + n2)%nat /\ pegs g src (OOk n1 l1) tr1 /\ peg_rep env g (skipn n1 src) (inl (c, n2)) tr2.
Proof.
  intros id g src n l tr H. inversion H; subst.
  - eexists _, _, _, _, _, _. eauto.
  - exfalso. match goal with H : ~ is_ok _ |- _ => apply H; exact I end.
Qed.
Lemma list_inv : forall id a b src n l tr, pegs (GList id a b false) src (OOk n l) tr ->
  exists n1 n2 l1 tr1 tr2 c, n = (n1 + n2)%nat /\ pegs a src (OOk n1 l1) tr1 /\ peg_rep env (GAnd [b; a]) (skipn n1 src) (inl (c, n2)) tr2.
Proof. intros id a b src n l tr H. inversion H; subst. eexists _, _, _, _, _, _. eauto. Qed.
End Inv.

Lemma firstn_sum : forall (X : Type) n m (l : list X), firstn (n + m) l = firstn n l ++ firstn m (skipn n l).
Proof. induction n as [|n IH]; intros m l; [reflexivity|]. destruct l as [|x l]; [rewrite skipn_nil, !firstn_nil; reflexivity|]. cbn. f_equal. apply IH. Qed.

(** ** Nonterminals *)
Notation pg := (peg meta_env).
Definition spells (n : nat) (src : list token) (l : list sig) : Prop := sigs (firstn n src) = l.
Lemma spells_sum : forall n m src a b, spells n src a -> spells m (skipn n src) b -> spells (n + m) src (a ++ b).
Proof. unfold spells, sigs. intros n m src a b <- <-. rewrite firstn_sum, map_app. reflexivity. Qed.
Lemma spells_0 : forall src, spells 0 src [].
Proof. reflexivity. Qed.
Lemma tok_spells : forall k src n l tr, pg (GTok k) src (OOk n l) tr -> k <> FLOAT -> has_lit k = false -> n = 1%nat /\ spells n src [op k].
Proof.
  intros k src n l tr H Hk Hl. apply tok_inv in H; [|exact Hk]. destruct H as (t & r & -> & -> & K). split; [reflexivity|].
  unfold spells, sigs, sig_of, op. cbn. rewrite K, Hl. reflexivity.
Qed.
Lemma lit_spells : forall k src n l tr, pg (GTok k) src (OOk n l) tr -> k <> FLOAT -> has_lit k = true -> n = 1%nat /\ exists x, spells n src [(k, x)].
Proof.
  intros k src n l tr H Hk Hl. apply tok_inv in H; [|exact Hk]. destruct H as (t & r & -> & -> & K). split; [reflexivity|].
  exists (tlit t). unfold spells, sigs, sig_of. cbn. rewrite K, Hl. reflexivity.
Qed.

Definition Bf (N : nat) : Prop := forall n src l tr, (n <= N)%nat -> pg m_factor src (OOk n l) tr -> exists f, ok_factor f = true /\ spells n src (r_factor f).

Section Step.
Variable N : nat.
Variable HB : Bf N.

Lemma suffix_back : forall n src l tr, (n <= N)%nat -> pg m_suffix src (OOk n l) tr -> exists s, ok_suffix s = true /\ spells n src (r_suffix s) /\ (1 <= n)%nat.
Proof.
  intros n src l tr Hn H. apply or_inv in H. destruct H as (g & l' & tr' & Hi & H). cbn in Hi. destruct Hi as [<- | [<- | [<- | []]]];
    apply and2_inv in H; try discriminate; destruct H as (n1 & n2 & l1 & l2 & tr1 & tr2 & -> & H1 & H2);
    apply tok_spells in H1; try discriminate; try reflexivity; destruct H1 as (-> & S1); apply act_inv in H2; destruct H2 as (tr3 & H2).
  - apply HB in H2; [|lia]. destruct H2 as (f & Ho & Sf). exists (SList f). split; [exact Ho|]. split; [|lia]. apply (spells_sum 1 n2 src [op REM] _ S1 Sf).
  - apply HB in H2; [|lia]. destruct H2 as (f & Ho & Sf). exists (SList0 f). split; [exact Ho|]. split; [|lia]. apply (spells_sum 1 n2 src [op REM_ASSIGN] _ S1 Sf).
  - apply lit_spells in H2; [|discriminate|reflexivity]. destruct H2 as (-> & x & Sx). exists (SMark x). split; [reflexivity|]. split; [|lia]. apply (spells_sum 1 1 src [op QUO] _ S1 Sx).
Qed.
Lemma suffixes_back : forall k n src c tr, (n <= k)%nat -> (n <= N)%nat -> peg_rep meta_env m_suffix src (inl (c, n)) tr ->
  exists ss, forallb ok_suffix ss = true /\ spells n src (flat_map r_suffix ss).
Proof.
  induction k as [|k IH]; intros n src c tr Hk Hn H; apply rep_inv in H; destruct H as [(-> & _)|(n1 & n2 & l & tr1 & tr2 & c' & -> & H1 & H2)];
    try (exists []; split; [reflexivity|apply spells_0]).
  - apply suffix_back in H1; [|lia]. destruct H1 as (s & _ & _ & H1). lia.
  - apply suffix_back in H1; [|lia]. destruct H1 as (s & Ho & Ss & L). apply IH in H2; [|lia|lia]. destruct H2 as (ss & Hs & Sss).
    exists (s :: ss). split; [cbn [forallb]; rewrite Ho, Hs; reflexivity|]. apply spells_sum; assumption.
Qed.
Lemma item_back : forall n src l tr, (n <= N)%nat -> pg m_item src (OOk n l) tr -> exists i, ok_item i = true /\ spells n src (r_item i).
Proof.
  intros n src l tr Hn H. apply or_inv in H. destruct H as (g & l' & tr' & Hi & H). cbn in Hi. destruct Hi as [<- | [<- | []]].
  - apply and2_inv in H; try discriminate. destruct H as (n1 & n2 & l1 & l2 & tr1 & tr2 & -> & H1 & H2). apply HB in H1; [|lia]. destruct H1 as (f & Ho & Sf).
    apply rep0_inv in H2. apply (suffixes_back n2) in H2; [|lia|lia]. destruct H2 as (ss & Hs & Sss). exists (ITerm f ss).
    split; [cbn [ok_item]; rewrite Ho, Hs; reflexivity|]. apply spells_sum; assumption.
  - apply act_inv in H. destruct H as (tr1 & H). apply tok_spells in H; [|discriminate|reflexivity]. exists IBang. split; [reflexivity|]. apply H.
Qed.
Lemma item_pos : forall i n src, spells n src (r_item i) -> (1 <= n)%nat.
Proof.
  intros i n src H. destruct n; [|lia]. unfold spells in H. cbn in H. pose proof (r_item_first i) as X. rewrite <- H in X. contradiction.
Qed.
Lemma items_back : forall k n src c tr, (n <= k)%nat -> (n <= N)%nat -> peg_rep meta_env m_item src (inl (c, n)) tr ->
  exists e, forallb ok_item e = true /\ spells n src (flat_map r_item e).
Proof.
  induction k as [|k IH]; intros n src c tr Hk Hn H; apply rep_inv in H; destruct H as [(-> & _)|(n1 & n2 & l & tr1 & tr2 & c' & -> & H1 & H2)];
    try (exists []; split; [reflexivity|apply spells_0]).
  - apply item_back in H1; [|lia]. destruct H1 as (i & _ & H1). apply item_pos in H1. lia.
  - apply item_back in H1; [|lia]. destruct H1 as (i & Ho & Si). pose proof (item_pos _ _ _ Si) as L. apply IH in H2; [|lia|lia]. destruct H2 as (e & He & Se).
    exists (i :: e). split; [cbn [forallb]; rewrite Ho, He; reflexivity|]. apply spells_sum; assumption.
Qed.
Lemma expr_back : forall n src l tr, (n <= N)%nat -> pg m_expr src (OOk n l) tr -> exists e, ok_expr e = true /\ spells n src (r_expr e).
Proof.
  intros n src l tr Hn H. apply act_inv in H. destruct H as (tr1 & H). apply rep1_inv in H. destruct H as (n1 & n2 & l1 & tr2 & tr3 & c & -> & H1 & H2).
  apply item_back in H1; [|lia]. destruct H1 as (i & Ho & Si). apply (items_back n2) in H2; [|lia|lia]. destruct H2 as (e & He & Se).
  exists (i :: e). split; [unfold ok_expr; cbn [nonempty forallb]; rewrite Ho, He; reflexivity|]. apply spells_sum; assumption.
Qed.
Lemma alts_back : forall k n src c tr, (n <= k)%nat -> (n <= N)%nat -> peg_rep meta_env (GAnd [GTok 124; m_expr]) src (inl (c, n)) tr ->
  exists g, forallb ok_expr g = true /\ spells n src (flat_map (fun x => op OR :: x) (map r_expr g)).
Proof.
  induction k as [|k IH]; intros n src c tr Hk Hn H; apply rep_inv in H; destruct H as [(-> & _)|(n1 & n2 & l & tr1 & tr2 & c' & -> & H1 & H2)];
    try (exists []; split; [reflexivity|apply spells_0]).
  - apply and2_inv in H1; try discriminate. destruct H1 as (n3 & n4 & l1 & l2 & tr3 & tr4 & -> & H1 & H3). apply tok_spells in H1; [|discriminate|reflexivity]. lia.
  - apply and2_inv in H1; try discriminate. destruct H1 as (n3 & n4 & l1 & l2 & tr3 & tr4 & -> & H1 & H3). apply tok_spells in H1; [|discriminate|reflexivity].
    destruct H1 as (-> & S1). apply expr_back in H3; [|lia]. destruct H3 as (e & Ho & Se). apply IH in H2; [|lia|lia]. destruct H2 as (g & Hg & Sg).
    exists (e :: g). split; [cbn [forallb]; rewrite Ho, Hg; reflexivity|]. cbn [map flat_map]. apply spells_sum; [|exact Sg]. apply (spells_sum 1 n4 src [op OR]); assumption.
Qed.
Lemma gram_back : forall n src l tr, (n <= N)%nat -> pg m_grammar src (OOk n l) tr -> exists g, ok_gram g = true /\ spells n src (r_gram g).
Proof.
  intros n src l tr Hn H. apply act_inv in H. destruct H as (tr1 & H). apply list_inv in H. destruct H as (n1 & n2 & l1 & tr2 & tr3 & c & -> & H1 & H2).
  apply expr_back in H1; [|lia]. destruct H1 as (e & Ho & Se). apply (alts_back n2) in H2; [|lia|lia]. destruct H2 as (g & Hg & Sg).
  exists (e :: g). split; [unfold ok_gram; cbn [nonempty forallb]; rewrite Ho, Hg; reflexivity|]. unfold r_gram. cbn [map]. rewrite joined_cons. apply spells_sum; assumption.
Qed.
End Step.

Lemma factor_back : forall N, Bf N.
Proof.
  induction N as [|N IH]; intros n src l tr Hn H; apply (var_inv meta_env v_factor m_factor_def) in H; try reflexivity; destruct H as (l' & tr' & H);
    apply or_inv in H; destruct H as (g & l2 & tr2 & Hi & H).
  - exfalso. cbn in Hi.
    repeat (destruct Hi as [<- | Hi]; [first
      [ apply act_inv in H; destruct H as (? & H); apply tok_inv in H; [|discriminate]; destruct H as (? & ? & _ & ? & _); lia
      | apply and2_inv in H; try discriminate; destruct H as (? & ? & ? & ? & ? & ? & ? & H & _); apply tok_inv in H; [|discriminate]; destruct H as (? & ? & _ & ? & _); lia
      | apply and3_inv in H; try discriminate; destruct H as (? & ? & ? & ? & ? & ? & ? & ? & ? & ? & H & _); apply tok_inv in H; [|discriminate]; destruct H as (? & ? & _ & ? & _); lia ]|]).
    contradiction.
  - assert (Pre : forall o, pg (GAnd [GTok (pre_kind o); GAct m_factor (pre_act o)]) src (OOk n l2) tr2 -> exists f, ok_factor f = true /\ spells n src (r_factor f)).
    { intros o H0. apply and2_inv in H0; try discriminate. destruct H0 as (n1 & n2 & l3 & l4 & tr3 & tr4 & -> & H1 & H2).
      apply tok_spells in H1; [|destruct o; discriminate|destruct o; reflexivity]. destruct H1 as (-> & S1).
      apply act_inv in H2. destruct H2 as (tr5 & H2). apply IH in H2; [|lia]. destruct H2 as (f & Ho & Sf). exists (FPre o f). split; [exact Ho|].
      apply (spells_sum 1 n2 src [op (pre_kind o)]); assumption. }
    cbn in Hi. destruct Hi as [<- | [<- | [<- | [<- | [<- | [<- | [<- | [<- | [<- | [<- | []]]]]]]]]]].
    + apply act_inv in H. destruct H as (tr3 & H). apply lit_spells in H; [|discriminate|reflexivity]. destruct H as (_ & x & Sx). exists (FIdent x). split; [reflexivity|exact Sx].
    + apply act_inv in H. destruct H as (tr3 & H). apply lit_spells in H; [|discriminate|reflexivity]. destruct H as (_ & x & Sx). exists (FChar x). split; [reflexivity|exact Sx].
    + apply act_inv in H. destruct H as (tr3 & H). apply lit_spells in H; [|discriminate|reflexivity]. destruct H as (_ & x & Sx). exists (FString x). split; [reflexivity|exact Sx].
    + apply act_inv in H. destruct H as (tr3 & H). apply lit_spells in H; [|discriminate|reflexivity]. destruct H as (_ & x & Sx). exists (FInt x). split; [reflexivity|exact Sx].
    + apply (Pre PStar). exact H.
    + apply (Pre PPlus). exact H.
    + apply (Pre POpt). exact H.
    + apply (Pre PNot). exact H.
    + apply (Pre PPeek). exact H.
    + apply and3_inv in H; try discriminate. destruct H as (n1 & n2 & n3 & l3 & l4 & l5 & tr3 & tr4 & tr5 & -> & H1 & H2 & H3).
      apply tok_spells in H1; [|discriminate|reflexivity]. destruct H1 as (-> & S1). apply tok_spells in H3; [|discriminate|reflexivity]. destruct H3 as (-> & S3).
      apply (gram_back N IH) in H2; [|lia]. destruct H2 as (g & Hg & Sg). exists (FParen g). split; [exact Hg|].
      apply (spells_sum 1 (n2 + 1) src [op LPAREN] _ S1). apply (spells_sum n2 1 _ _ [op RPAREN]); assumption.
Qed.

Lemma rule_back : forall n src l tr, pg m_rule src (OOk n l) tr -> exists r, ok_gram (snd r) = true /\ spells n src (r_rule r) /\ (1 <= n)%nat.
Proof.
  intros n src l tr H. apply act_inv in H. destruct H as (tr1 & H). apply and_inv in H. destruct H as (p & s0 & l' & tr' & H1). apply seq_inv in H1.
  destruct (H1 ltac:(discriminate)) as (n1 & n2 & l1 & l2 & tr3 & tr2 & -> & P1 & H2). apply seq_inv in H2.
  destruct (H2 ltac:(discriminate)) as (n3 & n4 & l3 & l4 & tr5 & tr4 & -> & P2 & H3). apply seq_inv in H3.
  destruct (H3 ltac:(discriminate)) as (n5 & n6 & l5 & l6 & tr7 & tr6 & -> & P3 & H4). apply seq_inv in H4.
  destruct (H4 ltac:(discriminate)) as (n7 & n8 & l7 & l8 & tr9 & tr8 & -> & P4 & H5). apply seq_inv in H5. subst n8.
  apply lit_spells in P1; [|discriminate|reflexivity]. destruct P1 as (-> & x & S1). apply tok_spells in P2; [|discriminate|reflexivity]. destruct P2 as (-> & S2).
  apply (gram_back n5 (factor_back n5)) in P3; [|lia]. destruct P3 as (g & Hg & S3). apply tok_spells in P4; [|discriminate|reflexivity]. destruct P4 as (-> & S4).
  exists (x, g). split; [exact Hg|]. split; [|lia]. unfold r_rule. cbn [fst snd].
  apply (spells_sum 1 (1 + (n5 + (1 + 0))) src [(IDENT, x)] _ S1). apply (spells_sum 1 (n5 + (1 + 0)) _ [op ASSIGN] _ S2).
  apply (spells_sum n5 1 _ _ [op SEMICOLON] S3 S4).
Qed.
Lemma rules_back : forall k n src c tr, (n <= k)%nat -> peg_rep meta_env m_rule src (inl (c, n)) tr ->
  exists rs, forallb (fun r => ok_gram (snd r)) rs = true /\ spells n src (r_doc rs).
Proof.
  induction k as [|k IH]; intros n src c tr Hk H; apply rep_inv in H; destruct H as [(-> & _)|(n1 & n2 & l & tr1 & tr2 & c' & -> & H1 & H2)];
    try (exists []; split; [reflexivity|apply spells_0]).
  - apply rule_back in H1. destruct H1 as (i & _ & _ & H1). lia.
  - apply rule_back in H1. destruct H1 as (r & Ho & Sr & L). apply IH in H2; [|lia]. destruct H2 as (rs & Hs & Ss).
    exists (r :: rs). split; [cbn [forallb]; rewrite Ho, Hs; reflexivity|]. apply spells_sum; assumption.
Qed.
Lemma doc_back : forall n src l tr, pg m_doc src (OOk n l) tr -> exists rs, ok_doc rs = true /\ spells n src (r_doc rs).
Proof.
  intros n src l tr H. apply rep1_inv in H. destruct H as (n1 & n2 & l1 & tr2 & tr3 & c & -> & H1 & H2).
  apply rule_back in H1. destruct H1 as (r & Ho & Sr & L). apply (rules_back n2) in H2; [|lia]. destruct H2 as (rs & Hs & Ss).
  exists (r :: rs). split; [unfold ok_doc; cbn [nonempty forallb]; rewrite Ho, Hs; reflexivity|]. apply spells_sum; assumption.
Qed.

(** ** Termination *)
Lemma meta_nul : nul_ok (fun _ => false) meta_env.
Proof. intros v g H. unfold meta_env in H. destruct (beq v v_factor); [|discriminate]. injection H as <-. vm_compute. discriminate. Qed.
Lemma meta_rank : rank_ok (fun _ => false) (fun _ => 0%nat) meta_env.
Proof. intros v g H. unfold meta_env in H. destruct (beq v v_factor); [|discriminate]. injection H as <-. vm_compute. reflexivity. Qed.
Lemma meta_total : forall src, total_at meta_env m_doc src.
Proof. apply (wf_total _ _ _ meta_nul meta_rank). vm_compute. reflexivity. Qed.
