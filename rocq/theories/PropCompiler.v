(** Properties C31-C36, C38 and C69: Compiler.Cl and CompileRet.EvalSub.
    Specification files: GramSyntax.v (abstract syntax and its token sequences), CompilerDen.v (sem_gram: what a
    rule's text denotes), CompilerTop.v (names, refs, legal_gram), CompilerMore.v (marks_doc, dangles). *)
From Coq Require Import String.
From Verif Require Import Base Token Utf8 Grammar PegSpec MatchProofs MatchProofs2 MatchProofs3 Wf MatchProofs4 MatchObs Utf8Proofs.
From Verif Require Import Scanner ScannerSpec ScannerProofs ScanRun ScanInit ScanObs Tokenize TokenizeProofs PropScan Matcher MatcherProofs PropMatcher.
From Verif Require Import PegTools Compiler GramSyntax CompilerProofs CompilerBack CompilerTop CompilerMore CompilerDen.

Section Compiles.
Context {A T PM M : Type}.
Notation G := (gr A T).
Notation D := (dst A T M).
Variable marker : G -> bytes -> M -> (G * M) + (PM * M).
Variables isL isD : Z -> bool.
Notation Tz := (Tokenize isL isD false true).

(** Cl's result: what it is from some number of steps on. *)
Definition compiles_to (tk : tokener) (old : sc) (m : M) (src : bytes) (r : clres A T PM M) : Prop :=
  r <> ClFuel /\ exists F, forall f, (F <= f)%nat -> Cl marker isL isD f tk old m src = r.
Lemma compiles_unique : forall tk old m src r r', compiles_to tk old m src r -> compiles_to tk old m src r' -> r = r'.
Proof. intros tk old m src r r' (_ & F & H) (_ & F' & H'). rewrite <- (H (Nat.max F F')), <- (H' (Nat.max F F')) by lia. reflexivity. Qed.
(** ... which any run that ends has. *)
Lemma compiles_run : forall tk old m src f r, Cl marker isL isD f tk old m src = r -> r <> ClFuel -> compiles_to tk old m src r.
Proof.
  intros tk old m src f r H Hr. split; [exact Hr|]. exists f. intros f' Hf. rewrite <- H, !cl_unfold.
  rewrite cl_unfold in H. destruct (Tz tk old src) as [ts eof| |]; try reflexivity.
  rewrite (gmatch_mono meta_env (lift (cclient marker)) f f' Hf); [reflexivity|]. intro E. rewrite E in H. congruence.
Qed.

(** [src] is a text of the rules [rs] *)
Definition text_of (tk : tokener) (old : sc) (src : bytes) (rs : list rule) : Prop :=
  ok_doc rs = true /\ exists ts eof, Tz tk old src = TzOk ts eof /\ sigs ts = r_doc rs.

(** ** C31 *)
Theorem C31_terminates : forall tk old m src, Forall byte src -> tk_ok tk -> exists r, compiles_to tk old m src r.
Proof.
  intros tk old m src Hb Hk.
  destruct (Tokenize_spec isL isD false true src Hb tk old Hk) as (n & ts & t & s' & _ & _ & _ & _ & [(_ & _ & E)|(es & e & _ & E)]).
  - destruct (meta_total (map (tk_scan tk) ts)) as (o & tr & P). destruct (proj1 (sim_all meta_env (cclient marker)) _ _ _ _ P) as (F & HF).
    assert (NF : gmatch meta_env (lift (cclient marker)) F m_doc (map (tk_scan tk) ts) (cst0 tk m) <> OutOfFuel).
    { specialize (HF F (Nat.le_refl _) (cst0 tk m)). intro Hx. rewrite Hx in HF. destruct HF as [(p & s1 & E1 & _)|HF]; [discriminate|].
      destruct o; [destruct HF as (s1 & E1 & _)|destruct HF as (k & e & s1 & E1 & _)|destruct HF as (p & s1 & E1 & _)]; discriminate. }
    exists (Cl marker isL isD F tk old m src). apply (compiles_run tk old m src F); [reflexivity|].
    rewrite cl_unfold, E. destruct (gmatch _ _ F m_doc _ _) as [k [e|] s1|p s1|]; try discriminate; try congruence.
    destruct (skipn k _); [|discriminate]. unfold cl_finish. destruct (find _ _); [|discriminate]. destruct (unassigned _); discriminate.
  - exists (ClTokErr e). apply (compiles_run tk old m src 0%nat); [|discriminate]. eapply cl_tokerr. exact E.
Qed.

(** ** C32 *)
(** the rules determine what Cl does ... *)
Theorem C32_compiles : forall tk old m src rs, text_of tk old src rs ->
  compiles_to tk old m src (match e_doc marker rs (d0 tk m) with inl (_, d) => cl_finish d | inr p => ClPanic (PUser p) end).
Proof.
  intros tk old m src rs (Ho & ts & eof & Ht & Hs). destruct (cl_doc marker isL isD tk old m src ts eof rs Ht Ho Hs) as (F & HF). split; [|eauto].
  destruct (e_doc marker rs (d0 tk m)) as [[y d]|p]; [|discriminate]. unfold cl_finish. destruct (find _ _); [|discriminate]. destruct (unassigned _); discriminate.
Qed.
(** ... and a text has at most one reading. *)
Theorem C32_one_reading : forall tk old src rs rs', text_of tk old src rs -> text_of tk old src rs' -> rs = rs'.
Proof.
  intros tk old src rs rs' (Ho & ts & eof & Ht & Hs) (Ho' & ts' & eof' & Ht' & Hs'). rewrite Ht in Ht'. injection Ht' as <- <-.
  unfold ok_doc in *. apply andb_true_iff in Ho, Ho'. apply doc_unique; [apply Ho|apply Ho'|congruence].
Qed.

(** ** C33 *)
Theorem C33_only_rules_compile : forall tk old m src root d, compiles_to tk old m src (ClOk root d) ->
  exists rs, text_of tk old src rs /\ e_doc marker rs (d0 tk m) = inl (tt, d) /\ find n_doc (d_grams d) = Some root.
Proof.
  intros tk old m src root d H. assert (Hc := H). destruct H as (_ & F & HF). pose proof (HF F (Nat.le_refl _)) as H.
  destruct (Tz tk old src) as [ts eof|ts e|] eqn:Et; [|rewrite cl_unfold, Et in H; discriminate|rewrite cl_unfold, Et in H; discriminate].
  assert (X : exists rs, ok_doc rs = true /\ sigs ts = r_doc rs).
  { destruct (meta_total ts) as (o & tr & P). destruct (proj1 (sim_all meta_env (cclient marker)) _ _ _ _ P) as (F' & HF').
    pose proof (HF (Nat.max F F') ltac:(lia)) as H1. specialize (HF' (Nat.max F F') ltac:(lia) (cst0 tk m)). rewrite cl_unfold, Et in H1.
    destruct HF' as [(p & s' & E & _)|HF']; [rewrite E in H1; discriminate|]. destruct o as [n l| |k].
    - destruct HF' as (s' & E & _). rewrite E in H1. destruct (skipn n ts) as [|t r] eqn:En; [|discriminate].
      destruct (doc_back n ts l tr P) as (rs & Ho & Hs). exists rs. split; [exact Ho|]. unfold spells in Hs. rewrite <- Hs. rewrite <- (firstn_skipn n ts) at 1. rewrite En, app_nil_r. reflexivity.
    - destruct HF' as (n & e & s' & E & _). rewrite E in H1. discriminate.
    - destruct HF' as (p & s' & E & _). rewrite E in H1. discriminate. }
  destruct X as (rs & Ho & Hs). assert (Hx : text_of tk old src rs) by (split; [exact Ho|]; exists ts, eof; auto). exists rs. split; [exact Hx|].
  pose proof (compiles_unique _ _ _ _ _ _ Hc (C32_compiles tk old m src rs Hx)) as E.
  destruct (e_doc marker rs (d0 tk m)) as [[[] d1]|p]; [|discriminate]. unfold cl_finish in E. destruct (find n_doc (d_grams d1)) as [r1|] eqn:Ef; [|discriminate].
  destruct (unassigned d1); [|discriminate]. injection E as -> ->. auto.
Qed.
(** what is no sequence of rules is reported, or something in it panicked before *)
Theorem C33_otherwise : forall tk old m src, Forall byte src -> tk_ok tk -> (forall rs, ~ text_of tk old src rs) ->
  exists r, compiles_to tk old m src r /\ ((exists e, r = ClTokErr e) \/ (exists e, r = ClMatchErr e) \/ (exists p, r = ClPanic p)).
Proof.
  intros tk old m src Hb Hk Hno.
  destruct (Tokenize_spec isL isD false true src Hb tk old Hk) as (n & ts & t & s' & _ & _ & _ & _ & [(_ & _ & E)|(es & e & _ & E)]).
  - destruct (cl_other marker isL isD tk old m src _ _ E) as (F & r & H & K).
    { intros rs Ho Hs. apply (Hno rs). split; [exact Ho|]. eauto. }
    exists r. split; [|right; exact K]. split; [|eauto]. destruct K as [(e & ->)|(p & ->)]; discriminate.
  - exists (ClTokErr e). split; [|eauto]. apply (compiles_run tk old m src 0%nat); [|discriminate]. eapply cl_tokerr. exact E.
Qed.

(** ** C32: what a rule denotes.  [w]: the grammar the Marker makes of a marked grammar. *)
Theorem C32_denotes : forall w, (forall g n m g' m', marker g n m = inl (g', m') -> erase g' = w n (erase g) /\ incl (named g') (named g)) ->
  forall tk old m src rs root d, text_of tk old src rs -> compiles_to tk old m src (ClOk root d) ->
  value d n_doc = Some root /\
  forall a r b, rs = a ++ r :: b -> ~ In (fst r) (names b) ->
    exists g, value d (fst r) = Some g /\ erase g = sem_gram (code_of (d_tk d)) (mem n_true (names a)) w (snd r) /\
      Forall (fun nh => find (fst nh) (d_grams d) = Some (snd nh)) (named g).
Proof.
  intros w Hw tk old m src rs root d Hx Hc. destruct (C33_only_rules_compile _ _ _ _ _ _ Hc) as (rs' & Hx' & E & Hd). rewrite <- (C32_one_reading _ _ _ _ _ Hx Hx') in E. clear Hx'.
  destruct (doc_value marker w Hw rs _ _ E (no_true_d0 tk m)) as (_ & _ & H). split; [unfold value; rewrite Hd; reflexivity|]. exact H.
Qed.

(** ** C34 *)
Theorem C34_no_dangling : (forall g n m g' m', marker g n m = inl (g', m') -> incl (gvars g') (gvars g)) ->
  forall tk old m src root d, compiles_to tk old m src (ClOk root d) ->
  forall (P U V : Type) (c : client A T P U V), (forall a ts l s p s', c_act c a ts l s = APanic p s' -> forall e, p <> PMatch e) ->
  forall name g, (name, g) = (n_doc, root) \/ In (name, g) (d_grams d) ->
  forall ts s, (forall n e s', returns (cenv d) c g ts s n (Some e) s' -> ~ dangles e) /\
               (forall e s', panics (cenv d) c g ts s (PMatch e) s' -> ~ dangles e).
Proof.
  intros Hm tk old m src root d Hc P U V c Hact name g Hg ts s. destruct (C33_only_rules_compile _ _ _ _ _ _ Hc) as (rs & Hx & E & Hd).
  destruct (keeps_doc marker Hm rs _ _ _ E (reg_d0 tk m)) as (R & _ & _).
  assert (Hu : unassigned d = []).
  { pose proof (compiles_unique _ _ _ _ _ _ Hc (C32_compiles tk old m src rs Hx)) as X. rewrite E in X. unfold cl_finish in X. rewrite Hd in X. destruct (unassigned d); [reflexivity|discriminate]. }
  destruct (cenv_closed d R Hu) as [C1 C2].
  assert (Cg : closed (cenv d) g) by (destruct Hg as [[= -> ->]|Hg]; [apply (C1 n_doc); apply find_in; exact Hd|apply (C1 name); exact Hg]).
  split.
  - intros n e s' (f & Hf). pose proof (fine_all (cenv d) c Hact C2 f g ts s Cg) as H. rewrite Hf in H. exact H.
  - intros e s' (f & Hf). pose proof (fine_all (cenv d) c Hact C2 f g ts s Cg) as H. rewrite Hf in H. exact H.
Qed.

(** ** C35 *)
Theorem C35_compiles_iff : (forall g n m, exists g' m', marker g n m = inl (g', m') /\ g' <> GNil) ->
  forall tk old m src rs, tk_ok tk -> text_of tk old src rs ->
  forallb (fun r => legal_gram (is_kw tk) (snd r)) rs = true -> forallb (fun r => negb (nil_gram (snd r))) rs = true ->
  ((exists root d, compiles_to tk old m src (ClOk root d)) <->
   NoDup (names rs) /\
   (exists a g b, rs = a ++ (n_doc, g) :: b /\ ~ In n_doc (flat_map (fun r => refs_gram (snd r)) (a ++ [(n_doc, g)]))) /\
   (forall n, In n (flat_map (fun r => refs_gram (snd r)) rs) -> In n (names rs))).
Proof.
  intros Hm tk old m src rs Hk Hx HL HN. pose proof (C32_compiles tk old m src rs Hx) as Hc.
  destruct (doc_step marker Hm (is_kw tk) rs [] (d0 tk m) (INV0 (is_kw tk) tk m eq_refl Hk) HL HN) as [(ND & d & E & HI)|(ND & p & E)]; cbn [app] in *; rewrite E in Hc.
  - pose proof (finish_ok (PM := PM) (is_kw tk) rs d HI) as FO.
    assert (X : (exists root d, compiles_to tk old m src (ClOk root d)) <-> exists root, cl_finish (PM := PM) d = ClOk root d).
    { split.
      - intros (root & d' & H). pose proof (compiles_unique _ _ _ _ _ _ Hc H) as Y. exists root. rewrite Y. unfold cl_finish in Y. destruct (find n_doc (d_grams d)); [|discriminate]. destruct (unassigned d); [|discriminate]. injection Y as <- <-. reflexivity.
      - intros (root & Y). rewrite Y in Hc. eauto. }
    rewrite X, FO, early_used. split.
    + intros (H1 & H2 & H3). split; [exact ND|]. split; [|exact H3]. apply early_doc; assumption.
    + intros (_ & H2 & H3). assert (Hi : In n_doc (names rs)) by (destruct H2 as (a & g & b & -> & _); unfold names; rewrite map_app; apply in_app_iff; right; left; reflexivity).
      split; [exact Hi|]. split; [|exact H3]. apply early_doc; assumption.
  - split.
    + intros (root & d & H). pose proof (compiles_unique _ _ _ _ _ _ Hc H). discriminate.
    + intros (H & _). contradiction.
Qed.
End Compiles.

(** ** C36: the calls of the Marker, in order, are those of the marks in the text *)
Theorem C36_marks_in_order : forall (A T PM M : Type) (marker : gr A T -> bytes -> M -> (gr A T * M) + (PM * M)) isL isD tk old m src rs root d,
  text_of isL isD tk old src rs -> compiles_to (logged marker) isL isD tk old (m, []) src (ClOk root d) ->
  map (fun call => snd (fst call)) (log d) = marks_doc rs.
Proof.
  intros A T PM M marker isL isD tk old m src rs root d Hx Hc. destruct (C33_only_rules_compile _ _ _ _ _ _ _ _ _ Hc) as (rs' & Hx' & E & Hd).
  rewrite <- (C32_one_reading _ _ _ _ _ _ _ Hx Hx') in E. destruct (logs_doc marker rs _ _ _ E) as (l & -> & <-). reflexivity.
Qed.
(** ... and a Marker sees the grammar its mark stands behind, and replaces it: the case of a Marker that wraps it. *)
Theorem C36_mark_wraps : forall (A T PM M : Type) (tag : bytes -> A) (note : bytes -> M -> M) isL isD tk old m src rs root d,
  text_of isL isD tk old src rs ->
  compiles_to (T := T) (PM := PM) (fun g n m => inl (GAct g (tag n), note n m)) isL isD tk old m src (ClOk root d) ->
  forall a r b, rs = a ++ r :: b -> ~ In (fst r) (names b) ->
  exists g, value d (fst r) = Some g /\ erase g = sem_gram (code_of (d_tk d)) (mem n_true (names a)) (fun n g => GAct g (tag n)) (snd r).
Proof.
  intros A T PM M tag note isL isD tk old m src rs root d Hx Hc a r b E Hi.
  assert (W : forall g n (m0 : M) g' m', @inl (gr A T * M) (PM * M) (GAct g (tag n), note n m0) = inl (g', m') -> erase g' = GAct (erase g) (tag n) /\ incl (named g') (named g)).
  { intros g n m0 g' m' H. injection H as <- _. split; [reflexivity|apply incl_refl]. }
  destruct (C32_denotes _ isL isD (fun n g => GAct g (tag n)) W tk old m src rs root d Hx Hc) as [_ H].
  destruct (H a r b E Hi) as (g & H1 & H2 & _). eauto.
Qed.

(** ** C69 EvalSub *)
Section C69.
Context {A T P U V M : Type}.
Variable d : dst A T M.
Variable c : client A T P U V.
Variables isL isD : Z -> bool.
Variables mC mS : bool.
Variable minit : st U -> st U.
(** a token slice: Init runs, and the rule must consume it all *)
Theorem C69_tokens_iff : forall name doc s s',
  (exists f, EvalSubTokens d c minit f name doc s = MNil s') <->
  exists g, find name (d_grams d) = Some g /\ returns (cenv d) c g doc (minit s) (length doc) None s'.
Proof.
  intros name doc s s'. unfold EvalSubTokens. split.
  - intros (f & H). destruct (find name (d_grams d)) as [g|]; [|discriminate]. exists g. split; [reflexivity|]. exists f.
    destruct (gmatch (cenv d) c f g doc (minit s)) as [n [e|] s1|p s1|]; try discriminate. destruct (length doc =? n)%nat eqn:E; [|discriminate]. apply Nat.eqb_eq in E. subst n. congruence.
  - intros (g & Eg & f & Hf). exists f. rewrite Eg, Hf, Nat.eqb_refl. reflexivity.
Qed.
(** it fails with the rule's own error, or, when the rule leaves tokens over, with the error that end of input was expected, about the whole slice *)
Theorem C69_tokens_fail_iff : forall name doc s e s',
  (exists f, EvalSubTokens d c minit f name doc s = MFail e s') <->
  exists g n, find name (d_grams d) = Some g /\
    (returns (cenv d) c g doc (minit s) n (Some e) s' \/
     (returns (cenv d) c g doc (minit s) n None s' /\ n <> length doc /\ e = MErr GEOF doc None 0)).
Proof.
  intros name doc s e s'. unfold EvalSubTokens. split.
  - intros (f & H). destruct (find name (d_grams d)) as [g|]; [|discriminate]. exists g.
    destruct (gmatch (cenv d) c f g doc (minit s)) as [n [e1|] s1|p s1|] eqn:E; try discriminate; exists n; (split; [reflexivity|]).
    + left. exists f. congruence.
    + right. destruct (Nat.eqb_spec (length doc) n) as [Y|Y]; [discriminate|]. injection H as <- <-. split; [exists f; exact E|]. split; [congruence|reflexivity].
  - intros (g & n & Eg & [(f & Hf)|((f & Hf) & Hn & ->)]); exists f; rewrite Eg, Hf; [reflexivity|]. destruct (Nat.eqb_spec (length doc) n); [congruence|reflexivity].
Qed.
(** a text: Init does not run, the text is tokenized and the rule must consume every token *)
Theorem C69_text_iff : forall tk old name text s s',
  (exists f, EvalSubText d c isL isD mC mS f tk old name text s = MNil s') <->
  exists g ts eof, find name (d_grams d) = Some g /\ g <> GNil /\ Tokenize isL isD mC mS tk old text = TzOk ts eof /\ returns (cenv d) c g ts s (length ts) None s'.
Proof.
  intros tk old name text s s'. unfold EvalSubText. split.
  - intros (f & H). destruct (find name (d_grams d)) as [g|] eqn:E; [|discriminate]. exists g.
    destruct (proj1 (C28_exactly_iff (cenv d) c isL isD mC mS (fun s => s) g tk old text s s') (ex_intro _ f H)) as (G & ts & eof & H1 & H2). eauto 7.
  - intros (g & ts & eof & -> & G & H1 & H2). apply C28_exactly_iff. eauto.
Qed.
(** only names of completed rules are found: a rule used before its definition is not *)
Theorem C69_unknown : forall tk old name x s, find name (d_grams d) = None ->
  (forall f, EvalSubTokens d c minit f name x s = MNoGrammar s) /\ (forall f text, EvalSubText d c isL isD mC mS f tk old name text s = MNoGrammar s).
Proof. intros tk old name x s H. unfold EvalSubTokens, EvalSubText. rewrite H. auto. Qed.
End C69.

(** ** C38 *)
Lemma never_eof : forall isL isD mC mS tk old src ts eof, Forall byte src -> tk_ok tk -> Tokenize isL isD mC mS tk old src = TzOk ts eof -> Forall (fun t => tkind t <> EOF) ts.
Proof.
  intros isL isD mC mS tk old src ts eof Hb Hk E. destruct (Tokenize_spec isL isD mC mS src Hb tk old Hk) as (n & ts0 & t & s' & _ & _ & HF & _ & [(_ & _ & E')|(es & e & _ & E')]); rewrite E in E'; [|discriminate].
  injection E' as -> ->. apply Forall_map. eapply Forall_impl; [|exact HF]. intros x Hx. destruct tk as [|k]; [exact Hx|]. cbn [tk_scan]. unfold KwScan.
  destruct (tkind x =? IDENT); [|exact Hx]. destruct (kw_find k (tlit x)) as [v|] eqn:Ev; [|exact Hx]. cbn [tkind]. apply (Hk _ v) in Ev. unfold USER_TOKEN_BEGIN, EOF in *. lia.
Qed.
Definition nomark (g : gr Empty_set Empty_set) (n : bytes) (m : unit) : (gr Empty_set Empty_set * unit) + (Empty_set * unit) := inl (g, m).
Definition cl (text : string) := Cl nomark no_runes no_runes 200 (AutoKw new_akw) PropScan.fresh tt (s2b text).
(** EOF in grammar text is a token that no text has: such a grammar matches nothing at all *)
Theorem C38_EOF_refuted : exists root d, cl "doc = INT EOF;" = ClOk root d /\
  forall isL isD mC mS tk old src (P U V : Type) (c : client Empty_set Empty_set P U V) s, Forall byte src -> tk_ok tk ->
  forall f s', MatchExactly (cenv d) c isL isD mC mS (fun s => s) f root tk old src s <> MNil s'.
Proof.
  do 2 eexists. split; [vm_compute; reflexivity|]. intros isL isD mC mS tk old src P U V c s Hb Hk f s' H.
  destruct (proj1 (C28_exactly_iff _ c isL isD mC mS (fun s => s) _ tk old src s s') (ex_intro _ f H)) as (_ & ts & eof & Et & (f' & Hf)).
  pose proof (never_eof _ _ _ _ _ _ _ _ _ Hb Hk Et) as HE. clear -Hf HE. destruct f' as [|f']; [discriminate|]. cbn [gmatch gstep] in Hf. destruct f' as [|f']; [discriminate|].
  cbn [and_loop gmatch gstep skipn] in Hf. destruct ts as [|t ts]; [discriminate|]. destruct (_ || _); [|discriminate]. cbn [Nat.add skipn] in Hf. destruct ts as [|t2 ts]; [discriminate|].
  inversion HE as [|? ? _ HE2]; subst. inversion HE2; subst. unfold EOF in *.
  replace (tkind t2 =? 1) with false in Hf by (symmetry; apply Z.eqb_neq; congruence).
  change (1 =? FLOAT) with false in Hf. rewrite andb_false_r in Hf. cbn in Hf. discriminate.
Qed.
(** names of operators are refused *)
Theorem C38_operator_names_refuted : cl "doc = INT ADD INT;" = ClPanic (PUser (CPIllegal (s2b "ADD"))).
Proof. vm_compute. reflexivity. Qed.

(** ** Instances *)
Definition ex_ok : string := "term = '(' sum ')' | INT/n; sum = term/k % '+' ""if"" ?('-' ! @INT) ; doc = sum;".
Definition ex_rules : list rule :=
  [(s2b "term", [[ITerm (FChar (s2b "'('")) []; ITerm (FIdent (s2b "sum")) []; ITerm (FChar (s2b "')'")) []]; [ITerm (FIdent (s2b "INT")) [SMark (s2b "n")]]]);
   (s2b "sum", [[ITerm (FIdent (s2b "term")) [SMark (s2b "k"); SList (FChar (s2b "'+'"))]; ITerm (FString (s2b """if""")) [];
                 ITerm (FPre POpt (FParen [[ITerm (FChar (s2b "'-'")) []; IBang; ITerm (FPre PPeek (FIdent (s2b "INT"))) []]])) []]]);
   (s2b "doc", [[ITerm (FIdent (s2b "sum")) []]])].
Example ex_text : text_of no_runes no_runes (AutoKw new_akw) PropScan.fresh (s2b ex_ok) ex_rules.
Proof. split; [vm_compute; reflexivity|]. do 2 eexists. split; vm_compute; reflexivity. Qed.
Definition note (g : gr Empty_set Empty_set) (n : bytes) (m : list bytes) : (gr Empty_set Empty_set * list bytes) + (Empty_set * list bytes) := inl (g, m ++ [n]).
Notation ex_run := (Cl note no_runes no_runes 300 (AutoKw new_akw) PropScan.fresh [] (s2b ex_ok)).
(** the hypotheses of C32-C36 hold together for a text with every construct *)
Example C32_C36_instance : exists root d, compiles_to note no_runes no_runes (AutoKw new_akw) PropScan.fresh [] (s2b ex_ok) (ClOk root d) /\
  value d (s2b "sum") = Some (GAnd [GList 0 (GNamed (s2b "term") (GOr [GAnd [GTok 40; GVar (s2b "sum"); GTok 41]; GTok INT])) (GTok 43) false; GTok USER_TOKEN_BEGIN;
    GRep01 1 (GAnd [GTok 45; GNil; GPeek (GTok INT)])]) /\ d_m d = [s2b "n"; s2b "k"].
Proof.
  do 2 eexists. split; [apply (compiles_run _ _ _ _ _ _ _ 300%nat); [vm_compute; reflexivity|discriminate]|]. vm_compute. auto.
Qed.
Example C35_instance : forallb (fun r => legal_gram true (snd r)) ex_rules = true /\ forallb (fun r => negb (nil_gram (snd r))) ex_rules = true /\ NoDup (names ex_rules) /\
  (forall n, In n (flat_map (fun r => refs_gram (snd r)) ex_rules) -> In n (names ex_rules)).
Proof.
  split; [vm_compute; reflexivity|]. split; [vm_compute; reflexivity|]. split.
  - repeat constructor; cbn; intuition discriminate.
  - intros n H. vm_compute in H. vm_compute. intuition.
Qed.
(** the rules define doc once and every rule they use, all tokens are legal, and still Cl finds no doc *)
Theorem C35_naive_refuted : exists rs, text_of no_runes no_runes (AutoKw new_akw) PropScan.fresh (s2b "doc = '(' doc ')' | 1;") rs /\
  forallb (fun r => legal_gram true (snd r)) rs = true /\ NoDup (names rs) /\ In n_doc (names rs) /\
  (forall n, In n (flat_map (fun r => refs_gram (snd r)) rs) -> In n (names rs)) /\
  compiles_to nomark no_runes no_runes (AutoKw new_akw) PropScan.fresh tt (s2b "doc = '(' doc ')' | 1;") ClNoDoc.
Proof.
  exists [(s2b "doc", [[ITerm (FChar (s2b "'('")) []; ITerm (FIdent (s2b "doc")) []; ITerm (FChar (s2b "')'")) []]; [ITerm (FInt (s2b "1")) []]])].
  split; [split; [vm_compute; reflexivity|]; do 2 eexists; split; vm_compute; reflexivity|]. split; [vm_compute; reflexivity|]. split; [repeat constructor; intros []|].
  split; [left; reflexivity|]. split; [intros n H; vm_compute in H; vm_compute; intuition|]. apply (compiles_run _ _ _ _ _ _ _ 200%nat); [vm_compute; reflexivity|discriminate].
Qed.
(** what is not a grammar text *)
Example C33_instance : exists e, compiles_to nomark no_runes no_runes (AutoKw new_akw) PropScan.fresh tt (s2b "doc = ( | INT);") (ClMatchErr e).
Proof. eexists. apply (compiles_run _ _ _ _ _ _ _ 200%nat); [vm_compute; reflexivity|discriminate]. Qed.

Print Assumptions C31_terminates.
Print Assumptions C32_compiles.
Print Assumptions C32_one_reading.
Print Assumptions C33_only_rules_compile.
Print Assumptions C33_otherwise.
Print Assumptions C32_denotes.
Print Assumptions C34_no_dangling.
Print Assumptions C35_compiles_iff.
Print Assumptions C36_marks_in_order.
Print Assumptions C36_mark_wraps.
Print Assumptions C69_tokens_iff.
Print Assumptions C69_tokens_fail_iff.
Print Assumptions C69_text_iff.
Print Assumptions C69_unknown.
Print Assumptions C38_EOF_refuted.
Print Assumptions C38_operator_names_refuted.
Print Assumptions C35_naive_refuted.
