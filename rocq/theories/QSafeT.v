(** Proofs for Property C76: every text is safe, and so is the engine's evaluator. *)
From Coq Require Import String SpecFloat.
From Verif Require Import Base Token Scanner Tokenize Grammar Matcher PegSpec MatchProofs MatchProofs2 PegTools Compiler Interp QValue Qlang QlangSpec QlangTop QText QTidy QStep QGlue PegRel QParse QFwd QFwd2 QEval QSafe QSafeP QSafeE.
Local Open Scope Z_scope.

Section SafeT.
Context {W : Type}.
Variable L : qlib W.
Variable IW : W -> Prop.
Hypothesis HL : wf_lib L IW.
Notation St := (est nat value (@rest W)).
Notation Inv := (wf_state L IW).
Notation wfv := (wf_value L).
Notation wfp := (wf_panic L).
Notation Q := (@Q W).
Notation sem := (@sem W).
Notation safe := (@safe W L IW _).
Notation one := (@one W L).
Notation left_ := (@left_ W L).

Section Texts.
Variable ev : nat -> bytes -> value -> Q (option panicq).
Hypothesis Hev : safe_ev L IW ev.
Variable k : nat.
Definition many (n : nat) (st : list value) (_ : unit) (s : St) : Prop := exists vs, (Forall wfv vs /\ length vs = n) /\ at_ (rev vs ++ st) s.
Definition Sem (c : sem) : Prop := forall p st s0, safe p st s0 (c ev k p) (at_ st) (one st).
Definition SemN (n : nat) (c : sem) : Prop := forall p st s0, safe p st s0 (c ev k p) (at_ st) (many n st).
Definition Up (c : sem) : Prop := forall p st s0 v, wfv v -> safe p st s0 (c ev k p) (at_ (v :: st)) (one st).
Definition Fnb (c : sem) : Prop := forall p st s0, safe p st s0 (c ev k p) (at_ st)
  (fun _ s => exists ns d b, doc_or L b /\ at_ (code b :: VInt d :: VInt (Z.of_nat (length ns)) :: rev (map VStr ns) ++ st) s).
Definition Meths (n : nat) (c : sem) : Prop := forall p st s0, safe p st s0 (c ev k p) (at_ st) (fun _ s => exists vs, (Forall (method_ok L) vs /\ length vs = n) /\ at_ (rev vs ++ st) s).
Definition NewArgs (c : sem) : Prop := forall p st s0, safe p st s0 (c ev k p) (at_ st) (fun _ s => exists x, new_args L x st /\ at_ x s).
(** what follows the first statement of a document, and documents: above the base, only the values of [l] may go *)
Definition Cut (l st : list value) (_ : unit) (s : St) : Prop := exists v, wfv v /\ (at_ (v :: l ++ st) s \/ at_ (v :: st) s).
Definition Rest (c : sem) : Prop := forall p l st s0 v, wfv v -> fr_base (getf p s0) = length st -> safe p st s0 (c ev k p) (at_ (v :: l ++ st)) (Cut l st).
Definition Doc (c : sem) : Prop := forall p l st s0, fr_base (getf p s0) = length st -> safe p st s0 (c ev k p) (at_ (l ++ st)) (Cut l st).

Lemma sem_at : forall c p l st s0, Sem c -> safe p st s0 (c ev k p) (at_ (l ++ st)) (one (l ++ st)).
Proof. intros c p l st s0 H. apply (safe_up L IW p l). apply H. Qed.
Lemma semN_at : forall n c p l st s0, SemN n c -> safe p st s0 (c ev k p) (at_ (l ++ st)) (many n (l ++ st)).
Proof. intros n c p l st s0 H. apply (safe_up L IW p l). apply H. Qed.
Lemma safe_many : forall {A} n p st s0 l x (m : Q A) R, (forall vs, Forall wfv vs -> length vs = n -> safe p st s0 m (at_ (rev vs ++ l)) R) -> safe p st s0 m (many n l x) R.
Proof. intros A n p st s0 l x m R H. apply safe_ex. intro vs. apply safe_and. intros (H1 & H2). auto. Qed.
Lemma sem_seq : forall a b, Sem a -> Up b -> Sem (seq a b).
Proof. intros a b Ha Hb p st s0. unfold seq. eapply safe_bind; [apply Ha|]. intro. apply safe_one. intros v Hv. apply Hb, Hv. Qed.
Lemma up_seq : forall a b, Up a -> Up b -> Up (seq a b).
Proof. intros a b Ha Hb p st s0 v Hv. unfold seq. eapply safe_bind; [apply Ha, Hv|]. intro. apply safe_one. intros w Hw. apply Hb, Hw. Qed.
Lemma up_nop : Up nop.
Proof. intros p st s0 v Hv. apply safe_ret'. intros s H. exists v. auto. Qed.
Lemma up_bin : forall c ts m f, Sem c -> (forall a b, op_ok L (f a b)) -> Up (seq c (fun _ _ _ => blame ts (binary m f))).
Proof.
  intros c ts m f Hc Hf p st s0 v Hv. unfold seq. eapply safe_bind; [apply (sem_at c p [v] st s0 Hc)|]. intro. apply safe_one. intros w Hw. apply safe_blame, safe_binary, Hf.
Qed.
Lemma up_un : forall ts m f, (forall a, op_ok L (f a)) -> Up (fun _ _ _ => blame ts (unary m f)).
Proof. intros ts m f Hf p st s0 v Hv. apply safe_blame, safe_unary, Hf. Qed.
Lemma semN_nil : SemN 0 nop.
Proof. intros p st s0. apply safe_ret'. intros s H. exists []. split; [split; [constructor|reflexivity]|exact H]. Qed.
Lemma semN_one : forall c, Sem c -> SemN 1 c.
Proof. intros c H p st s0. eapply safe_conseq; [apply H|intros s X; exact X|]. intros x s (v & Hv & Hs). exists [v]. split; [split; [constructor; [exact Hv|constructor]|reflexivity]|exact Hs]. Qed.
Lemma semN_app : forall n m a b, SemN n a -> SemN m b -> SemN (n + m) (seq a b).
Proof.
  intros n m a b Ha Hb p st s0. unfold seq. eapply safe_bind; [apply Ha|]. intro. apply safe_many. intros vs Hv Hn. eapply safe_conseq; [apply (semN_at m b p (rev vs) st s0 Hb)|intros s X; exact X|].
  intros y s (ws & (Hw & Hm) & Hs). exists (vs ++ ws). split; [split; [apply Forall_app; auto|rewrite app_length; congruence]|]. rewrite rev_app_distr, <- app_assoc. exact Hs.
Qed.
Lemma put_names_safe : forall ns p st s0 l, safe p st s0 (put_names ns ev k p) (at_ l) (fun _ => at_ (rev (map VStr ns) ++ l)).
Proof.
  induction ns as [|n ns IH]; intros p st s0 l; cbn [put_names]; [apply safe_ret'; auto|]. unfold seq. eapply safe_bind; [apply safe_push|]. intro. cbn [map rev]. rewrite <- app_assoc. apply IH.
Qed.
Lemma body_or : forall b c, opt_doc L b c -> doc_or L b.
Proof. intros b c H. destruct H as [|b c H]; [left; reflexivity|right; eauto]. Qed.
Ltac put := eapply safe_bind; [apply safe_push|]; intro; cbn beta.
Ltac pushN n := apply (safe_push L IW).
Lemma safe_clear : forall p st s0 l, fr_base (getf p s0) = length st -> safe p st s0 (Clear p) (at_ (l ++ st)) (fun _ => at_ st).
Proof.
  intros p st s0 l Hb (C1 & C2) s Hg Hs. unfold Clear, bind, gets. destruct Hg as (G1 & G2). rewrite (proj2 G2 p C1) by discriminate. rewrite Hb.
  rewrite (SetFrame_over st s (at_over _ _ _ Hs)). split; [split; [exact G1|exact G2]|reflexivity].
Qed.
Lemma rest_cons : forall t c rc, Sem c -> Rest rc -> Rest (seq (seq (fun _ _ p => blame [t] (Clear p)) c) rc).
Proof.
  intros t c rc Hc Hr p l st s0 v Hv Hb. unfold seq. eapply (safe_bind L IW p st s0 _ _ _ (one st)).
  - eapply safe_bind; [apply safe_blame, (safe_clear p st s0 (v :: l) Hb)|]. intro. apply Hc.
  - intro. apply safe_one. intros w Hw. eapply safe_conseq; [exact (Hr p [] st s0 w Hw Hb)|intros s X; exact X|]. intros y s (u & Hu & [X|X]); exists u; auto.
Qed.

Lemma all_safe :
  (forall ts c, factor_is L ts c -> Sem c) /\ (forall ts c, base_is L ts c -> Sem c) /\ (forall ts c, atoms_are L ts c -> Up c) /\
  (forall ts c, ops1_are L ts c -> Up c) /\ (forall ts c, term1_is L ts c -> Sem c) /\
  (forall ts c, ops2_are L ts c -> Up c) /\ (forall ts c, term2_is L ts c -> Sem c) /\
  (forall ts c, ops3_are L ts c -> Up c) /\ (forall ts c, term3_is L ts c -> Sem c) /\
  (forall ts c, ops4_are L ts c -> Up c) /\ (forall ts c, term4_is L ts c -> Sem c) /\
  (forall ts c, ops5_are L ts c -> Up c) /\ (forall ts c, expr_is L ts c -> Sem c) /\
  (forall ts c, opt_expr L ts c -> ts = [] \/ exists c', expr_is L ts c') /\ (forall ts n c, opt_value L ts n c -> (n <= 1)%nat /\ SemN n c) /\ (forall ts n c, exprs_are L ts n c -> SemN n c) /\
  (forall ts n c, more_are L ts n c -> SemN n c) /\ (forall ts n c, entries_are L ts n c -> SemN (2 * n) c) /\ (forall ts n c, more_entries L ts n c -> SemN (2 * n) c) /\
  (forall ts bs c, body_is L ts bs c -> doc_or L bs) /\ (forall ts br, elifs_are L ts br -> Forall (branch_ok L) br) /\ (forall ts ec, else_is L ts ec -> doc_or L ec) /\
  (forall ts br, cases_are L ts br -> Forall (branch_ok L) br) /\ (forall ts ec, default_is L ts ec -> doc_or L ec) /\ (forall ts hs, header_is L ts hs -> Forall (fun h => exists c, stmt_is L h c) hs) /\
  (forall ts hs, more_header L ts hs -> Forall (fun h => exists c, stmt_is L h c) hs) /\ (forall ts c, fnbody_is L ts c -> Fnb c) /\ (forall ts c, clsname_is L ts c -> Sem c) /\
  (forall ts c, newargs_are L ts c -> NewArgs c) /\ (forall ts n c, methods_are L ts n c -> Meths n c) /\ (forall ts c, stmt_is L ts c -> Sem c) /\
  (forall ts c, rest_is L ts c -> Rest c) /\ (forall ts c, doc_is L ts c -> Doc c) /\ (forall ts c, opt_doc L ts c -> doc_or L ts).
Proof.
  apply text_mi.
  (* factor *)
  - intros t _ p st s0. apply safe_blame, safe_int_lit.
  - intros t _ p st s0. apply safe_blame, safe_float_lit.
  - intros t _ p st s0. apply safe_blame, safe_PushString.
  - intros t _ p st s0. apply safe_blame, safe_PushByte.
  - intros ts c ts' c' _ H _ H'. apply sem_seq; assumption.
  - intros t c cc b bs bc els ec _ Hc _ _ Hb elifs br _ Hel _ Hes p st s0. apply safe_blame, safe_if; auto. constructor; [|exact Hel]. split; [exists cc; exact Hc|exact Hb].
  - intros t x xc t1 cs br d dc t2 _ _ Hx _ _ _ Hc _ Hd _ p st s0. apply safe_blame, safe_switch; auto.
  - intros t hs header t1 b bc t2 _ _ Hh _ _ Hb _ p st s0. apply safe_blame, safe_for; auto.
  - intros t cn cc as_ ac _ _ Hc _ Ha p st s0. unfold seq. eapply safe_bind; [apply Hc|]. intro. apply safe_one. intros v Hv.
    eapply safe_bind; [apply (safe_up L IW p [v]); apply (Ha p (v :: st) s0)|]. intro. apply safe_ex. intro x'. apply safe_and. intro Hx. apply safe_blame, safe_raise. eapply safe_New; eassumption.
  - intros t t1 ms n mc t2 _ _ _ Hm _ p st s0. unfold seq. eapply safe_bind; [apply Hm|]. intro. apply safe_ex. intro vs. apply safe_and. intros (Hv & Hn). put. apply safe_blame. apply safe_Class; assumption.
  - intros t t1 t2 _ _ _ p st s0. apply safe_blame, safe_Recover.
  - intros t t1 b bc t2 _ _ Hbd _ _ p st s0. unfold seq. put. apply safe_blame. apply safe_Main; auto. exact (body_or _ _ Hbd).
  - intros t es n ec cm m t2 _ _ He _ _ p st s0. unfold seq. eapply safe_bind; [apply He|]. intro. apply safe_many. intros vs Hv Hn. put. apply safe_blame, safe_raise. apply safe_VMap; assumption.
  - intros t ts c _ _ Hc. apply sem_seq; [exact Hc|]. apply up_un, ok_Not.
  - intros t ts c _ _ Hc. apply sem_seq; [exact Hc|]. apply up_un, ok_Neg.
  - intros t ts c _ _ Hc. exact Hc.
  (* base *)
  - intros t _ p st s0. apply safe_blame, safe_Ref, HL.
  - intros t ts c t2 _ _ H _. exact H.
  - intros t ts c _ _ H p st s0. unfold seq. eapply safe_bind; [apply H|]. intro. apply safe_ex. intro ns. apply safe_ex. intro d. apply safe_ex. intro b. apply safe_and. intro Hb.
    apply safe_blame, safe_raise. apply safe_Function, Hb.
  - intros t es n ec cm m t2 _ _ He _ _ p st s0. unfold seq. eapply safe_bind; [apply He|]. intro. apply safe_many. intros vs Hv Hn. put. apply safe_blame, safe_raise. apply safe_VSliceLit; assumption.
  (* atoms *)
  - exact up_nop.
  - intros t es n ec ds d cm m t2 r rc _ _ He _ _ _ _ Hr. apply up_seq; [|exact Hr]. intros p st s0 v Hv. unfold seq. eapply safe_bind; [apply (semN_at n ec p [v] st s0 He)|]. intro. apply safe_many. intros vs Hvs Hn.
    put. put. apply safe_blame, safe_raise. apply safe_QVCall; assumption.
  - intros t t2 r rc _ _ _ Hr. apply up_seq; [|exact Hr]. intros p st s0 v Hv. apply safe_blame, safe_raise. apply safe_MemberRef; assumption.
  - intros t i ic t2 r rc _ _ Hi _ _ Hr. apply up_seq; [|exact Hr]. intros p st s0 v Hv. unfold seq. eapply safe_bind; [apply (sem_at ic p [v] st s0 Hi)|]. intro. apply safe_one. intros w Hw.
    put. put. put. apply safe_blame. apply (safe_Index L IW HL p st s0 v [w] [] 1 0 0); auto; constructor; auto; constructor.
  - intros t i n ic t1 j m jc t2 r rc _ _ (Ln & Hi) _ _ (Lm & Hj) _ _ Hr. apply up_seq; [|exact Hr]. intros p st s0 v Hv. unfold seq. eapply safe_bind; [apply (semN_at n ic p [v] st s0 Hi)|]. intro. apply safe_many. intros vs Hvs Hn.
    put. put. eapply safe_bind; [apply (safe_up L IW p (VInt (Z.of_nat 1) :: VInt (Z.of_nat n) :: rev vs ++ [v]))|]. { cbn [app]. rewrite <- app_assoc. apply Hj. }
    intro. apply safe_many. intros ws Hws Hm. put. apply safe_blame. apply (safe_Index L IW HL p st s0 v vs ws n m 1); auto.
  (* operators *)
  - exact up_nop.
  - intros t m f ts c r rc Hin _ Hc _ Hr. apply up_seq; [|exact Hr]. apply up_bin; [exact Hc|exact (ok_level1 L _ _ _ Hin)].
  - intros ts c r rc _ Hc _ Hr. apply sem_seq; assumption.
  - exact up_nop.
  - intros t m f ts c r rc Hin _ Hc _ Hr. apply up_seq; [|exact Hr]. apply up_bin; [exact Hc|exact (ok_level2 L _ _ _ Hin)].
  - intros ts c r rc _ Hc _ Hr. apply sem_seq; assumption.
  - exact up_nop.
  - intros t m f ts c r rc Hin _ Hc _ Hr. apply up_seq; [|exact Hr]. apply up_bin; [exact Hc|exact (ok_level3 L _ _ _ Hin)].
  - intros ts c r rc _ Hc _ Hr. apply sem_seq; assumption.
  - exact up_nop.
  - intros t ts c r rc _ Hd Hc _ Hr. apply up_seq; [|exact Hr]. intros p st s0 v Hv. apply safe_blame. eapply safe_lazy; [exact Hev|reflexivity|apply t_term3, Hd].
  - intros ts c r rc _ Hc _ Hr. apply sem_seq; assumption.
  - exact up_nop.
  - intros t ts c r rc _ Hd Hc _ Hr. apply up_seq; [|exact Hr]. intros p st s0 v Hv. apply safe_blame. eapply safe_lazy; [exact Hev|reflexivity|apply t_term4, Hd].
  - intros ts c r rc _ Hc _ Hr. apply sem_seq; assumption.
  (* optional and repeated expressions *)
  - left. reflexivity.
  - intros ts c H _. right. exists c. exact H.
  - split; [lia|]. exact semN_nil.
  - intros ts c _ H. split; [lia|]. apply semN_one, H.
  - exact semN_nil.
  - intros ts c r n rc _ Hc _ Hr. exact (semN_app 1 n c rc (semN_one c Hc) Hr).
  - exact semN_nil.
  - intros t ts c r n rc _ _ Hc _ Hr. exact (semN_app 1 n c rc (semN_one c Hc) Hr).
  - exact semN_nil.
  - intros ks kc t vs vc r n rc _ Hk _ _ Hv _ Hr. replace (2 * S n)%nat with ((1 + 1) + 2 * n)%nat by lia. apply semN_app; [|exact Hr]. apply semN_app; apply semN_one; assumption.
  - exact semN_nil.
  - intros t ks kc t1 vs vc r n rc _ _ Hk _ _ Hv _ Hr. replace (2 * S n)%nat with ((1 + 1) + 2 * n)%nat by lia. apply semN_app; [|exact Hr]. apply semN_app; apply semN_one; assumption.
  (* pieces of code *)
  - intros t b c t2 _ _ H _. exact H.
  - constructor.
  - intros t c cc b bs bc r br _ Hc _ _ Hb _ Hr. constructor; [|exact Hr]. split; [exists cc; exact Hc|exact Hb].
  - left. reflexivity.
  - intros t b bs bc _ _ H. exact H.
  - constructor.
  - intros t c cc t1 b bc r br _ Hc _ _ _ Hb _ Hr. constructor; [|exact Hr]. split; [exists cc; exact Hc|exact Hb].
  - left. reflexivity.
  - intros t t1 b bc _ _ _ H. exact H.
  - constructor.
  - intros s c r hs Hs _ _ _ Hr. constructor; [exists c; exact Hs|exact Hr].
  - constructor.
  - intros t s c r hs _ Hs _ _ _ Hr. constructor; [exists c; exact Hs|exact Hr].
  (* functions and classes *)
  - intros t ns names ds d t1 t2 b bc t3 _ _ _ _ _ Hb _ _ p st s0. unfold seq. eapply safe_bind; [apply put_names_safe|]. intro. put. put. eapply safe_conseq; [apply safe_push|intros s X; exact X|].
    intros y s Hs. exists names, (Z.of_nat d), b. split; [exact (body_or _ _ Hb)|exact Hs].
  - intros t _ p st s0. apply safe_blame, safe_Ref, HL.
  - intros t1 t t2 _ _ _ p st s0. apply safe_blame, safe_Ref, HL.
  - intros p st s0. eapply safe_conseq; [apply safe_push|intros s X; exact X|]. intros y s Hs. eexists. split; [left; reflexivity|exact Hs].
  - intros t es n ec t2 _ _ He _ p st s0. unfold seq. eapply safe_bind; [apply He|]. intro. apply safe_many. intros vs Hv Hn. put. eapply safe_conseq; [apply safe_push|intros s X; exact X|].
    intros y s Hs. eexists. split; [right; exists vs; split; [exact Hv|reflexivity]|]. rewrite Hn. exact Hs.
  - intros p st s0. apply safe_ret'. intros s H. exists []. split; [split; [constructor|reflexivity]|exact H].
  - intros t tn fb fc sc j r n rc _ _ _ Hf _ _ Hr p st s0. unfold seq. eapply (safe_bind L IW p st s0 _ _ _ (fun _ s => exists v, method_ok L v /\ at_ (v :: st) s)).
    + put. eapply safe_bind; [apply (safe_up L IW p [VStr (tlit tn)]); apply (Hf p ([VStr (tlit tn)] ++ st) s0)|]. intro. apply safe_ex. intro ns. apply safe_ex. intro d. apply safe_ex. intro b. apply safe_and. intro Hb.
      apply safe_blame, safe_raise. eapply safe_conseq; [apply (safe_MemberFuncDecl L IW p st s0 b d (tlit tn) ns Hb)| |].
      * intros s Hs. cbn [map rev]. rewrite <- app_assoc. exact Hs.
      * intros o s (-> & v & Hs & a & b' & d' & -> & Hb'). eexists. split; [|exact Hs]. do 4 eexists. split; [reflexivity|exact Hb'].
    + intro. apply safe_ex. intro v. apply safe_and. intro Hv. eapply safe_conseq; [apply (safe_up L IW p [v]); apply (Hr p ([v] ++ st) s0)|intros s X; exact X|].
      intros y s (vs & (Hvs & Hn) & Hs). exists (v :: vs). split; [split; [constructor; assumption|cbn; congruence]|]. cbn [rev]. rewrite <- app_assoc. exact Hs.
  (* statements *)
  - intros t t1 ts c _ _ _ Hc p st s0. unfold seq. eapply safe_bind; [apply Hc|]. intro. apply safe_one. intros v Hv. apply safe_blame, safe_raise. apply safe_Assign, Hv.
  - intros t t1 ns names t2 ts c _ _ _ _ _ Hc p st s0. unfold seq. put. eapply safe_bind; [apply put_names_safe|]. intro. put.
    eapply safe_bind; [apply (safe_up L IW p (VInt (Z.of_nat (length names)) :: rev (map VStr names) ++ [VStr (tlit t)]))|]. { cbn [app]. rewrite <- app_assoc. apply Hc. }
    intro. apply safe_one. intros v Hv. apply safe_blame, safe_raise. eapply safe_conseq; [apply (safe_MultiAssign L IW p st s0 p (tlit t :: names) v Hv)| |]; [discriminate| |].
    + intros s Hs. unfold at_ in *. rewrite Hs. cbn [length map rev]. rewrite <- !app_assoc. cbn [app]. replace (Z.of_nat (S (length names)) - 1) with (Z.of_nat (length names)) by lia. reflexivity.
    + intros y s X. exact X.
  - intros t t1 f _ Hin p st s0. apply safe_blame, safe_raise. apply safe_IncDec. exact (ok_incdec L _ _ Hin).
  - intros t t1 f ts c _ Hin _ Hc p st s0. unfold seq. eapply safe_bind; [apply Hc|]. intro. apply safe_one. intros v Hv. apply safe_blame, safe_raise. apply safe_OpAssign. exact (ok_assign L _ _ Hin).
  - intros t ts n c _ _ (Ln & Hc) p st s0. unfold seq. eapply safe_bind; [apply Hc|]. intro. apply safe_many. intros vs Hv Hn. put. apply safe_blame. apply safe_Return; assumption.
  - intros t ts c _ He _ p st s0. unfold seq. put. apply safe_blame. eapply safe_Defer, He.
  - intros ts c _ H. exact H.
  - intros p l st s0 v Hv Hb. apply safe_ret'. intros s H. exists v. auto.
  - intros t s c r rc _ _ Hc _ Hr. apply rest_cons; assumption.
  - intros t r rc _ _ _ Hr. apply rest_cons; [|exact Hr]. intros p st s0. apply safe_push1. first [exact Logic.I|reflexivity].
  - intros s c r rc _ Hc _ Hr p l st s0 Hb. unfold seq. eapply safe_bind; [apply (sem_at c p l st s0 Hc)|]. intro. apply safe_one. intros v Hv. apply Hr; assumption.
  - left. reflexivity.
  - intros ts c H _. right. exists c. exact H.
Qed.
(** what a text does, as an evaluation in frame [p] *)
Lemma text_ends : forall rule ts c p s, text_is L rule ts c -> Inv s -> ready p rule s -> safely_ends L IW p s (evaluated ev k p c s).
Proof.
  intros rule ts c p s H Hi (R1 & R2 & R3). unfold evaluated. set (s1 := set_mute 0 (set_ipt p s)).
  assert (C : ctx p (e_stk s) s) by (split; assumption). assert (G : good L IW s s1) by (split; [exact Hi|split; [apply Nat.le_refl|reflexivity]]).
  assert (X : ends L IW p (e_stk s) s (one (e_stk s)) (c ev k p s1)).
  { destruct all_safe as (_ & _ & _ & _ & _ & _ & _ & _ & Ht3 & _ & Ht4 & _ & He & _ & _ & _ & _ & _ & _ & _ & _ & _ & _ & _ & _ & _ & _ & _ & _ & _ & Hs & _ & Hd & _).
    destruct H as [(-> & H)|[(-> & H)|[(-> & H)|[(-> & H)|(-> & H)]]]].
    - exact (He ts c H p (e_stk s) s C s1 G eq_refl).
    - specialize (Hd ts c H p [] (e_stk s) s (R3 eq_refl) C s1 G eq_refl). destruct (c ev k p s1) as [(y, x)|(e, x)]; [|exact Hd]. destruct Hd as (A & v & Hv & [B|B]); split; eauto; exists v; auto.
    - exact (Hs ts c H p (e_stk s) s C s1 G eq_refl).
    - exact (Ht3 ts c H p (e_stk s) s C s1 G eq_refl).
    - exact (Ht4 ts c H p (e_stk s) s C s1 G eq_refl). }
  destruct (c ev k p s1) as [(y, x)|(e, x)]; cbn in *.
  - destruct X as ((A & B) & v & Hv & E). split; [exact A|]. split; [exact B|]. exists v. split; [exact Hv|exact E].
  - destruct X as (A & B & D & E & F). exact (conj A (conj B (conj D (conj E F)))).
Qed.
End Texts.

(** ** The evaluator *)
Notation ev := (QlangTop.ev L).
Notation env := (cenv q_dst).
(** with any fuel, a match that does [c] does that or runs out *)
Lemma match_out : forall g ts l c e k f (s : st St), ok env (both L) g ts [] l c -> tidy e -> e_mute (ust s) = 0 -> gmatch env (lift (q_client L e k)) f g ts s <> OutOfFuel ->
  exists s', gmatch env (lift (q_client L e k)) f g ts s =
    match c e k (e_ipt (ust s)) (ust s) with inl _ => Ret (length ts) None s' | inr (p, _) => Panic p s' end /\ ust s' = QlangSpec.after (c e k (e_ipt (ust s)) (ust s)).
Proof.
  intros g ts l c e k f s Hb He Hm Hn. destruct (match_does L g ts l c Hb) as (N & HN). destruct (HN (N + f)%nat e k s) as (s' & E & Es); [lia|exact He|exact Hm|]. exists s'. split; [|exact Es].
  rewrite <- E. symmetry. apply (gmatch_mono _ _ f (N + f)); [lia|exact Hn].
Qed.
Lemma ev_out : forall rule ts c n p s, text_is L rule ts c -> ev (S n) p rule (VCode ts) s = no_fuel s \/ ev (S n) p rule (VCode ts) s = evaluated (ev n) n p c s.
Proof.
  intros rule ts c n p s H. destruct (text_parses L rule ts c H) as (g & l & Hg & Hb). cbn [QlangTop.ev]. unfold EvalCode, EvalSubTokens. rewrite Hg. unfold iinit.
  change (iclient emb q_pushret q_to_float f_of_int (l_parse_float L) (fntable L (ev n) n) t_stack t_ipt None) with (q_client L (ev n) n). cbn [lens ust].
  set (s1 := mkSt (fun _ => 0) (set_mute 0 (set_ipt p s))).
  assert (D : gmatch env (lift (q_client L (ev n) n)) n g ts s1 = OutOfFuel \/ gmatch env (lift (q_client L (ev n) n)) n g ts s1 <> OutOfFuel).
  { destruct (gmatch env (lift (q_client L (ev n) n)) n g ts s1); (left; reflexivity) || (right; discriminate). }
  destruct D as [D|D]; [left; rewrite D; reflexivity|]. right.
  destruct (match_out g ts l c (ev n) n n s1 Hb (tidy_ev L n) eq_refl D) as (s' & E & Es). rewrite E. unfold evaluated. cbn [e_ipt set_mute set_ipt ust s1] in *.
  destruct (c (ev n) n p (set_mute 0 (set_ipt p s))) as [(y, x')|(q, x')]; cbn in Es; rewrite <- Es; [rewrite Nat.eqb_refl|]; reflexivity.
Qed.
Theorem ev_safe : forall n, safe_ev L IW (ev n).
Proof.
  assert (F : forall p rule s, Inv s -> ready p rule s -> safely_ends L IW p s (no_fuel s)).
  { intros p rule s Hi (R1 & R2 & _). apply bad_intro; [split; assumption|split; [exact Hi|split; [apply Nat.le_refl|reflexivity]]|exists []; reflexivity|exact Logic.I]. }
  induction n as [|n IH]; intros p rule ts c s H Hi Hr; [exact (F p rule s Hi Hr)|].
  destruct (ev_out rule ts c n p s H) as [->| ->]; [exact (F p rule s Hi Hr)|]. eapply text_ends; eassumption.
Qed.
(** Exec of a source text *)
Lemma exec_out : forall isL isD semis old src ts eof c n s, Tokenize isL isD false semis (AutoKw q_akw) old src = TzOk ts eof -> doc_is L ts c ->
  Exec L isL isD n semis old src s = inr (PUser PvFuel, s) \/
  Exec L isL isD n semis old src s = match c (ev n) n (e_ipt s) (set_mute 0 s) with inl (_, s') => inl (None, s') | inr (e, s') => inr (e, s') end.
Proof.
  intros isL isD semis old src ts eof c n s Ht H. destruct (text_parses L r_doc ts c (or_intror (or_introl (conj eq_refl H)))) as (g & l & Hg & Hb). injection Hg as <-.
  unfold Exec, MatchExactly, Match. rewrite Ht. unfold iinit. change (match d_doc with GNil => _ | _ => ?x end) with x. cbn [lens ust].
  set (s1 := mkSt (fun _ => 0) (set_mute 0 s)).
  assert (D : gmatch env (lift (q_client L (ev n) n)) n d_doc ts s1 = OutOfFuel \/ gmatch env (lift (q_client L (ev n) n)) n d_doc ts s1 <> OutOfFuel).
  { destruct (gmatch env (lift (q_client L (ev n) n)) n d_doc ts s1); (left; reflexivity) || (right; discriminate). }
  destruct D as [D|D]; [left; rewrite D; reflexivity|]. right.
  destruct (match_out d_doc ts l c (ev n) n n s1 Hb (tidy_ev L n) eq_refl D) as (s' & E & Es). rewrite E. cbn [e_ipt set_mute ust s1] in *.
  destruct (c (ev n) n (e_ipt s) (set_mute 0 s)) as [(y, x')|(q, x')]; cbn in Es; rewrite <- Es; [rewrite skipn_all|]; reflexivity.
Qed.
End SafeT.
