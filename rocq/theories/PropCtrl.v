(** Properties C58-C60: if, switch, for, && and || of tpl/qlang. *)
From Coq Require Import String SpecFloat.
From Verif Require Import Base Token Grammar Compiler Interp QValue Qlang QlangSpec QlangTop QlangEx.
Local Open Scope Z_scope.

Section Ctrl.
Context {W : Type}.
Variable L : qlib W.
Variable ev : nat -> bytes -> value -> @Q W (option panicq).
Notation St := (est nat value (@rest W)).

Lemma ends_fun : forall (r : @qres W unit) o s o' s', ends r o s -> ends r o' s' -> o = o' /\ s = s'.
Proof. intros r o s o' s' H H'. destruct o, o'; cbn in H, H'; rewrite H in H'; try discriminate; injection H'; intros; subst; auto. Qed.
Lemma ends_total : forall r : @qres W unit, exists o s, ends r o s.
Proof. intros [[[] s]|[e s]]; [exists None, s|exists (Some e), s]; reflexivity. Qed.
Lemma evalCode_iff : forall p rule code s o s', ends (evalCode ev p rule code s) o s' <-> code_runs ev p rule code s o s'.
Proof.
  intros p rule code s o s'.
  unfold evalCode, depth, bind, gets, modify, throw, ret. fold (enter p s).
  split.
  - destruct (ev p rule code (enter p s)) as [[[e|] s1]|[e s1]] eqn:E; destruct o as [e'|]; intro H; unfold ends in H; try discriminate H.
    + injection H as <- <-. apply cr_error. exact E.
    + injection H as <-. apply cr_done. exact E.
    + injection H as <- <-. apply cr_panic. exact E.
  - intros [s1 E|e s1 E|e s1 E]; rewrite E; reflexivity.
Qed.
Lemma code_runs_fun : forall p rule code s o s1 o' s1', code_runs ev p rule code s o s1 -> code_runs ev p rule code s o' s1' -> o = o' /\ s1 = s1'.
Proof. intros p rule code s o s1 o' s1' H H'. apply evalCode_iff in H, H'. exact (ends_fun _ _ _ _ _ H H'). Qed.
Lemma code_runs_total : forall p rule code s, exists o s1, code_runs ev p rule code s o s1.
Proof. intros. destruct (ends_total (evalCode ev p rule code s)) as (o & s1 & H). exists o, s1. apply evalCode_iff. exact H. Qed.
Lemma evalCode_done : forall p rule code s s1, code_runs ev p rule code s None s1 -> evalCode ev p rule code s = inl (tt, s1).
Proof. intros. apply evalCode_iff in H. exact H. Qed.
Lemma evalCode_stop : forall p rule code s e s1, code_runs ev p rule code s (Some e) s1 -> evalCode ev p rule code s = inr (e, s1).
Proof. intros. apply evalCode_iff in H. exact H. Qed.
Lemma body_iff : forall p code s o s', ends (eval_body ev p code s) o s' <-> body_runs ev p code s o s'.
Proof.
  intros p code s o s'. unfold eval_body, body_runs.
  assert (D : code = VNil \/ code <> VNil) by (destruct code; (left; reflexivity) || (right; discriminate)).
  destruct D as [->|N].
  - cbn. split.
    + intro H. left. destruct o; [discriminate H|]. injection H as <-. auto.
    + intros [(_ & -> & ->)|(H & _)]; [reflexivity|congruence].
  - assert (is_nilv code = false) as -> by (destruct code; try reflexivity; congruence). rewrite evalCode_iff. split; [auto|intros [(H & _)|(_ & H)]; [congruence|exact H]].
Qed.
Lemma pop_any_eq : forall s : St, pop_any s = inl (top s, drop s).
Proof. intro s. unfold pop_any, pop, bind, ret, top, drop. destruct s as [m i [|v l] r]; reflexivity. Qed.

(** ** C58: if and switch *)
Definition flat (br : list (value * value)) : list value := flat_map (fun b => [fst b; snd b]) br.
(** what a statement finds on the stack above: the code of else or default if there is one, whether there is one *)
Definition pushed_else (o : option value) : list value := match o with Some b => [b; VInt 1] | None => [VInt 0] end.
Definition else_code (o : option value) : value := match o with Some b => b | None => VNil end.

Lemma popArity_eq : forall z l (s : St), e_stk s = VInt z :: l -> popArity s = inl (z, set_stk l s).
Proof. intros z l s E. unfold popArity, pop, bind. rewrite E. reflexivity. Qed.
Lemma popNArgs_eq : forall l l' (s : St), e_stk s = rev l ++ l' -> popNArgs (Z.of_nat (length l)) s = inl (l, set_stk l' s).
Proof.
  intros l l' s E. unfold popNArgs. rewrite E, app_length, rev_length. destruct (Z.leb_spec (Z.of_nat (length l)) (Z.of_nat (length l + length l'))); [|lia].
  destruct (Z.ltb_spec (Z.of_nat (length l)) 0); [lia|]. rewrite Nat2Z.id.
  rewrite <- (rev_length l) at 1 2. rewrite firstn_app, Nat.sub_diag, firstn_all, skipn_app, Nat.sub_diag, skipn_all. cbn. rewrite app_nil_r, rev_involutive. reflexivity.
Qed.
Lemma popArity_set : forall z l (s : St), popArity (set_stk (VInt z :: l) s) = inl (z, set_stk l s).
Proof. reflexivity. Qed.
Lemma popNArgs_set : forall l l' (s : St), popNArgs (Z.of_nat (length l)) (set_stk (rev l ++ l') s) = inl (l, set_stk l' s).
Proof. intros. rewrite (popNArgs_eq l l' (set_stk (rev l ++ l') s) eq_refl). reflexivity. Qed.
Lemma bind_inl : forall A B (m : @Q W A) (k : A -> @Q W B) s x s', m s = inl (x, s') -> bind m k s = k x s'.
Proof. intros. unfold bind. rewrite H. reflexivity. Qed.
Lemma bind_inr : forall A B (m : @Q W A) (k : A -> @Q W B) s e, m s = inr e -> bind m k s = inr e.
Proof. intros. unfold bind. rewrite H. reflexivity. Qed.
Lemma flat_length : forall br, length (flat br) = (length br * 2)%nat.
Proof. induction br as [|b br IH]; cbn; [reflexivity|]. unfold flat in IH. rewrite IH. reflexivity. Qed.

(** if: a condition must be a boolean *)
Definition if_verdict (v : value) : bool + panicq := match v with VBool b => inl b | _ => inr (PUser (PvErr (EOther (VMsg m_ifcond [])))) end.
(** switch: a case is taken if the value of the expression, or true, == the value of the case *)
Definition case_verdict (cond v : value) : bool + panicq :=
  match EQ (l_same L) cond v with inl (VBool true) => inl true | inl _ => inl false | inr e => inr (PUser e) end.

Lemma picks_total : forall p verdict br s, exists r s1, picks ev p verdict br s r s1.
Proof.
  intros p verdict. induction br as [|[c b] br IH]; intro s; [eexists _, _; apply picks_none|].
  destruct (code_runs_total p n_expr c s) as (o & s1 & H). destruct o as [e|]; [eexists _, _; eapply picks_stop; exact H|].
  destruct (verdict (top s1)) as [[|]|e] eqn:V.
  - eexists _, _. eapply picks_here; eassumption.
  - destruct (IH (drop s1)) as (r & s2 & H2). eexists _, _. eapply picks_next; eassumption.
  - eexists _, _. eapply picks_bad; eassumption.
Qed.
Lemma picks_fun : forall p verdict br s r s1, picks ev p verdict br s r s1 -> forall r' s1', picks ev p verdict br s r' s1' -> r = r' /\ s1 = s1'.
Proof.
  intros p verdict br s r s1 H. induction H as [s|c b l s s1 C V|c b l s s1 r s2 C V H IH|c b l s s1 e C V|c b l s s1 e C]; intros r' s1' H'.
  - inversion H'; auto.
  - inversion H'; subst; match goal with X : code_runs _ _ _ _ _ _ _ |- _ => destruct (code_runs_fun _ _ _ _ _ _ _ _ C X) as (Eo & <-) end; try discriminate; try congruence; auto.
  - inversion H'; subst; match goal with X : code_runs _ _ _ _ _ _ _ |- _ => destruct (code_runs_fun _ _ _ _ _ _ _ _ C X) as (Eo & <-) end; try discriminate; try congruence; auto.
  - inversion H'; subst; match goal with X : code_runs _ _ _ _ _ _ _ |- _ => destruct (code_runs_fun _ _ _ _ _ _ _ _ C X) as (Eo & <-) end; try discriminate; try congruence; auto.
    split; [|reflexivity]. congruence.
  - inversion H'; subst; match goal with X : code_runs _ _ _ _ _ _ _ |- _ => destruct (code_runs_fun _ _ _ _ _ _ _ _ C X) as (Eo & <-) end; try discriminate; try congruence; auto.
    injection Eo as <-. auto.
Qed.
Lemma body_fun : forall p code s o s1 o' s1', body_runs ev p code s o s1 -> body_runs ev p code s o' s1' -> o = o' /\ s1 = s1'.
Proof. intros p code s o s1 o' s1' H H'. apply body_iff in H, H'. exact (ends_fun _ _ _ _ _ H H'). Qed.
Lemma branches_fun : forall p verdict br other s o s1 o' s1', branches ev p verdict br other s o s1 -> branches ev p verdict br other s o' s1' -> o = o' /\ s1 = s1'.
Proof.
  intros p verdict br other s o s1 o' s1' (r & t & P & H) (r' & t' & P' & H'). destruct (picks_fun _ _ _ _ _ _ P _ _ P') as (<- & <-).
  destruct r as [b|e]; [exact (body_fun _ _ _ _ _ _ _ H H')|]. destruct H as (-> & ->), H' as (-> & ->). auto.
Qed.
(** what [branches] says is what happens: by determinism one direction is enough *)
Lemma iff_of : forall p verdict br other s m, (forall o s', branches ev p verdict br other s o s' -> ends m o s') ->
  forall o s', ends m o s' <-> branches ev p verdict br other s o s'.
Proof.
  intros p verdict br other s m H o s'. split; [|apply H]. intro E.
  destruct (picks_total p verdict br s) as (r & s1 & P). destruct r as [b|e].
  - destruct (ends_total (eval_body ev p (match b with Some b => b | None => other end) s1)) as (o1 & s2 & E2). apply body_iff in E2.
    assert (B : branches ev p verdict br other s o1 s2) by (exists (inl b), s1; auto). destruct (ends_fun _ _ _ _ _ E (H _ _ B)) as (-> & ->). exact B.
  - assert (B : branches ev p verdict br other s (Some e) s1) by (exists (inr e), s1; auto). destruct (ends_fun _ _ _ _ _ E (H _ _ B)) as (-> & ->). exact B.
Qed.
Lemma if_loop_iff : forall p br els s o s', ends (if_loop ev p (flat br) els s) o s' <-> branches ev p if_verdict br els s o s'.
Proof.
  intros p br els s. apply iff_of. intros o s' (r & s1 & P & H). revert H. induction P as [s|c b l s s1 C V|c b l s s1 r s2 C V P IH|c b l s s1 e C V|c b l s s1 e C]; intro H.
  - apply body_iff. exact H.
  - cbn [flat flat_map app fst snd if_loop]. rewrite (bind_inl _ _ _ _ _ _ _ (evalCode_done _ _ _ _ _ C)), (bind_inl _ _ _ _ _ _ _ (pop_any_eq s1)).
    unfold if_verdict in V. destruct (top s1); try discriminate V. injection V as ->. apply body_iff. exact H.
  - cbn [flat flat_map app fst snd if_loop]. rewrite (bind_inl _ _ _ _ _ _ _ (evalCode_done _ _ _ _ _ C)), (bind_inl _ _ _ _ _ _ _ (pop_any_eq s1)).
    unfold if_verdict in V. destruct (top s1); try discriminate V. injection V as ->. apply IH. exact H.
  - cbn [flat flat_map app fst snd if_loop]. rewrite (bind_inl _ _ _ _ _ _ _ (evalCode_done _ _ _ _ _ C)), (bind_inl _ _ _ _ _ _ _ (pop_any_eq s1)).
    destruct H as (-> & ->). unfold if_verdict in V. destruct (top s1); try discriminate V; injection V as <-; reflexivity.
  - cbn [flat flat_map app fst snd if_loop]. rewrite (bind_inr _ _ _ _ _ _ (evalCode_stop _ _ _ _ _ _ C)). destruct H as (-> & ->). reflexivity.
Qed.
Lemma switch_loop_iff : forall p cond br dflt s o s', ends (switch_loop L ev p cond (flat br) dflt s) o s' <-> branches ev p (case_verdict cond) br dflt s o s'.
Proof.
  intros p cond br els s. apply iff_of. intros o s' (r & s1 & P & H). revert H. induction P as [s|c b l s s1 C V|c b l s s1 r s2 C V P IH|c b l s s1 e C V|c b l s s1 e C]; intro H.
  - apply body_iff. exact H.
  - cbn [flat flat_map app fst snd switch_loop]. rewrite (bind_inl _ _ _ _ _ _ _ (evalCode_done _ _ _ _ _ C)), (bind_inl _ _ _ _ _ _ _ (pop_any_eq s1)).
    unfold case_verdict in V. unfold bind, of_op. destruct (EQ _ cond (top s1)) as [v|e]; [|discriminate V]. destruct v; try discriminate V; try (match goal with x : bool |- _ => destruct x; try discriminate V end). apply body_iff. exact H.
  - cbn [flat flat_map app fst snd switch_loop]. rewrite (bind_inl _ _ _ _ _ _ _ (evalCode_done _ _ _ _ _ C)), (bind_inl _ _ _ _ _ _ _ (pop_any_eq s1)).
    unfold case_verdict in V. unfold bind, of_op. destruct (EQ _ cond (top s1)) as [v|e]; [|discriminate V]. destruct v; try discriminate V; try (match goal with x : bool |- _ => destruct x; try discriminate V end); apply IH; exact H.
  - cbn [flat flat_map app fst snd switch_loop]. rewrite (bind_inl _ _ _ _ _ _ _ (evalCode_done _ _ _ _ _ C)), (bind_inl _ _ _ _ _ _ _ (pop_any_eq s1)).
    destruct H as (-> & ->). unfold case_verdict in V. unfold bind, of_op. destruct (EQ _ cond (top s1)) as [v|e']; [destruct v; try discriminate V; match goal with x : bool |- _ => destruct x; discriminate V end|].
    injection V as <-. reflexivity.
  - cbn [flat flat_map app fst snd switch_loop]. rewrite (bind_inr _ _ _ _ _ _ (evalCode_stop _ _ _ _ _ _ C)). destruct H as (-> & ->). reflexivity.
Qed.
Lemma rev_else : forall o l (s : St), exists x y, pushed_all (l ++ pushed_else o) s = set_stk (VInt x :: y) s /\
  (if x =? 1 then pop_any else ret VNil) (set_stk y s) = inl (else_code o, pushed_all l s).
Proof.
  intros [b|] l s; unfold pushed_all; rewrite rev_app_distr; cbn; eexists _, _; (split; [reflexivity|]); reflexivity.
Qed.
Lemma set_set : forall a b (s : St), set_stk a (set_stk b s) = set_stk a s.
Proof. reflexivity. Qed.
Lemma set_same : forall s : St, set_stk (e_stk s) s = s.
Proof. intros []; reflexivity. Qed.

(** if: with the code of the branches [br] (one or more) and of the else branch on the stack, pushed in the order in which they
    are written, it ends exactly as evaluating the branches ends. *)
Theorem C58_if : forall p br els s o s', br <> [] ->
  (ends (If ev p (pushed_all (flat br ++ VInt (Z.of_nat (length br) - 1) :: pushed_else els) s)) o s' <->
   branches ev p if_verdict br (else_code els) s o s').
Proof.
  intros p br els s o s' Hb. rewrite <- if_loop_iff. unfold If.
  destruct (rev_else els (flat br ++ [VInt (Z.of_nat (length br) - 1)]) s) as (x & y & E1 & E2).
  rewrite <- app_assoc in E1. cbn [app] in E1. rewrite E1.
  rewrite (bind_inl _ _ _ _ _ _ _ (popArity_set _ _ _)).
  rewrite (bind_inl _ _ _ _ _ _ _ E2). unfold pushed_all at 1. rewrite rev_app_distr. cbn [rev app].
  rewrite (bind_inl _ _ _ _ _ _ _ (popArity_set _ _ _)).
  replace ((Z.of_nat (length br) - 1 + 1) * 2) with (Z.of_nat (length (flat br))) by (rewrite flat_length; lia).
  rewrite (bind_inl _ _ _ _ _ _ _ (popNArgs_set _ _ _)), set_same. reflexivity.
Qed.
(** switch: the expression is evaluated first; without one it is true *)
Definition switch_value (p : nat) (code : value) (s : St) (v : value + panicq) (s' : St) : Prop :=
  (code = VNil /\ v = inl (VBool true) /\ s' = s) \/
  (code <> VNil /\ exists o s1, code_runs ev p n_expr code s o s1 /\
     match o with None => v = inl (top s1) /\ s' = drop s1 | Some e => v = inr e /\ s' = s1 end).
Theorem C58_switch : forall p code br dflt s o s',
  ends (Switch L ev p (pushed_all (code :: flat br ++ VInt (Z.of_nat (length br)) :: pushed_else dflt) s)) o s' <->
  exists v s1, switch_value p code s v s1 /\
    match v with inl v => branches ev p (case_verdict v) br (else_code dflt) s1 o s' | inr e => o = Some e /\ s' = s1 end.
Proof.
  intros p code br dflt s o s'. unfold Switch.
  destruct (rev_else dflt (code :: flat br ++ [VInt (Z.of_nat (length br))]) s) as (x & y & E1 & E2).
  replace ((code :: flat br ++ [VInt (Z.of_nat (length br))]) ++ pushed_else dflt) with (code :: flat br ++ VInt (Z.of_nat (length br)) :: pushed_else dflt) in E1
    by (cbn [app]; rewrite <- app_assoc; reflexivity). rewrite E1.
  rewrite (bind_inl _ _ _ _ _ _ _ (popArity_set _ _ _)). rewrite (bind_inl _ _ _ _ _ _ _ E2). unfold pushed_all at 1.
  replace (rev (code :: flat br ++ [VInt (Z.of_nat (length br))]) ++ e_stk s) with (VInt (Z.of_nat (length br)) :: rev (flat br) ++ code :: e_stk s)
    by (cbn [rev]; rewrite rev_app_distr; cbn [rev app]; rewrite <- app_assoc; reflexivity).
  rewrite (bind_inl _ _ _ _ _ _ _ (popArity_set _ _ _)).
  replace (Z.of_nat (length br) * 2) with (Z.of_nat (length (flat br))) by (rewrite flat_length; lia).
  rewrite (bind_inl _ _ _ _ _ _ _ (popNArgs_set _ _ _)). rewrite (bind_inl _ _ _ _ _ _ _ (pop_any_eq _)).
  change (top (set_stk (code :: e_stk s) s)) with code. change (drop (set_stk (code :: e_stk s) s)) with (set_stk (e_stk s) s). rewrite set_same.
  assert (D : code = VNil \/ code <> VNil) by (destruct code; (left; reflexivity) || (right; discriminate)). destruct D as [->|N].
  - cbn [is_nilv]. rewrite (bind_inl _ _ _ _ s (VBool true) s eq_refl), switch_loop_iff. split.
    + intro H. exists (inl (VBool true)), s. split; [left; auto|exact H].
    + intros (v & s1 & [(_ & -> & ->)|(X & _)] & H); [exact H|congruence].
  - assert (is_nilv code = false) as -> by (destruct code; try reflexivity; congruence).
    destruct (code_runs_total p n_expr code s) as (o1 & s1 & C). destruct o1 as [e|].
    + rewrite (bind_inr _ _ _ _ _ (e, s1)) by (rewrite (bind_inr _ _ _ _ _ (e, s1)) by (apply evalCode_stop; exact C); reflexivity). split.
      * intro H. destruct o as [e'|]; [|discriminate H]. injection H as <- <-. exists (inr e), s1. split; [right; split; [exact N|exists (Some e), s1; auto]|auto].
      * intros (v & s2 & [(X & _)|(_ & o2 & s3 & C' & H)] & H'); [congruence|]. destruct (code_runs_fun _ _ _ _ _ _ _ _ C C') as (<- & <-). destruct H as (-> & ->). destruct H' as (-> & ->). reflexivity.
    + rewrite (bind_inl _ _ _ _ _ (top s1) (drop s1)) by (rewrite (bind_inl _ _ _ _ _ tt s1) by (apply evalCode_done; exact C); apply pop_any_eq).
      rewrite switch_loop_iff. split.
      * intro H. exists (inl (top s1)), (drop s1). split; [right; split; [exact N|exists None, s1; auto]|exact H].
      * intros (v & s2 & [(X & _)|(_ & o2 & s3 & C' & H)] & H'); [congruence|]. destruct (code_runs_fun _ _ _ _ _ _ _ _ C C') as (<- & <-). destruct H as (-> & ->). exact H'.
Qed.
(** when the code evaluated leaves one value, so do if and switch *)
Lemma body_one : forall can ok p code s s', one_value ev can ok p -> opt_code can n_docr code -> ok s -> body_runs ev p code s None s' -> ok s' /\ exists v, e_stk s' = v :: e_stk s.
Proof.
  intros can ok p code s s' (K & O) Hc Hs [(_ & _ & ->)|(N & H)]; [split; [apply K; exact Hs|exists VNil; reflexivity]|].
  destruct Hc as [Hc|Hc]; [contradiction|exact (O _ _ _ _ Hc Hs H)].
Qed.
Lemma picks_one : forall can ok p verdict br s b s', one_value ev can ok p -> branch_code can br -> ok s -> picks ev p verdict br s (inl b) s' -> ok s' /\ e_stk s' = e_stk s /\ (forall c, b = Some c -> opt_code can n_docr c).
Proof.
  intros can ok p verdict br s b s' (K & O) Hb Hs H. remember (inl b) as r eqn:Er. revert Hb Hs Er. induction H; intros Hb Hs Er; try discriminate Er.
  - injection Er as <-. split; [auto|]. split; [reflexivity|discriminate].
  - injection Er as <-. inversion Hb; subst. cbn in *. destruct (O _ _ _ _ (proj1 H3) Hs H) as (H1 & v & E). split; [apply K; exact H1|]. split; [unfold drop; cbn; rewrite E; reflexivity|]. intros c' [= <-]. tauto.
  - inversion Hb; subst. cbn in *. destruct (O _ _ _ _ (proj1 H4) Hs H) as (H2 & v & E). destruct IHpicks as (H3 & E3 & C3); [assumption|apply K; exact H2|reflexivity|]. split; [exact H3|]. split; [rewrite E3; unfold drop; cbn; rewrite E; reflexivity|exact C3].
Qed.
Lemma branches_one : forall can ok p verdict br other s s', one_value ev can ok p -> branch_code can br -> opt_code can n_docr other -> ok s -> branches ev p verdict br other s None s' -> ok s' /\ exists v, e_stk s' = v :: e_stk s.
Proof.
  intros can ok p verdict br other s s' O Hb Ho Hs (r & s1 & P & H). destruct r as [b|e]; [|destruct H as (H & _); discriminate H].
  destruct (picks_one _ _ _ _ _ _ _ _ O Hb Hs P) as (H1 & E & C). 
  assert (X : opt_code can n_docr (match b with Some b => b | None => other end)) by (destruct b; [apply C; reflexivity|exact Ho]).
  destruct (body_one _ _ _ _ _ _ O X H1 H) as (H2 & v & E2). split; [exact H2|]. exists v. congruence.
Qed.
Theorem C58_if_one_value : forall can ok p br els s s', br <> [] -> one_value ev can ok p -> branch_code can br -> opt_code can n_docr (else_code els) -> ok s ->
  If ev p (pushed_all (flat br ++ VInt (Z.of_nat (length br) - 1) :: pushed_else els) s) = inl (tt, s') -> exists v, e_stk s' = v :: e_stk s.
Proof. intros can ok p br els s s' Hb O Hc He Hs H. apply (C58_if p br els s None s' Hb) in H. exact (proj2 (branches_one _ _ _ _ _ _ _ _ O Hc He Hs H)). Qed.
Theorem C58_switch_one_value : forall can ok p code br dflt s s', one_value ev can ok p -> opt_code can n_expr code -> branch_code can br -> opt_code can n_docr (else_code dflt) -> ok s ->
  Switch L ev p (pushed_all (code :: flat br ++ VInt (Z.of_nat (length br)) :: pushed_else dflt) s) = inl (tt, s') -> exists v, e_stk s' = v :: e_stk s.
Proof.
  intros can ok p code br dflt s s' O Hx Hb Hd Hs H. apply (C58_switch p code br dflt s None s') in H. destruct H as (v & s1 & [(_ & -> & ->)|(N & o & s2 & C & H1)] & H).
  - exact (proj2 (branches_one _ _ _ _ _ _ _ _ O Hb Hd Hs H)).
  - destruct o as [e|]; [destruct H1 as (-> & _), H as (H & _); discriminate H|]. destruct H1 as (-> & ->). destruct Hx as [Hx|Hx]; [contradiction|]. destruct (proj2 O _ _ _ _ Hx Hs C) as (H2 & v & E).
    destruct (branches_one _ _ _ _ _ _ _ _ O Hb Hd (proj1 O _ (tl (e_stk s2)) H2) H) as (_ & v' & E'). exists v'. rewrite E'. unfold drop. cbn. rewrite E. reflexivity.
Qed.
(** the taken branch: the first whose condition is true; the conditions before it were false and evaluated, once each and in
    order; no other code is evaluated *)
Inductive runs_all (p : nat) (verdict : value -> bool + panicq) : list value -> St -> St -> Prop :=
| ra_nil : forall s, runs_all p verdict [] s s
| ra_cons : forall c l s s1 s2, code_runs ev p n_expr c s None s1 -> verdict (top s1) = inl false -> runs_all p verdict l (drop s1) s2 -> runs_all p verdict (c :: l) s s2.
Theorem C58_taken : forall p verdict br s b s', picks ev p verdict br s (inl (Some b)) s' <->
  exists before c after s1 s2, br = before ++ (c, b) :: after /\ runs_all p verdict (map fst before) s s1 /\
    code_runs ev p n_expr c s1 None s2 /\ verdict (top s2) = inl true /\ s' = drop s2.
Proof.
  intros p verdict br s b s'. split.
  - intro H. remember (inl (Some b)) as r eqn:Er. revert Er. induction H; intro Er; try discriminate Er.
    + injection Er as ->. exists [], c, l, s, s1. repeat split; auto using ra_nil.
    + destruct (IHpicks Er) as (be & c' & af & s3 & s4 & -> & R & C & V & ->). exists ((c, b0) :: be), c', af, s3, s4.
      repeat split; auto. cbn. eapply ra_cons; eassumption.
  - intros (be & c & af & s1 & s2 & -> & R & C & V & ->). revert s R. induction be as [|[c' b'] be IH]; intros s R; cbn in R |- *.
    + inversion R; subst. apply picks_here; assumption.
    + inversion R; subst. eapply picks_next; [eassumption|eassumption|]. apply IH. assumption.
Qed.
Theorem C58_none_taken : forall p verdict br s s', picks ev p verdict br s (inl None) s' <-> runs_all p verdict (map fst br) s s'.
Proof.
  intros p verdict br. induction br as [|[c b] br IH]; intros s s'; cbn; split; intro H; inversion H; subst; try constructor.
  - eapply ra_cons; [eassumption|eassumption|]. apply IH. assumption.
  - eapply picks_next; [eassumption|eassumption|]. apply IH. assumption.
Qed.

(** ** C59: for *)
Lemma cond_iff : forall p cond s b s', (if is_nilv cond then ret true else evalCondS ev p cond) s = inl (b, s') <-> cond_is ev p cond b s s'.
Proof.
  intros p cond s b s'. unfold cond_is.
  assert (D : cond = VNil \/ cond <> VNil) by (destruct cond; (left; reflexivity) || (right; discriminate)). destruct D as [->|N].
  - cbn. split.
    + intro H. injection H as <- <-. auto.
    + intros [(_ & -> & ->)|(X & _)]; [reflexivity|congruence].
  - assert (is_nilv cond = false) as -> by (destruct cond; try reflexivity; congruence). unfold evalCondS.
    destruct (code_runs_total p n_s cond s) as (o & s1 & C). destruct o as [e|].
    + rewrite (bind_inr _ _ _ _ _ _ (evalCode_stop _ _ _ _ _ _ C)). split; [discriminate|]. intros [(X & _)|(_ & s2 & C' & _)]; [congruence|].
      destruct (code_runs_fun _ _ _ _ _ _ _ _ C C') as (X & _). discriminate X.
    + rewrite (bind_inl _ _ _ _ _ _ _ (evalCode_done _ _ _ _ _ C)). unfold bind, pop. split.
      * intro H. right. split; [exact N|]. exists s1. split; [exact C|]. destruct (e_stk s1) as [|v l] eqn:E; [discriminate H|].
        destruct v; try discriminate H. injection H as <- <-. split; [reflexivity|]. unfold drop. rewrite E. reflexivity.
      * intros [(X & _)|(_ & s2 & C' & T & ->)]; [congruence|]. destruct (code_runs_fun _ _ _ _ _ _ _ _ C C') as (_ & <-).
        unfold drop. destruct (e_stk s1) as [|v l]; [discriminate T|]. injection T as ->. reflexivity.
Qed.
Lemma cond_panics_iff : forall p cond s e s', (if is_nilv cond then ret true else evalCondS ev p cond) s = inr (e, s') <-> cond_panics ev p cond s e s'.
Proof.
  intros p cond s e s'. unfold cond_panics.
  assert (D : cond = VNil \/ cond <> VNil) by (destruct cond; (left; reflexivity) || (right; discriminate)). destruct D as [->|N].
  - cbn. split; [discriminate|]. intros (X & _). congruence.
  - assert (is_nilv cond = false) as -> by (destruct cond; try reflexivity; congruence). unfold evalCondS.
    destruct (code_runs_total p n_s cond s) as (o & s1 & C). destruct o as [e1|].
    + rewrite (bind_inr _ _ _ _ _ _ (evalCode_stop _ _ _ _ _ _ C)). split.
      * intro H. injection H as <- <-. auto.
      * intros (_ & [H|(s2 & C' & _)]); destruct (code_runs_fun _ _ _ _ _ _ _ _ C ltac:(eassumption)) as (X & Y); [injection X as ->; subst; reflexivity|discriminate X].
    + rewrite (bind_inl _ _ _ _ _ _ _ (evalCode_done _ _ _ _ _ C)). unfold bind, pop. split.
      * intro H. split; [exact N|]. right. exists s1. split; [exact C|]. unfold drop. destruct (e_stk s1) as [|v l] eqn:E.
        { injection H as <- <-. split; [rewrite <- (set_same s1) at 1; rewrite E; reflexivity|]. right. auto. }
        destruct v; try discriminate H; injection H as <- <-; (split; [reflexivity|]); left; (eexists; split; [reflexivity|split; [intro; discriminate|reflexivity]]).
      * intros (_ & [H|(s2 & C' & -> & H)]); destruct (code_runs_fun _ _ _ _ _ _ _ _ C ltac:(eassumption)) as (X & <-); [discriminate X|].
        unfold drop. destruct H as [(v & T & NB & ->)|(T & ->)].
        { destruct (e_stk s1) as [|v0 l]; [discriminate T|]. injection T as ->. destruct v; try reflexivity. exfalso. eapply NB. reflexivity. }
        rewrite T. cbn. rewrite <- (set_same s1) at 1. rewrite T. reflexivity.
Qed.
Lemma drop_iff : forall p rule code s s', eval_drop ev p rule code s = inl (tt, s') <-> drops ev p rule code s s'.
Proof.
  intros p rule code s s'. unfold drops, eval_drop.
  assert (D : code = VNil \/ code <> VNil) by (destruct code; (left; reflexivity) || (right; discriminate)). destruct D as [->|N].
  - cbn. split.
    + intro H. injection H as <-. auto.
    + intros [(_ & ->)|(X & _)]; [reflexivity|congruence].
  - assert (is_nilv code = false) as -> by (destruct code; try reflexivity; congruence).
    destruct (code_runs_total p rule code s) as (o & s1 & C). destruct o as [e1|].
    + rewrite (bind_inr _ _ _ _ _ _ (evalCode_stop _ _ _ _ _ _ C)). split; [discriminate|]. intros [(X & _)|(_ & s2 & C' & _)]; [congruence|].
      destruct (code_runs_fun _ _ _ _ _ _ _ _ C C') as (X & _). discriminate X.
    + rewrite (bind_inl _ _ _ _ _ _ _ (evalCode_done _ _ _ _ _ C)). unfold bind, pop, drop. split.
      * intro H. right. split; [exact N|]. exists s1. split; [exact C|]. destruct (e_stk s1) as [|v l] eqn:E; injection H as <-; [|reflexivity].
        rewrite <- (set_same s1) at 1. rewrite E. reflexivity.
      * intros [(X & _)|(_ & s2 & C' & ->)]; [congruence|]. destruct (code_runs_fun _ _ _ _ _ _ _ _ C C') as (_ & <-).
        destruct (e_stk s1) as [|v l] eqn:E; [|reflexivity]. cbn. rewrite <- (set_same s1) at 1. rewrite E. reflexivity.
Qed.
Lemma drop_panics_iff : forall p rule code s e s', eval_drop ev p rule code s = inr (e, s') <-> code_panics ev p rule code s e s'.
Proof.
  intros p rule code s e s'. unfold code_panics, eval_drop.
  assert (D : code = VNil \/ code <> VNil) by (destruct code; (left; reflexivity) || (right; discriminate)). destruct D as [->|N].
  - cbn. split; [discriminate|]. intros (X & _). congruence.
  - assert (is_nilv code = false) as -> by (destruct code; try reflexivity; congruence).
    destruct (code_runs_total p rule code s) as (o & s1 & C). destruct o as [e1|].
    + rewrite (bind_inr _ _ _ _ _ _ (evalCode_stop _ _ _ _ _ _ C)). split.
      * intro H. injection H as <- <-. auto.
      * intros (_ & C'). destruct (code_runs_fun _ _ _ _ _ _ _ _ C C') as (X & <-). injection X as ->. reflexivity.
    + rewrite (bind_inl _ _ _ _ _ _ _ (evalCode_done _ _ _ _ _ C)). unfold bind, pop, ret. split.
      * intro H. destruct (e_stk s1); discriminate H.
      * intros (_ & C'). destruct (code_runs_fun _ _ _ _ _ _ _ _ C C') as (X & _). discriminate X.
Qed.
Lemma loop_iff : forall p cond body step k s s', for_loop ev k p cond body step s = inl (tt, s') <-> exists n, (n < k)%nat /\ loops ev p cond body step n s s'.
Proof.
  intros p cond body step. induction k as [|k IH]; intros s s'.
  - split; [discriminate|]. intros (n & X & _). lia.
  - cbn [for_loop]. split.
    + unfold bind at 1. destruct ((if is_nilv cond then ret true else evalCondS ev p cond) s) as [[b s1]|[e s1]] eqn:C; [|discriminate]. apply cond_iff in C. destruct b.
      * unfold bind at 1. destruct (eval_drop ev p n_docr body s1) as [[[] s2]|[e s2]] eqn:B; [|discriminate]. apply drop_iff in B.
        unfold bind at 1. destruct (eval_drop ev p n_s step s2) as [[[] s3]|[e s3]] eqn:T; [|discriminate]. apply drop_iff in T.
        intro H. apply IH in H. destruct H as (n & Hn & H). exists (S n). split; [lia|]. eapply loops_round; eassumption.
      * intro H. injection H as <-. exists 0%nat. split; [lia|]. apply loops_end. exact C.
    + intros (n & Hn & H). inversion H; subst.
      * rewrite (bind_inl _ _ _ _ _ false s'); [reflexivity|]. apply cond_iff. assumption.
      * rewrite (bind_inl _ _ _ _ _ true s1) by (apply cond_iff; assumption). rewrite (bind_inl _ _ _ _ _ tt s2) by (apply drop_iff; assumption).
        rewrite (bind_inl _ _ _ _ _ tt s3) by (apply drop_iff; assumption). apply IH. exists n0. split; [lia|assumption].
Qed.
Lemma loop_panics_iff : forall p cond body step k s e s', for_loop ev k p cond body step s = inr (e, s') <->
  (exists n, (n < k)%nat /\ loop_panics ev p cond body step n s e s') \/ (e = PUser PvFuel /\ loop_still ev p cond body step k s s').
Proof.
  intros p cond body step. induction k as [|k IH]; intros s e s'.
  - split.
    + intro H. injection H as <- <-. right. split; [reflexivity|constructor].
    + intros [(n & X & _)|(-> & H)]; [lia|]. inversion H; subst. reflexivity.
  - cbn [for_loop]. split.
    + unfold bind at 1. destruct ((if is_nilv cond then ret true else evalCondS ev p cond) s) as [[b s1]|[e1 s1]] eqn:C.
      2:{ intro H. injection H as <- <-. left. exists 0%nat. split; [lia|]. apply lp_cond. apply cond_panics_iff. exact C. }
      apply cond_iff in C. destruct b; [|discriminate].
      unfold bind at 1. destruct (eval_drop ev p n_docr body s1) as [[[] s2]|[e2 s2]] eqn:B.
      2:{ intro H. injection H as <- <-. left. exists 0%nat. split; [lia|]. eapply lp_body; [exact C|]. apply drop_panics_iff. exact B. }
      apply drop_iff in B.
      unfold bind at 1. destruct (eval_drop ev p n_s step s2) as [[[] s3]|[e3 s3]] eqn:T.
      2:{ intro H. injection H as <- <-. left. exists 0%nat. split; [lia|]. eapply lp_step; [exact C|exact B|]. apply drop_panics_iff. exact T. }
      apply drop_iff in T. intro H. apply IH in H. destruct H as [(n & Hn & H)|(-> & H)].
      * left. exists (S n). split; [lia|]. eapply lp_round; eassumption.
      * right. split; [reflexivity|]. eapply ls_round; eassumption.
    + intros [(n & Hn & H)|(-> & H)].
      * inversion H; subst.
        -- rewrite (bind_inr _ _ _ _ _ (e, s')); [reflexivity|]. apply cond_panics_iff. assumption.
        -- rewrite (bind_inl _ _ _ _ _ true s1) by (apply cond_iff; assumption). rewrite (bind_inr _ _ _ _ _ (e, s')); [reflexivity|]. apply drop_panics_iff. assumption.
        -- rewrite (bind_inl _ _ _ _ _ true s1) by (apply cond_iff; assumption). rewrite (bind_inl _ _ _ _ _ tt s2) by (apply drop_iff; assumption).
           rewrite (bind_inr _ _ _ _ _ (e, s')); [reflexivity|]. apply drop_panics_iff. assumption.
        -- rewrite (bind_inl _ _ _ _ _ true s1) by (apply cond_iff; assumption). rewrite (bind_inl _ _ _ _ _ tt s2) by (apply drop_iff; assumption).
           rewrite (bind_inl _ _ _ _ _ tt s3) by (apply drop_iff; assumption). apply IH. left. exists n0. split; [lia|assumption].
      * inversion H; subst. rewrite (bind_inl _ _ _ _ _ true s1) by (apply cond_iff; assumption). rewrite (bind_inl _ _ _ _ _ tt s2) by (apply drop_iff; assumption).
        rewrite (bind_inl _ _ _ _ _ tt s3) by (apply drop_iff; assumption). apply IH. right. auto.
Qed.

(** the three forms of for: nothing; a condition; an initial statement, a condition and a step.  Statements left out are nil. *)
Inductive for_form : list value -> value -> value -> value -> Prop :=
| ff_ever : for_form [] VNil VNil VNil
| ff_while : forall cond, for_form [cond] VNil cond VNil
| ff_for : forall init cond step, for_form [init; cond; step] init cond step.
Lemma for_eq : forall k p l init cond step body s, for_form l init cond step ->
  For ev k p (pushed_all (l ++ [VInt (Z.of_nat (length l)); body]) s) =
  (eval_drop ev p n_s init ;;; for_loop ev k p cond body step ;;; push VNil) s.
Proof.
  intros k p l init cond step body s H. unfold For, pushed_all. rewrite rev_app_distr. cbn [rev app].
  rewrite (bind_inl _ _ _ _ _ _ _ (pop_any_eq _)). change (top (set_stk (?b :: ?l) s)) with b. unfold drop. cbn [e_stk set_stk tl]. rewrite (bind_inl _ _ _ _ _ _ _ (popArity_set _ _ _)).
  rewrite set_set. destruct H; cbn [length Z.of_nat Z.eqb Pos.of_succ_nat Pos.eqb Pos.succ].
  - cbn [rev app]. rewrite set_same. reflexivity.
  - rewrite (bind_inl _ _ _ _ _ _ _ (popNArgs_set [cond] _ s)). rewrite set_same. reflexivity.
  - rewrite (bind_inl _ _ _ _ _ _ _ (popNArgs_set [init; cond; step] _ s)). rewrite set_same. reflexivity.
Qed.
(** It completes exactly if the initial statement and some number of rounds do: then nil is pushed on what they left. *)
Theorem C59_for : forall k p l init cond step body s s', for_form l init cond step ->
  (For ev k p (pushed_all (l ++ [VInt (Z.of_nat (length l)); body]) s) = inl (tt, s') <->
   exists s1 n s2, drops ev p n_s init s s1 /\ (n < k)%nat /\ loops ev p cond body step n s1 s2 /\ s' = pushed VNil s2).
Proof.
  intros k p l init cond step body s s' F. rewrite (for_eq _ _ _ _ _ _ _ _ F). split.
  - unfold bind at 1. destruct (eval_drop ev p n_s init s) as [[[] s1]|[e s1]] eqn:I; [|discriminate]. apply drop_iff in I.
    unfold bind. destruct (for_loop ev k p cond body step s1) as [[[] s2]|[e s2]] eqn:Lp; [|discriminate]. apply loop_iff in Lp. destruct Lp as (n & Hn & Lp).
    intro H. injection H as <-. exists s1, n, s2. auto.
  - intros (s1 & n & s2 & I & Hn & Lp & ->). rewrite (bind_inl _ _ _ _ _ tt s1) by (apply drop_iff; exact I).
    rewrite (bind_inl _ _ _ _ _ tt s2); [reflexivity|]. apply loop_iff. eauto.
Qed.
(** It panics exactly if the initial statement, a condition, a body or a step does; [k] is the bound of the model on rounds. *)
Theorem C59_for_panics : forall k p l init cond step body s e s', for_form l init cond step ->
  (For ev k p (pushed_all (l ++ [VInt (Z.of_nat (length l)); body]) s) = inr (e, s') <->
   code_panics ev p n_s init s e s' \/
   exists s1, drops ev p n_s init s s1 /\
     ((exists n, (n < k)%nat /\ loop_panics ev p cond body step n s1 e s') \/ (e = PUser PvFuel /\ loop_still ev p cond body step k s1 s'))).
Proof.
  intros k p l init cond step body s e s' F. rewrite (for_eq _ _ _ _ _ _ _ _ F). split.
  - unfold bind at 1. destruct (eval_drop ev p n_s init s) as [[[] s1]|[e1 s1]] eqn:I.
    2:{ intro H. injection H as <- <-. left. apply drop_panics_iff. exact I. }
    apply drop_iff in I. unfold bind. destruct (for_loop ev k p cond body step s1) as [[[] s2]|[e2 s2]] eqn:Lp; [discriminate|].
    intro H. injection H as <- <-. right. exists s1. split; [exact I|]. apply loop_panics_iff. exact Lp.
  - intros [H|(s1 & I & H)].
    + rewrite (bind_inr _ _ _ _ _ (e, s')); [reflexivity|]. apply drop_panics_iff. exact H.
    + rewrite (bind_inl _ _ _ _ _ tt s1) by (apply drop_iff; exact I). rewrite (bind_inr _ _ _ _ _ (e, s')); [reflexivity|]. apply loop_panics_iff. exact H.
Qed.
(** The rest of the stack is unchanged. *)
Lemma cond_one : forall can ok p cond b s s', one_value ev can ok p -> opt_code can n_s cond -> ok s -> cond_is ev p cond b s s' -> ok s' /\ e_stk s' = e_stk s.
Proof.
  intros can ok p cond b s s' O Hc Hs [(_ & _ & ->)|(N & s1 & C & _ & ->)]; [auto|]. destruct Hc as [Hc|Hc]; [contradiction|]. destruct (proj2 O _ _ _ _ Hc Hs C) as (H1 & v & E).
  split; [apply (proj1 O); exact H1|]. unfold drop. cbn. rewrite E. reflexivity.
Qed.
Lemma drops_one : forall can ok p rule code s s', one_value ev can ok p -> opt_code can rule code -> ok s -> drops ev p rule code s s' -> ok s' /\ e_stk s' = e_stk s.
Proof.
  intros can ok p rule code s s' O Hc Hs [(_ & ->)|(N & s1 & C & ->)]; [auto|]. destruct Hc as [Hc|Hc]; [contradiction|]. destruct (proj2 O _ _ _ _ Hc Hs C) as (H1 & v & E).
  split; [apply (proj1 O); exact H1|]. unfold drop. cbn. rewrite E. reflexivity.
Qed.
Lemma loops_one : forall can ok p cond body step n s s', one_value ev can ok p -> opt_code can n_s cond -> opt_code can n_docr body -> opt_code can n_s step -> ok s -> loops ev p cond body step n s s' -> ok s' /\ e_stk s' = e_stk s.
Proof.
  intros can ok p cond body step n s s' O Hc Hb Ht Hs H. revert Hs. induction H; intro Hs.
  - exact (cond_one _ _ _ _ _ _ _ O Hc Hs H).
  - destruct (cond_one _ _ _ _ _ _ _ O Hc Hs H) as (H3 & E1). destruct (drops_one _ _ _ _ _ _ _ O Hb H3 H0) as (H4 & E2). destruct (drops_one _ _ _ _ _ _ _ O Ht H4 H1) as (H5 & E3).
    destruct (IHloops H5) as (H6 & E4). split; [exact H6|congruence].
Qed.
Theorem C59_stack : forall can ok k p l init cond step body s s', for_form l init cond step -> one_value ev can ok p -> Forall (opt_code can n_s) l -> opt_code can n_docr body -> ok s ->
  For ev k p (pushed_all (l ++ [VInt (Z.of_nat (length l)); body]) s) = inl (tt, s') -> e_stk s' = VNil :: e_stk s.
Proof.
  intros can ok k p l init cond step body s s' F O Hl Hb Hs H. apply (C59_for _ _ _ _ _ _ _ _ _ F) in H. destruct H as (s1 & n & s2 & I & _ & Lp & ->).
  assert (X : opt_code can n_s init /\ opt_code can n_s cond /\ opt_code can n_s step) by (inversion F; subst; repeat match goal with Y : Forall _ (_ :: _) |- _ => inversion Y; clear Y; subst end; repeat split; auto; left; reflexivity).
  destruct (drops_one _ _ _ _ _ _ _ O (proj1 X) Hs I) as (H1 & E1). destruct (loops_one _ _ _ _ _ _ _ _ _ O (proj1 (proj2 X)) Hb (proj2 (proj2 X)) H1 Lp) as (_ & E2). cbn. congruence.
Qed.
(** Any other number of statements is refused; nothing is evaluated. *)
Theorem C59_other_forms : forall k p l body s, length l <> 0%nat -> length l <> 1%nat -> length l <> 3%nat ->
  exists s', For ev k p (pushed_all (l ++ [VInt (Z.of_nat (length l)); body]) s) = inr (PUser (PvErr (EOther (VMsg m_forform []))), s') /\
    s' = pushed_all l s.
Proof.
  intros k p l body s H0 H1 H3. exists (pushed_all l s). split; [|reflexivity]. unfold For, pushed_all. rewrite rev_app_distr. cbn [rev app].
  unfold bind, pop_any, popArity, bind, pop, ret. cbn [e_stk set_stk].
  destruct (Z.eqb_spec (Z.of_nat (length l)) 0); [lia|]. destruct (Z.eqb_spec (Z.of_nat (length l)) 1); [lia|]. destruct (Z.eqb_spec (Z.of_nat (length l)) 3); [lia|]. reflexivity.
Qed.

(** ** C60: && and || *)
Definition logic (and : bool) : nat -> @Q W unit := if and then And ev else Or ev.
Definition right_rule (and : bool) : bytes := if and then n_term3 else n_term4.
Definition m_logic (and : bool) : bytes := if and then m_and else m_or.
(** [and]: true for &&, false for ||.  The left operand decides if it is [not and]: the right one is then not evaluated. *)
Theorem C60_decided : forall and p code s, logic and p (pushed_all [VBool (negb and); code] s) = inl (tt, pushed (VBool (negb and)) s).
Proof. intros [|] p code s; reflexivity. Qed.
(** Otherwise what happens is the evaluation of the right one. *)
Theorem C60_right : forall and p code s o s', ends (logic and p (pushed_all [VBool and; code] s)) o s' <-> code_runs ev p (right_rule and) code s o s'.
Proof. intros [|] p code [m i st r] o s'; rewrite <- evalCode_iff; reflexivity. Qed.
(** A left operand that is no boolean panics. *)
Theorem C60_not_boolean : forall and p a code s, (forall b, a <> VBool b) -> logic and p (pushed_all [a; code] s) = inr (PUser (msg (m_logic and) []), s).
Proof. intros [|] p a code [m i st r] N; destruct a; try reflexivity; exfalso; eapply N; reflexivity. Qed.
(** So the result is a boolean exactly if the left one decides or the right one is one. *)
Theorem C60_value : forall and p a code s s', logic and p (pushed_all [VBool a; code] s) = inl (tt, s') ->
  (a = negb and /\ s' = pushed (VBool a) s) \/ (a = and /\ code_runs ev p (right_rule and) code s None s').
Proof.
  intros and p a code s s' H. destruct (Bool.bool_dec a and) as [->|N].
  - right. split; [reflexivity|]. apply C60_right. exact H.
  - left. assert (a = negb and) as -> by (destruct a, and; try reflexivity; congruence). split; [reflexivity|]. rewrite C60_decided in H. injection H as <-. reflexivity.
Qed.
End Ctrl.

(** ** Examples *)
(** the hypotheses can be met: code whose value is the code itself *)
Definition ev_self (p : nat) (rule : bytes) (code : value) : @Q unit (option panicq) := fun s => inl (None, pushed code s).
Example one_value_self : forall p, one_value ev_self (fun _ _ => True) (fun _ => True) p.
Proof.
  intro p. split; [auto|]. intros rule code s s' _ _ H. split; [exact Logic.I|]. exists code. inversion H; subst. injection H0 as <-. reflexivity.
Qed.
(** the second of three conditions holds *)
Example C58_picks_inst : forall s, picks ev_self 0 if_verdict [(VBool false, VInt 1); (VBool true, VInt 2); (VNil, VInt 3)] s (inl (Some (VInt 2)))
  (drop (leave 0 (drop (leave 0 s (pushed (VBool false) (enter 0 s)))) (pushed (VBool true) (enter 0 (drop (leave 0 s (pushed (VBool false) (enter 0 s)))))))).
Proof. intro s. eapply picks_next; [apply cr_done; reflexivity|reflexivity|]. apply picks_here; [apply cr_done; reflexivity|reflexivity]. Qed.

Local Open Scope string_scope.
(** Programs.  An elif is taken: the conditions after it are not evaluated (panic would panic). *)
Example C58_if_run : leaves "x = 2; n = 0; if x < 2 { n = 1 } elif x < 3 { n = n + 10; 7 } elif panic(1) { n = 3 } else { n = 4 }" ["x"; "n"] =
  (Fine, [VInt 7], [Some (VInt 2); Some (VInt 10)]).
Proof. vm_compute. reflexivity. Qed.
(** without an else the value is nil *)
Example C58_if_none_run : leaves "x = 2; n = 0; if x < 1 { n = 1 } elif x < 2 { n = n + 10; 7 }" ["x"; "n"] = (Fine, [VNil], [Some (VInt 2); Some (VInt 0)]).
Proof. vm_compute. reflexivity. Qed.
Example C58_if_bad_run : leaves "x = 2; n = 0; if x { n = 1 }" ["x"; "n"] = (Panicked (VMsg m_ifcond []), [], [Some (VInt 2); Some (VInt 0)]).
Proof. vm_compute. reflexivity. Qed.
Example C58_switch_run : leaves "x = 2; n = 0; switch x { case 1: n = 1 case 2: n = 2; n = n + 5 case panic(1): n = 3 default: n = 4 }" ["x"; "n"] =
  (Fine, [VInt 7], [Some (VInt 2); Some (VInt 7)]).
Proof. vm_compute. reflexivity. Qed.
Example C58_switch_default_run : leaves "x = 2; n = 0; switch { case x < 1: n = 1 default: n = 4 }" ["x"; "n"] = (Fine, [VInt 4], [Some (VInt 2); Some (VInt 4)]).
Proof. vm_compute. reflexivity. Qed.
Example C59_for_run : leaves "n = 0; 5; for i = 0; i < 4; i++ { n = n + i }" ["i"; "n"] = (Fine, [VNil], [Some (VInt 4); Some (VInt 6)]).
Proof. vm_compute. reflexivity. Qed.
Example C59_while_run : leaves "n = 0; for n < 4 { n += 3 }" ["n"] = (Fine, [VNil], [Some (VInt 6)]).
Proof. vm_compute. reflexivity. Qed.
Example C59_bad_run : leaves "n = 0; for n { }" ["n"] = (Panicked (VMsg m_forcond []), [], [Some (VInt 0)]).
Proof. vm_compute. reflexivity. Qed.
Example C59_form_run : fst (fst (leaves "n = 0; for n = 1; n = 2 { }" ["n"])) = Panicked (VMsg m_forform []).
Proof. vm_compute. reflexivity. Qed.
Example C60_run : leaves "y = 1 < 2 || panic(1); z = 1 > 2 && panic(1)" ["y"; "z"] = (Fine, [VBool false], [Some (VBool true); Some (VBool false)]).
Proof. vm_compute. reflexivity. Qed.
Example C60_bad_run : leaves "1 && panic(1)" [] = (Panicked (VMsg m_and []), [], []).
Proof. vm_compute. reflexivity. Qed.
(** The right operand is not checked: the result need not be a boolean. *)
Theorem C60_boolean_refuted : leaves "x = 1 < 2 && 5; y = 1 > 2 || 6" ["x"; "y"] = (Fine, [VInt 6], [Some (VInt 5); Some (VInt 6)]).
Proof. vm_compute. reflexivity. Qed.

Print Assumptions C58_if.
Print Assumptions C58_switch.
Print Assumptions C58_if_one_value.
Print Assumptions C58_switch_one_value.
Print Assumptions C59_for.
Print Assumptions C59_for_panics.
Print Assumptions C59_stack.
Print Assumptions C59_other_forms.
Print Assumptions C60_decided.
Print Assumptions C60_right.
Print Assumptions C60_not_boolean.
Print Assumptions C60_value.
Print Assumptions C60_boolean_refuted.
Print Assumptions C58_taken.
Print Assumptions C58_none_taken.
