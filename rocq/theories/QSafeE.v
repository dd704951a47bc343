(** Proofs for Property C76: what evaluates code, given an evaluator that is safe. *)
From Coq Require Import String SpecFloat.
From Verif Require Import Base Token Grammar Compiler Interp QValue Qlang QlangSpec QlangTop QText QSafe QSafeP.
Local Open Scope Z_scope.

Section SafeE.
Context {W : Type}.
Variable L : qlib W.
Variable IW : W -> Prop.
Hypothesis HL : wf_lib L IW.
Notation St := (est nat value (@rest W)).
Notation Inv := (wf_state L IW).
Notation wfv := (wf_value L).
Notation wfp := (wf_panic L).
Notation wfr := (wf_arg L).
Notation Q := (@Q W).
Notation panicked := (panicked L IW).
Notation safe := (@safe W L IW _).
Notation one := (@one W L).
Notation left_ := (@left_ W L).
Variable ev : nat -> bytes -> value -> Q (option panicq).
Ltac triv := exact Logic.I || reflexivity.
Definition safe_ev : Prop := forall p rule ts c s, text_is L rule ts c -> Inv s -> ready p rule s -> safely_ends L IW p s (ev p rule (VCode ts) s).
Hypothesis Hev : safe_ev.

Lemma good_trans : forall s0 s s', good L IW s0 s -> Inv s' -> grown None s s' -> good L IW s0 s'.
Proof. intros s0 s s' (A & B) C D. split; [exact C|]. eapply grown_trans; eassumption. Qed.
(** evaluating without a new base *)
Lemma safe_eval : forall p st s0 rule ts c, text_is L rule ts c -> rule <> n_docr -> safe p st s0 (ev p rule (VCode ts)) (at_ st) (fun r s => r = None /\ one st tt s).
Proof.
  intros p st s0 rule ts c Ht Hr Hc s Hg Hs. unfold at_ in Hs. destruct Hc as (C1 & C2). pose proof Hg as (G1 & G2).
  assert (R : ready p rule s). { split; [pose proof (proj1 G2); lia|]. split; [|congruence]. rewrite (proj2 G2 p C1) by discriminate. rewrite Hs. exact C2. }
  pose proof (Hev p rule ts c s Ht G1 R) as X. destruct (ev p rule (VCode ts) s) as [([e|], s')|(e, s')]; cbn in *; [destruct X| |].
  - destruct X as (X1 & X2 & v & X3 & X4). split; [exact (good_trans _ _ _ Hg X1 X2)|]. split; [reflexivity|]. exists v. split; [exact X3|]. unfold at_. congruence.
  - destruct X as (X1 & X2 & X3 & X4 & X5). rewrite Hs in X4. refine (conj X1 (conj X2 (conj _ (conj X4 X5)))). eapply grown_trans; [apply grown_weak, G2|exact X3].
Qed.
(** ... with one *)
Lemma safe_evalCode : forall p st s0 rule ts c, text_is L rule ts c -> safe p st s0 (evalCode ev p rule (VCode ts)) (at_ st) (one st).
Proof.
  intros p st s0 rule ts c Ht Hc s Hg Hs. unfold at_ in Hs. destruct Hc as (C1 & C2). pose proof Hg as (G1 & G2). unfold evalCode, bind, depth, gets, modify, ret, throw. cbv beta iota.
  set (s1 := updf p (set_base (length (e_stk s))) s). assert (Pn : (p < nframes s)%nat) by (pose proof (proj1 G2); lia).
  assert (B1 : fr_base (getf p s1) = length (e_stk s)). { unfold s1. rewrite getf_updf, Nat.eqb_refl. destruct (Nat.ltb_spec p (nframes s)); [reflexivity|lia]. }
  assert (I1 : Inv s1) by (apply inv_updf; [exact G1|intro F; exact F]).
  assert (N1 : nframes s1 = nframes s) by apply nframes_updf.
  assert (R : ready p rule s1). { split; [lia|]. change (e_stk s1) with (e_stk s). split; [lia|]. intros _. exact B1. }
  assert (O : forall q, (q < nframes s0)%nat -> q <> p -> fr_base (getf q s1) = fr_base (getf q s0)).
  { intros q Hq Hp. unfold s1. rewrite getf_updf. destruct (Nat.eqb_spec p q); [congruence|]. cbn [andb]. apply G2; [exact Hq|discriminate]. }
  pose proof (Hev p rule ts c s1 Ht I1 R) as X. destruct (ev p rule (VCode ts) s1) as [([e|], s')|(e, s')]; cbn [safely_ends] in *; [destruct X| |].
  - destruct X as (X1 & X2 & v & X3 & X4). cbn. split; [split|].
    + apply inv_updf; [exact X1|intro F; exact F].
    + pose proof (proj1 G2). pose proof (proj1 X2). split; [rewrite nframes_updf; lia|]. intros q Hq _. rewrite getf_updf. destruct (Nat.eqb_spec p q) as [<-|Hp].
      * destruct (Nat.ltb_spec p (nframes s')); [|lia]. cbn. apply G2; [exact Hq|discriminate].
      * cbn [andb]. rewrite (proj2 X2 q) by (discriminate || lia). apply O; auto.
    + exists v. split; [exact X3|]. unfold at_. rewrite <- Hs. exact X4.
  - destruct X as (X1 & X2 & X3 & X4 & X5). change (e_stk s1) with (e_stk s) in X4. rewrite Hs in X4. refine (conj X1 (conj X2 (conj _ (conj X4 X5)))).
    pose proof (proj1 G2). pose proof (proj1 X3). split; [lia|]. intros q Hq Hp. rewrite (proj2 X3 q) by (auto; lia). apply O; congruence.
Qed.
Lemma t_expr : forall ts c, expr_is L ts c -> text_is L n_expr ts c.
Proof. intros. left. auto. Qed.
Lemma t_doc : forall ts c, doc_is L ts c -> text_is L n_docr ts c.
Proof. intros. right. left. auto. Qed.
Lemma t_s : forall ts c, stmt_is L ts c -> text_is L n_s ts c.
Proof. intros. right. right. left. auto. Qed.
Lemma t_term3 : forall ts c, term3_is L ts c -> text_is L n_term3 ts c.
Proof. intros. right. right. right. left. auto. Qed.
Lemma t_term4 : forall ts c, term4_is L ts c -> text_is L n_term4 ts c.
Proof. intros. right. right. right. right. auto. Qed.

(** ** Statements *)
Definition doc_or (b : list token) : Prop := b = [] \/ exists c, doc_is L b c.
Definition branch_ok (e : list token * list token) : Prop := (exists c, expr_is L (fst e) c) /\ doc_or (snd e).
Lemma safe_body : forall p st s0 b, doc_or b -> safe p st s0 (run_body ev p b) (at_ st) (one st).
Proof.
  intros p st s0 b H. unfold run_body. destruct b; [apply safe_push1; triv|]. destruct H as [H|(c & H)]; [discriminate|]. eapply safe_evalCode, t_doc, H.
Qed.
Lemma safe_lazy : forall p st s0 stop rule m ts c k v, stack_msg m = false -> text_is L rule ts c -> safe p st s0 (lazy_op stop rule m ts ev k p) (at_ (v :: st)) (one st).
Proof.
  intros p st s0 stop rule m ts c k v Hm H. unfold lazy_op. eapply safe_bind_eq; [apply safe_pop_any|]. destruct v; try (apply safe_pstr; [exact Hm|apply over_at]).
  destruct (Bool.eqb b stop); [apply safe_push1; triv|]. eapply safe_evalCode, H.
Qed.
Lemma safe_if : forall p st s0 br els, Forall branch_ok br -> doc_or els -> safe p st s0 (if_chain ev p br els) (at_ st) (one st).
Proof.
  intros p st s0 br els H He. induction H as [|(c, b) br ((cc & Hc) & Hb) Hbr IH]; cbn [if_chain]; [apply safe_body, He|].
  eapply safe_bind; [eapply safe_evalCode, t_expr, Hc|]. intro. apply safe_one. intros v Hv. eapply safe_bind_eq; [apply safe_pop_any|].
  destruct v; try (apply safe_throw; [triv|apply over_at]). destruct b0; [apply safe_body, Hb|exact IH].
Qed.
Lemma safe_cases : forall p st s0 v br d, Forall branch_ok br -> doc_or d -> safe p st s0 (cases L ev p v br d) (at_ st) (one st).
Proof.
  intros p st s0 v br d H He. induction H as [|(c, b) br ((cc & Hc) & Hb) Hbr IH]; cbn [cases]; [apply safe_body, He|].
  eapply safe_bind; [eapply safe_evalCode, t_expr, Hc|]. intro. apply safe_one. intros w Hw. eapply safe_bind_eq; [apply safe_pop_any|].
  eapply safe_bind; [apply safe_of_op; [apply ok_EQ|apply over_at]|]. intro e. apply safe_and. intros _. destruct e as [| [] | | | | | | | | | | | | | | | | | | | | | | |]; try exact IH. apply safe_body, Hb.
Qed.
Lemma safe_switch : forall p st s0 x br d, (x = [] \/ exists c, expr_is L x c) -> Forall branch_ok br -> doc_or d -> safe p st s0 (switch_on L ev p x br d) (at_ st) (one st).
Proof.
  intros p st s0 x br d Hx Hbr Hd. unfold switch_on. destruct x as [|t x]; [apply safe_cases; auto|]. destruct Hx as [?|(c & Hx)]; [discriminate|].
  eapply safe_bind; [eapply safe_evalCode, t_expr, Hx|]. intro. apply safe_one. intros v Hv. eapply safe_bind_eq; [apply safe_pop_any|]. apply safe_cases; auto.
Qed.
Definition stmt_or (b : list token) : Prop := b = [] \/ exists c, stmt_is L b c.
Lemma safe_holds : forall p st s0 c, stmt_or c -> safe p st s0 (holds ev p c) (at_ st) (fun _ => at_ st).
Proof.
  intros p st s0 c H. unfold holds. destruct c as [|t c]; [apply safe_ret'; auto|]. destruct H as [?|(cc & H)]; [discriminate|].
  eapply safe_bind; [eapply safe_evalCode, t_s, H|]. intro. apply safe_one. intros v Hv. eapply safe_bind_eq; [apply safe_pop|]. destruct v; try ((apply safe_pstr; [reflexivity|apply over_at])). apply safe_ret'. auto.
Qed.
Lemma safe_drop : forall p st s0 rule c, (c = [] \/ exists cc, text_is L rule c cc) -> safe p st s0 (run_drop ev p rule c) (at_ st) (fun _ => at_ st).
Proof.
  intros p st s0 rule c H. unfold run_drop. destruct c as [|t c]; [apply safe_ret'; auto|]. destruct H as [?|(cc & H)]; [discriminate|].
  eapply safe_bind; [eapply safe_evalCode, H|]. intro. apply safe_one. intros v Hv. eapply safe_bind_eq; [apply safe_pop|]. apply safe_ret'. auto.
Qed.
Lemma safe_rounds : forall p st s0 c b e k, stmt_or c -> doc_or b -> stmt_or e -> safe p st s0 (rounds ev k p c b e) (at_ st) (fun _ => at_ st).
Proof.
  intros p st s0 c b e k Hc Hb He. induction k as [|k IH]; cbn [rounds]; [apply safe_throw; [triv|apply over_at]|].
  eapply safe_bind; [apply safe_holds, Hc|]. intros []; [|apply safe_ret'; auto]. eapply safe_bind; [apply safe_drop|].
  { destruct Hb as [?|(cc & Hb)]; [auto|right; exists cc; apply t_doc, Hb]. }
  intro. eapply safe_bind; [apply safe_drop|intro; exact IH]. destruct He as [?|(cc & He)]; [auto|right; exists cc; apply t_s, He].
Qed.
Lemma pushed_all_good : forall l s0 s st, good L IW s0 s -> at_ st s -> good L IW s0 (pushed_all l s) /\ over st (pushed_all l s).
Proof.
  intros l s0 s st Hg Hs. split; [exact Hg|]. exists (rev l). unfold at_ in Hs. cbn. rewrite Hs. reflexivity.
Qed.
Lemma safe_for : forall p st s0 hs b k, Forall (fun h => exists c, stmt_is L h c) hs -> doc_or b -> safe p st s0 (for_stmt ev k p hs b) (at_ st) (one st).
Proof.
  intros p st s0 hs b k Hh Hb. unfold for_stmt. destruct hs as [|i [|c [|e [|]]]].
  1: eapply safe_bind; [apply safe_rounds; auto; left; reflexivity|intro; apply safe_push1; triv].
  1: inversion_clear Hh. eapply safe_bind; [apply safe_rounds; auto; [right; assumption|left; reflexivity]|intro; apply safe_push1; triv].
  2: { inversion_clear Hh as [|? ? H1 H']. inversion_clear H' as [|? ? H2 H'']. inversion_clear H'' as [|? ? H3 _].
    eapply safe_bind; [apply safe_drop; right; destruct H1 as (cc & H1); exists cc; apply t_s, H1|]. intro. eapply safe_bind; [apply safe_rounds; auto; right; assumption|intro; apply safe_push1; triv]. }
  all: intros Hc s Hg Hs; unfold throw_err, throw; match goal with |- context [pushed_all ?l s] => destruct (pushed_all_good l s0 s st Hg Hs) as (G & O) end; apply bad_intro; auto; triv.
Qed.

(** ** Functions *)
Lemma safe_over : forall {A} p st s0 (m : Q A) R, (forall l, safe p st s0 m (at_ (l ++ st)) R) -> safe p st s0 m (over st) R.
Proof. intros A p st s0 m R H Hc s Hg (l & Hl). exact (H l Hc s Hg Hl). Qed.
Lemma expr_not_doc : n_expr <> n_docr.
Proof. discriminate. Qed.
Lemma safe_run_defers : forall p st s0 l, Forall (wf_deferred L) l -> safe p st s0 (run_defers ev p l) (over st) (fun _ => over st).
Proof.
  intros p st s0 l H. induction H as [|src l (ts & c & -> & Hs) Hl IH]; cbn [run_defers]; [apply safe_ret'; auto|]. apply safe_over. intro l'.
  eapply safe_bind_eq; [apply (safe_up L IW p l'); exact (safe_eval p (l' ++ st) s0 n_expr ts c (t_expr _ _ Hs) expr_not_doc)|].
  eapply safe_conseq; [exact IH| |auto]. intros s (v & _ & Hv). exists (v :: l'). exact Hv.
Qed.
Lemma safe_ExecDefers : forall p st s0, safe p st s0 (ExecDefers ev p) (over st) (fun _ => over st).
Proof.
  intros p st s0. unfold ExecDefers. eapply safe_bind; [apply (safe_read L IW p st s0 _ (Forall (wf_deferred L)))|].
  { intros s H. apply (inv_getf L IW s p H). }
  intro l. apply safe_and. intro Hl. eapply safe_bind; [apply safe_run_defers, Hl|]. intro. apply safe_over. intro l'.
  eapply safe_conseq; [apply safe_updf| |intros ? ? H; eapply at_over, H]; [|reflexivity|intros ? H; exact H]. intros fr (A & B & C & D). exact (conj A (conj B (conj C (Forall_nil _)))).
Qed.
Lemma grown_out : forall (s0 s s' : St) k, grown None s0 s -> grown (Some k) s s' -> (nframes s0 <= k)%nat -> grown None s0 s'.
Proof. intros s0 s s' k (A & B) (C & D) H. split; [lia|]. intros q Hq _. rewrite D; [|lia|intros [= <-]; lia]. apply B; [exact Hq|discriminate]. Qed.
Lemma SetFrame_over : forall st (s : St), over st s -> SetFrame (length st) s = inl (tt, set_stk st s).
Proof.
  intros st s (l & H). unfold SetFrame. rewrite H, app_length. destruct (Nat.leb_spec (length st) (length l + length st)); [|lia].
  replace (length l + length st - length st)%nat with (length l) by lia. rewrite skipn_app, skipn_all, Nat.sub_diag. reflexivity.
Qed.
Definition ended (k : nat) (st : list value) (s : St) (r : @qres W unit) : Prop :=
  match r with
  | inl (_, s') => Inv s' /\ grown (Some k) s s' /\ at_ st s'
  | inr (x, s') => Inv s' /\ wfp x /\ grown (Some k) s s' /\ over st s'
  end.
Lemma call_end_ends : forall k st s e, Inv s -> (k < nframes s)%nat -> (fr_base (getf k s) <= length (e_stk s))%nat -> over st s -> (forall x, e = Some x -> wfp x) ->
  ended k st s (call_end ev k (length st) e s).
Proof.
  intros k st s e Hi Hk Hb (l & Ho) He. unfold call_end, bind at 1, modify. set (s1 := updf k (set_recov e) s).
  assert (I1 : Inv s1). { apply inv_updf; [exact Hi|]. intros (A & B & C & D). exact (conj A (conj B (conj He D))). }
  assert (G1 : grown (Some k) s s1) by (apply grown_updf; left; reflexivity).
  assert (B1 : (fr_base (getf k s1) <= length (e_stk s))%nat). { unfold s1. rewrite getf_updf. destruct (_ && _)%bool; exact Hb. }
  assert (C1 : ctx k (e_stk s) s1). { split; [unfold s1; rewrite nframes_updf; exact Hk|exact B1]. }
  pose proof (safe_ExecDefers k (e_stk s) s1 C1 s1 (conj I1 (grown_refl _ _)) (over_at _ _ eq_refl)) as X. unfold bind at 1. destruct (ExecDefers ev k s1) as [(x, s2)|(x, s2)]; cbn in X.
  - destruct X as ((I2 & G2) & (l2 & O2)). assert (O : over st s2) by (exists (l2 ++ l); rewrite <- app_assoc, <- Ho; exact O2).
    unfold bind at 1. rewrite (SetFrame_over st s2 O). unfold bind, gets. change (getf k (set_stk st s2)) with (getf k s2).
    assert (G : grown (Some k) s (set_stk st s2)) by (eapply grown_trans; [exact G1|]; apply grown_weak, G2).
    destruct (fr_recov (getf k s2)) as [x'|] eqn:E; cbn.
    + split; [exact I2|]. split; [apply (inv_getf L IW s2 k I2), E|]. split; [exact G|]. exists []. reflexivity.
    + split; [exact I2|]. split; [exact G|]. reflexivity.
  - destruct X as (I2 & W2 & G2 & (l2 & O2) & _). cbn. split; [exact I2|]. split; [exact W2|]. split; [eapply grown_trans; [exact G1|exact G2]|]. exists (l2 ++ l). rewrite <- app_assoc, <- Ho. exact O2.
Qed.
Lemma bind_args_wf : forall ns args vars, Forall wfv args -> Forall (fun e => wfv (snd e)) vars -> Forall (fun e : bytes * value => wfv (snd e)) (bind_args ns args vars).
Proof. induction ns as [|n ns IH]; intros [|a args] vars Ha Hv; cbn; auto. inversion_clear Ha. apply IH; auto. apply (wf_set_key wfv); auto. Qed.
Lemma call_vars_wf : forall f args vars, Forall wfv args -> call_vars f args = Some vars -> Forall (fun e => wfv (snd e)) vars.
Proof.
  intros f args vars Ha H. unfold call_vars in H. destruct (f_variadic f); [|injection H as <-; apply bind_args_wf; auto].
  assert (X : forall n k, Forall (fun e => wfv (snd e)) (set_key n (VSlice TAny (skipn k args)) (bind_args (firstn k (f_args f)) (firstn k args) []))).
  { intros n k. apply (wf_set_key wfv); [apply wf_slice, wf_skipn, Ha|]. apply bind_args_wf; [apply wf_firstn, Ha|constructor]. }
  destruct (f_args f); [discriminate|]. injection H as <-. apply X.
Qed.
Lemma call_count_wf : forall f args q, call_count f args = Some q -> wfp (PUser q).
Proof. intros f args q. unfold call_count. destruct (f_variadic f); [destruct (_ <? _)|destruct (_ =? _)]; intros [= <-]; triv. Qed.
Lemma safe_FnCall : forall p st s0 f args, wf_body L (f_body f) -> Forall wfv args -> safe p st s0 (FnCall ev f args) (at_ st) (fun v s => wfv v /\ at_ st s).
Proof.
  intros p st s0 f args Hf Ha. unfold FnCall. destruct (call_count f args) as [q|] eqn:Ec; [apply safe_throw; [exact (call_count_wf _ _ _ Ec)|apply over_at]|].
  destruct (f_body f) as [body|]; [|apply safe_ret'; intros s H; split; [triv|exact H]]. destruct (call_vars f args) as [vars|] eqn:Ev; [|apply safe_crash, over_at].
  intros Hc s Hg Hs. unfold at_ in Hs. destruct Hf as (c & Hd). unfold bind at 1, new_frame. set (k := length (r_frames (e_rest s))). set (s1 := with_frames _ s). unfold bind at 1, gets at 1.
  assert (K : k = nframes s) by reflexivity.
  assert (Fk : getf k s1 = mkFrame vars VNil None (Some (f_parent f)) [] (length (e_stk s))).
  { unfold getf. cbn. fold k. rewrite app_nth2 by apply Nat.le_refl. fold k. rewrite Nat.sub_diag. reflexivity. }
  assert (N1 : nframes s1 = S k) by (unfold nframes; cbn; rewrite app_length; cbn; fold k; lia).
  assert (G1 : grown None s s1). { split; [lia|]. intros q Hq _. unfold getf. cbn. rewrite app_nth1 by exact Hq. reflexivity. }
  assert (I1 : Inv s1). { destruct Hg as ((A & B) & _). split; [|exact B]. cbn. apply Forall_app. split; [exact A|]. constructor; [|constructor]. repeat split; cbn; auto; [|discriminate]. exact (call_vars_wf _ _ _ Ha Ev). }
  assert (S1 : e_stk s1 = st) by exact Hs. assert (Hk : (nframes s0 <= k)%nat) by (destruct Hg as (_ & (A & _)); lia).
  assert (R : ready k n_docr s1). { split; [lia|]. rewrite Fk, S1, <- Hs. cbn. auto. }
  assert (G01 : grown None s0 s1) by (eapply grown_trans; [apply Hg|exact G1]).
  assert (Bd : fr_base (getf k s1) = length st) by (rewrite Fk, <- Hs; reflexivity). rewrite Bd.
  (* after the body, which ended in [s2] *)
  assert (E : forall s2 e (m : Q value), Inv s2 -> grown (Some k) s1 s2 -> over st s2 -> (fr_base (getf k s2) <= length (e_stk s2))%nat -> (forall x, e = Some x -> wfp x) ->
    (forall s3, Inv s3 -> exists v, wfv v /\ m s3 = inl (v, s3)) -> ends L IW p st s0 (fun v s => wfv v /\ at_ st s) ((call_end ev k (length st) e ;;; m) s2)).
  { intros s2 e m I2 G2 O2 B2 He Hm. assert (N2 : (k < nframes s2)%nat) by (destruct G2; lia). pose proof (call_end_ends k st s2 e I2 N2 B2 O2 He) as X.
    unfold bind. destruct (call_end ev k (length st) e s2) as [(y, s3)|(y, s3)]; cbn [ended] in X.
    - destruct X as (I3 & G3 & S3). destruct (Hm s3 I3) as (v & Hv & ->). cbn. split; [|auto]. split; [exact I3|]. eapply grown_out; [exact G01|eapply grown_trans; eassumption|exact Hk].
    - destruct X as (I3 & W3 & G3 & S3). cbn. apply bad_intro; auto. split; [exact I3|]. eapply grown_out; [exact G01|eapply grown_trans; eassumption|exact Hk]. }
  assert (V : forall s3, Inv s3 -> exists v, wfv v /\ gets (fun s => fr_ret (getf k s)) s3 = inl (v, s3)).
  { intros s3 I3. exists (fr_ret (getf k s3)). split; [apply (inv_getf L IW s3 k I3)|reflexivity]. }
  pose proof (Hev k n_docr body c s1 (t_doc _ _ Hd) I1 R) as X. destruct (ev k n_docr (VCode body) s1) as [([e|], s2)|(e, s2)]; cbn [safely_ends] in X; [destruct X| |].
  - destruct X as (I2 & G2 & v & Wv & S2). apply E; auto.
    + apply grown_weak, G2.
    + exists [v]. rewrite S2, S1. reflexivity.
    + rewrite (proj2 G2 k) by (discriminate || lia). rewrite Bd, S2, S1. cbn. lia.
    + discriminate.
  - destruct X as (I2 & W2 & G2 & O2 & B2). rewrite S1 in O2. destruct (uncatchable e).
    + cbn. apply bad_intro; auto. split; [exact I2|]. eapply grown_out; [exact G01|exact G2|exact Hk].
    + apply E; auto. intros x Hx. destruct (is_return e); [discriminate|]. injection Hx as <-. exact W2.
Qed.
(** return, defer, recover, functions, main *)
Lemma wf_set_ret : forall v fr, wfv v -> wf_frame L fr -> wf_frame L (set_ret v fr).
Proof. intros v fr Hv (A & B & C & D). exact (conj A (conj Hv (conj C D))). Qed.
Lemma safe_Return : forall p st s0 vs n, Forall wfv vs -> length vs = n -> (n <= 1)%nat -> safe p st s0 (Return ev p) (at_ (VInt (Z.of_nat n) :: rev vs ++ st)) (one st).
Proof.
  intros p st s0 vs n Hv Hn Ln. unfold Return. eapply safe_bind_eq; [apply safe_popArity|]. eapply (safe_bind L IW p st s0 _ _ _ (fun _ => at_ st)).
  { destruct vs as [|v [|]]; cbn [length] in Hn; subst n; [| |lia]; cbn [rev app Z.of_nat Z.eqb].
    - apply safe_updf; [intros fr; apply wf_set_ret; triv|reflexivity].
    - eapply safe_bind_eq; [apply safe_pop|]. apply safe_updf; [intros fr; apply wf_set_ret; inversion Hv; assumption|reflexivity]. }
  intro. eapply safe_bind; [apply (safe_read L IW p st s0 _ (fun _ => True)); auto|]. intros par. apply safe_and. intros _. destruct par; [apply safe_throw; [triv|apply over_at]|].
  eapply (safe_bind L IW p st s0 _ _ _ (fun _ => over st)); [eapply safe_conseq; [apply safe_ExecDefers|apply over_at|auto]|]. intro. eapply safe_bind; [apply (safe_read L IW p st s0 _ (fun _ => True)); auto|]. intro r. apply safe_and. intros _.
  destruct r; apply safe_throw; triv || auto.
Qed.
Lemma safe_Defer : forall p st s0 q ts c, expr_is L ts c -> safe p st s0 (Defer q) (at_ (VCode ts :: st)) (one st).
Proof.
  intros p st s0 q ts c Ht. unfold Defer. eapply safe_bind_eq; [apply safe_pop|]. eapply safe_bind; [apply safe_updf|intro; apply safe_push1; triv]; [|reflexivity].
  intros fr (A & B & C & D). refine (conj A (conj B (conj C _))). cbn. constructor; [exists ts, c; auto|exact D].
Qed.
Lemma safe_exc : forall p st s0 e, wfp e -> safe p st s0 (exc_value e) (at_ st) (fun v s => wfv v /\ at_ st s).
Proof.
  intros p st s0 e He. unfold exc_value.
  assert (X : safe p st s0 (fun s => let l := r_excs (e_rest s) in inl (VExc (length l), with_excs (l ++ [e]) s)) (at_ st) (fun v s => wfv v /\ at_ st s)).
  { intros Hc s ((A & B & C & D) & G) Hs. cbn. split; [|split; [triv|exact Hs]]. split; [|exact G]. split; [exact A|]. split; [exact B|]. split; [|exact D]. cbn. apply Forall_app. auto. }
  destruct e as [| |x]; try exact X; destruct x; try exact X; try match goal with y : pstr value |- _ => destruct y; try exact X end; apply safe_ret'; auto.
Qed.
Lemma safe_Recover : forall p st s0 q, safe p st s0 (Recover q) (at_ st) (one st).
Proof.
  intros p st s0 q. unfold Recover. eapply safe_bind; [apply (safe_read L IW p st s0 _ (fun _ => True)); auto|]. intros par. apply safe_and. intros _. destruct par as [i|]; [|apply safe_push1; triv].
  eapply safe_bind; [apply (safe_read L IW p st s0 _ (fun r => forall e, r = Some e -> wfp e))|]. { intros s H. apply (inv_getf L IW s i H). }
  intros e. apply safe_and. intro He. eapply safe_bind; [apply safe_updf|]; [|reflexivity|]. { intros fr (A & B & C & D). refine (conj A (conj B (conj _ D))). discriminate. }
  intro. destruct e as [e|]; [|apply safe_push1; triv]. eapply safe_bind; [apply safe_exc; auto|]. intro v. apply safe_and. intro Hv. apply safe_push1, Hv.
Qed.
Lemma code_wf : forall b, doc_or b -> wf_body L (code_of (code b)).
Proof. intros [|t b] H; cbn; [triv|]. destruct H as [?|H]; [discriminate|exact H]. Qed.
Lemma safe_Function : forall p st s0 q b d ns, doc_or b -> safe p st s0 (Function q) (at_ (code b :: VInt d :: VInt (Z.of_nat (length ns)) :: rev (map VStr ns) ++ st)) (left_ st).
Proof.
  intros p st s0 q b d ns Hb. unfold Function. eapply safe_bind_eq; [apply safe_pop|]. eapply safe_bind_eq; [apply safe_popArity|]. eapply safe_bind_eq; [apply safe_popArity|].
  eapply safe_bind_eq; [apply safe_popFn; reflexivity|]. eapply safe_bind; [apply safe_fresh|]. intro i. apply safe_puts_none. apply code_wf, Hb.
Qed.
Lemma safe_MemberFuncDecl : forall p st s0 b d n ns, doc_or b ->
  safe p st s0 (MemberFuncDecl p) (at_ (code b :: VInt d :: VInt (Z.of_nat (length ns)) :: rev (map VStr (n :: ns)) ++ st)) (fun r s => r = None /\ exists v, at_ (v :: st) s /\ exists a b d, v = VFnInfo (n :: a) b d /\ wf_body L b).
Proof.
  intros p st s0 b d n ns Hb. unfold MemberFuncDecl. eapply safe_bind_eq; [apply safe_pop|]. eapply safe_bind_eq; [apply safe_popArity|]. eapply safe_bind_eq; [apply safe_popArity|].
  eapply safe_bind_eq; [apply safe_popFn; cbn [length]; lia|]. eapply safe_bind; [apply safe_push|]. intro. apply safe_ret'. intros s H. split; [reflexivity|]. eexists. split; [exact H|].
  do 3 eexists. split; [reflexivity|]. apply code_wf, Hb.
Qed.
Lemma safe_Main : forall p st s0 q b, doc_or b -> safe p st s0 (Main ev q) (at_ (code b :: st)) (one st).
Proof.
  intros p st s0 q b Hb. unfold Main. eapply safe_bind_eq; [apply safe_pop_any|]. eapply safe_bind; [apply safe_fresh|]. intro i. eapply safe_bind; [apply safe_FnCall; [apply code_wf, Hb|constructor]|].
  intro r. apply safe_and. intros _. destruct r; apply safe_throw; triv || apply over_at.
Qed.

(** ** Calls *)
Notation qval := (rval float value nat value).
Notation qfn := (gofn float value nat value (@rest W)).
Lemma emb_wf : forall v, wfv v -> wfr (emb v).
Proof. intros v H. destruct v; exact H. Qed.
Lemma embs_wf : forall l, Forall wfv l -> Forall wfr (map emb l).
Proof. intros l H. induction H; cbn; constructor; auto. apply emb_wf; auto. Qed.
Lemma unembs_wf : forall l, Forall wfr l -> Forall wfv (map unemb l).
Proof. intros l H. induction H; cbn; constructor; auto. Qed.
Lemma validateType_wf : forall v t v', wfr v -> validateType q_to_float v t = Val (inl v') -> wfr v'.
Proof.
  intros v t v' Hv H. unfold validateType in H. assert (X : wfr (match v with None => Some (mkVal t DNil) | _ => v end)) by (destruct v; [exact Hv|triv]).
  assert (Y : forall (r : mayp (qval + qerr)), r = match v with None => Crash | Some x => if teq (v_type x) t then Val (inl v) else if teq t typeFloat64 then
    match t_kind (v_type x) with KInt | KInt64 | KIntN | KUint | KFloat32 => Val (inl (Some (mkVal typeFloat64 (DFloat (q_to_float x))))) | _ => Val (inr EArgType) end else Val (inr EArgType) end -> r = Val (inl v') -> wfr v').
  { intros r -> E. destruct v as [x|]; [|discriminate]. destruct (teq (v_type x) t); [injection E as <-; exact Hv|]. destruct (teq t typeFloat64); [|discriminate].
    destruct (t_kind (v_type x)); try discriminate; injection E as <-; triv. }
  destruct (t_kind t); try (injection H as <-; exact X); eapply Y; reflexivity || exact H.
Qed.
Lemma validate_wf : forall (l : list (qval * rtype)) vs, Forall (fun e => wfr (fst e)) l -> validate q_to_float l = Val (inl vs) -> Forall wfr vs.
Proof.
  intros l vs H. revert vs. induction H as [|(v, t) l Hv Hl IH]; intros vs; cbn; [intros [= <-]; constructor|]. destruct (validateType q_to_float v t) as [[v'|]|] eqn:E; try discriminate.
  destruct (validate q_to_float l) as [[us|]|]; try discriminate. intros [= <-]. constructor; [exact (validateType_wf _ _ _ Hv E)|auto].
Qed.
Lemma combine_wf : forall (l : list qval) (ts : list rtype), Forall wfr l -> Forall (fun e => wfr (fst e)) (combine l ts).
Proof. intros l ts H. revert ts. induction H; intros [|t ts]; cbn; constructor; auto. Qed.
Lemma validateArgs_wf : forall ins vd args vs, Forall wfr args -> validateArgs q_to_float ins vd args = Val (inl vs) -> Forall wfr vs.
Proof.
  intros ins vd args vs H. unfold validateArgs. destruct vd; [|apply validate_wf, combine_wf, H].
  destruct (validate q_to_float (map _ _)) as [[us|]|] eqn:E1; try discriminate. destruct (validate q_to_float (combine _ _)) as [[ws|]|] eqn:E2; try discriminate. intros [= <-]. apply Forall_app. split.
  - eapply validate_wf; [|exact E2]. apply combine_wf, wf_firstn, H.
  - eapply validate_wf; [|exact E1]. apply Forall_map. cbn. apply wf_skipn, H.
Qed.
Lemma castVal_wf : forall i v, wfv v -> wfv (castVal i v).
Proof. intros i v H. unfold castVal. repeat match goal with |- context [if ?b then _ else _] => destruct b end; auto; destruct v; auto; triv. Qed.
Lemma pushret_wf : forall outs stk, Forall wfr outs -> exists v, q_pushret outs stk = (v :: stk, None) /\ wfv v.
Proof.
  intros outs stk H. eexists. split; [reflexivity|]. destruct H as [|o outs Ho Hos]; [triv|]. destruct Hos as [|o2 outs Ho2 Hos]; [apply castVal_wf, Ho|].
  apply wf_slice. cbn. constructor; [apply castVal_wf, Ho|]. constructor; [apply castVal_wf, Ho2|]. induction Hos; cbn; constructor; auto. apply castVal_wf; auto.
Qed.
Definition fn_safe (fn : qfn) : Prop := forall args, Forall wfr args -> forall p st s0, safe p st s0 (fn_call fn args) (at_ st) (fun outs s => Forall wfr outs /\ at_ st s).
Lemma safe_apply : forall p st s0 fn args, fn_safe fn -> Forall wfr args -> safe p st s0 (lift_call (apply_fn q_pushret fn args)) (at_ st) (left_ st).
Proof.
  intros p st s0 fn args Hf Ha Hc s Hg Hs. unfold lift_call, apply_fn. specialize (Hf args Ha p st s0 Hc s Hg Hs). destruct (fn_call fn args s) as [(outs, s')|(e, s')]; cbn in Hf; [|exact Hf].
  destruct Hf as (G & Ho & S'). destruct (pushret_wf outs (e_stk s') Ho) as (v & -> & Hv). cbn. split; [exact G|]. exists v. split; [exact Hv|]. unfold at_ in *. cbn. congruence.
Qed.
Lemma PopArgs_exact : forall (xs st : list value) a, a = Z.of_nat (length xs) -> PopArgs emb a (rev xs ++ st) = Val (Some (map emb xs, st)).
Proof.
  intros xs st a ->. unfold PopArgs. rewrite app_length, rev_length. destruct (_ <=? _) eqn:E; [|apply Z.leb_gt in E; lia]. destruct (_ <? 0) eqn:E2; [apply Z.ltb_lt in E2; lia|].
  rewrite Nat2Z.id, firstn_rev_app, skipn_rev_app, map_rev, rev_involutive. reflexivity.
Qed.
Lemma validate_err : forall (l : list (qval * rtype)) e, validate q_to_float l = Val (inr e) -> e = EArgType.
Proof.
  induction l as [|(v, t) l IH]; intros e; cbn; [discriminate|]. destruct (validateType q_to_float v t) as [[v'|x]|] eqn:E; try discriminate.
  - destruct (validate q_to_float l) as [[us|]|]; try discriminate. exact (IH e).
  - intros [= <-]. unfold validateType in E. destruct (t_kind t), v as [y|]; try discriminate; repeat match type of E with context [if ?b then _ else _] => destruct b end; try discriminate; try (injection E as <-; reflexivity);
      destruct (t_kind (v_type y)); try discriminate; injection E as <-; reflexivity.
Qed.
Lemma validateArgs_err : forall ins vd (args : list qval) e, validateArgs q_to_float ins vd args = Val (inr e) -> e = EArgType.
Proof.
  intros ins vd args e. unfold validateArgs. destruct vd; [|apply validate_err]. destruct (validate q_to_float (map _ _)) as [[vs|x]|] eqn:E; try discriminate; [|intros [= <-]; exact (validate_err _ _ E)].
  destruct (validate q_to_float (combine _ _)) as [[us|]|] eqn:E2; try discriminate. intros [= <-]. exact (validate_err _ _ E2).
Qed.
Lemma safe_validated : forall p st s0 fn args, fn_safe fn -> Forall wfr args ->
  safe p st s0 (fun s => lift_call (fun s1 => match validateArgs q_to_float (fn_in fn) (fn_variadic fn) args with Crash => inr (runtime, s1) | Val (inr e) => inl (Some e, s1) | Val (inl args') => apply_fn q_pushret fn args' s1 end) s)
    (at_ st) (left_ st).
Proof.
  intros p st s0 fn args Hf Ha. destruct (validateArgs q_to_float (fn_in fn) (fn_variadic fn) args) as [[as'|e]|] eqn:E.
  - apply (safe_apply p st s0 fn as' Hf). exact (validateArgs_wf _ _ _ _ Ha E).
  - apply validateArgs_err in E. subst e. intros Hc s Hg Hs. cbn. split; [exact Hg|]. split; [exact Logic.I|apply over_at, Hs].
  - intros Hc s Hg Hs. cbn. apply bad_intro; auto; [apply over_at, Hs|triv].
Qed.
Lemma safe_Call : forall p st s0 fn xs a, fn_safe fn -> Forall wfv xs -> a = Z.of_nat (length xs) -> fn_variadic fn = true -> length (fn_in fn) = 1%nat ->
  safe p st s0 (lift_call (Interp.Call emb q_pushret q_to_float fn a)) (at_ (rev xs ++ st)) (left_ st).
Proof.
  intros p st s0 fn xs a Hf Hx Ha Hv Hi Hc s Hg Hs. unfold lift_call, Interp.Call, count_err. rewrite Hv, Hi. destruct (a <? _) eqn:E; [apply Z.ltb_lt in E; lia|]. unfold DoCall, at_ in *. rewrite Hs.
  destruct (0 <? a) eqn:E2.
  - rewrite (PopArgs_exact xs st a Ha). rewrite <- Hv. exact (safe_validated p st s0 fn (map emb xs) Hf (embs_wf _ Hx) Hc (set_stk st s) Hg eq_refl).
  - destruct xs as [|x xs]; [|apply Z.ltb_ge in E2; cbn in Ha; lia]. exact (safe_apply p st s0 fn [] Hf (Forall_nil _) Hc s Hg Hs).
Qed.
Lemma run_safe : forall {A} (m : Q A) (out : A -> list qval) p st s0 P (R : A -> St -> Prop), safe p st s0 m P R -> (forall x s, R x s -> Forall wfr (out x) /\ at_ st s) ->
  safe p st s0 (Qlang.run m out) P (fun outs s => Forall wfr outs /\ at_ st s).
Proof. intros A m out p st s0 P R H HR Hc s Hg HP. unfold Qlang.run. specialize (H Hc s Hg HP). destruct (m s) as [(x, s')|(e, s')]; cbn in *; [|exact H]. destruct H as (G & HR'). split; [exact G|auto]. Qed.
Lemma any_out_wf : forall v, wfv v -> Forall wfr (any_out v).
Proof. intros v H. constructor; [|constructor]. destruct v; exact H. Qed.
Lemma variadic_safe : forall f, (forall args, Forall wfv args -> forall p st s0, safe p st s0 (f args) (at_ st) (fun v s => wfv v /\ at_ st s)) -> fn_safe (variadic_fn f).
Proof.
  intros f H args Ha p st s0. cbn. eapply run_safe; [apply H, unembs_wf, Ha|]. cbn. intros v s (Hv & Hs). split; [apply any_out_wf, Hv|exact Hs].
Qed.
Lemma SliceFrom_wf : forall l, Forall wfv l -> wfv (SliceFrom l).
Proof.
  intros l H. destruct l as [|v l]; [triv|]. cbv beta iota zeta delta [SliceFrom]. set (l' := v :: l) in *. clearbody l'. destruct (_ =? kInt); [apply wf_slice, H|]. destruct (_ =? kFloat64); [|destruct (_ =? kString); apply wf_slice, H].
  apply wf_slice. induction H as [|x l'' Hx Hl IH]; cbn; constructor; auto. destruct (asFloat x); [triv|exact Hx].
Qed.
Lemma safe_VSliceLit : forall p st s0 xs n, Forall wfv xs -> length xs = n -> safe p st s0 VSliceLit (at_ (VInt (Z.of_nat n) :: rev xs ++ st)) (left_ st).
Proof.
  intros p st s0 xs n Hx <-. unfold VSliceLit. eapply safe_bind_eq; [apply safe_popArity|]. apply safe_Call; auto. apply variadic_safe. intros args Ha p' st' s0'. apply safe_ret'. intros s H. split; [apply SliceFrom_wf, Ha|exact H].
Qed.
Lemma safe_VMap : forall p st s0 xs n, Forall wfv xs -> length xs = (2 * n)%nat -> safe p st s0 (VMap L) (at_ (VInt (Z.of_nat n) :: rev xs ++ st)) (left_ st).
Proof.
  intros p st s0 xs n Hx Hn. unfold VMap. eapply safe_bind_eq; [apply safe_popArity|]. apply safe_Call; auto; [|lia]. apply variadic_safe. intros args Ha p' st' s0'.
  apply (safe_lib L IW p' st' s0' _ wfv []). intros w Hw. apply (proj1 (proj2 (proj2 (proj2 HL))) args w Ha Hw).
Qed.
Lemma safe_SetMembers : forall p st s0 o c args, Forall wfv args -> safe p st s0 (SetMembers o c args) (at_ st) (fun _ => at_ st).
Proof.
  intros p st s0 o c. fix IH 1. intros [|n [|v args]] H; cbn [SetMembers]; [apply safe_ret'; auto| |].
  - destruct n; apply safe_crash, over_at.
  - assert (Hv : wfv v) by (inversion H as [|? ? _ H']; inversion H'; assumption). assert (Ha : Forall wfv args) by (inversion H as [|? ? _ H']; inversion H'; assumption).
    destruct n; try (apply safe_crash, over_at). eapply (safe_bind L IW p st s0 _ _ _ (fun _ => at_ st)); [|intro; apply IH, Ha]. unfold SetVar. destruct (find b (c_fns c)); [(apply safe_pstr; [reflexivity|apply over_at])|].
    apply safe_modify. intros s ((A & B & C & D) & G) Hs. split; [|exact Hs]. split; [|exact G]. split; [exact A|]. split; [|split; [exact C|exact D]]. cbn.
    apply (wf_set_nth (Forall (fun e => wfv (snd e)))); [|exact B]. apply (wf_set_key wfv); [exact Hv|]. apply (wf_nth (Forall (fun e => wfv (snd e)))); [constructor|exact B].
Qed.
Lemma safe_throw_value : forall p st s0 v R, wfv v -> safe p st s0 (throw_value v) (at_ st) R.
Proof.
  intros p st s0 v R Hv Hc s Hg Hs. unfold throw_value. assert (X : forall e, wfp e -> ends L IW p st s0 R (inr (e, s))) by (intros e He; apply bad_intro; auto; apply over_at, Hs).
  destruct v; apply X; try exact Hv; try triv. apply wf_nth; [triv|]. apply Hg.
Qed.
Lemma hd_wf : forall (args : list qval), Forall wfr args -> wfr (hd None args).
Proof. intros args H. destruct H; [triv|assumption]. Qed.
Lemma safe_golib : forall n f args p st s0, l_golib L n = Some f -> Forall wfr args -> safe p st s0 (libcall (lf_call f args)) (at_ st) (fun outs s => Forall wfr outs /\ at_ st s).
Proof. intros n f args p st s0 E Ha. apply (safe_lib L IW p st s0 _ (Forall wfr) []). intros w Hw. exact (proj1 (proj2 HL) n f args w E Ha Hw). Qed.
Lemma safe_Set : forall p st s0 args, Forall wfr args -> safe p st s0 (Set_ L args) (at_ st) (fun outs s => Forall wfr outs /\ at_ st s).
Proof.
  intros p st s0 args Ha. unfold Set_. destruct (Nat.odd _); [(apply safe_pstr; [reflexivity|apply over_at])|].
  assert (X : forall v, safe p st s0 (match l_golib L n_set with Some l => libcall (lf_call l args) | None => panic_str m_noset [v] end) (at_ st) (fun outs s => Forall wfr outs /\ at_ st s)).
  { intro v. destruct (l_golib L n_set) eqn:E; [eapply safe_golib; eassumption|(apply safe_pstr; [reflexivity|apply over_at])]. }
  destruct (unemb (hd None args)); try apply X. eapply safe_bind; [apply safe_SetMembers|intro; apply safe_ret'; intros s H; split; [constructor|exact H]].
  apply unembs_wf in Ha. destruct args; cbn; [constructor|]. inversion Ha; assumption.
Qed.
Lemma as_fn_safe : forall r fn, wfr r -> as_fn L ev r = Some fn -> fn_safe fn.
Proof.
  intros r fn Hr H. unfold as_fn in H. unfold wf_arg in Hr. destruct (unemb r) as [| | | | | | | | | |f| | |i o c f| |q| |n|d| | | | | |]; try discriminate.
  - injection H as <-. apply variadic_safe. intros args Ha p st s0. apply safe_FnCall; [exact Hr|exact Ha].
  - injection H as <-. apply variadic_safe. intros args Ha p st s0. destruct Hr as (Hc & Hf). apply safe_FnCall; [exact Hf|]. constructor; [exact Hc|exact Ha].
  - injection H as <-. intros args Ha p st s0. cbn. eapply run_safe; [apply safe_unset|]. intros x s Hs. split; [constructor|exact Hs].
  - destruct (beq n n_panic). { injection H as <-. intros args Ha p st s0. cbn. eapply (run_safe _ _ p st s0 _ (fun _ => at_ st)); [apply safe_throw_value, hd_wf, Ha|]. intros x s Hs. split; [constructor|exact Hs]. }
    destruct (beq n n_set). { injection H as <-. intros args Ha p st s0. cbn. eapply run_safe; [apply safe_Set, Ha|]. auto. }
    destruct (l_golib L n) as [l|] eqn:E; [|discriminate]. injection H as <-. intros args Ha p st s0. cbn. eapply run_safe; [eapply safe_golib; eassumption|]. auto.
  - assert (X : forall ins outs, fn_safe (mkFn true ins false outs (fun _ s => inr (PUser (msg (s2b "function not implemented") []), s)))).
    { intros ins outs args Ha p st s0 Hc s Hg Hs. apply bad_intro; [exact Hc|exact Hg|apply over_at, Hs|triv]. }
    destruct d as [|[|[|]]]; try discriminate; injection H as <-; apply X.
Qed.
Lemma safe_VCall : forall p st s0 f xs a, wfv f -> Forall wfv xs -> a = Z.of_nat (length xs) ->
  safe p st s0 (lift_call (Interp.VCall emb q_pushret q_to_float (as_fn L ev) a)) (at_ (rev xs ++ f :: st)) (left_ st).
Proof.
  intros p st s0 f xs a Hf Hx Ha Hc s Hg Hs. unfold lift_call, Interp.VCall, at_ in *. rewrite Hs. replace (rev xs ++ f :: st) with (rev (f :: xs) ++ st) by (cbn [rev]; rewrite <- app_assoc; reflexivity).
  rewrite (PopArgs_exact (f :: xs) st (a + 1)) by (cbn [length]; lia). cbn [map].
  assert (Y : ends L IW p st s0 (left_ st) (inr (runtime, set_stk st s))) by (apply bad_intro; auto; [apply over_at; reflexivity|triv]).
  assert (Z : forall e, wf_err L e -> ends L IW p st s0 (left_ st) (inl (Some e, set_stk st s))) by (intros e He; split; [exact Hg|]; split; [exact He|apply over_at; reflexivity]).
  destruct (as_fn L ev (emb f)) as [fn|] eqn:E; [|exact Y]. destruct (count_err fn a) as [e|] eqn:Ee.
  { apply Z. unfold count_err in Ee. destruct (fn_variadic fn); [destruct (_ <? _)|destruct (_ =? _)]; try discriminate; injection Ee as <-; exact Logic.I. }
  exact (safe_validated p st s0 fn (map emb xs) (as_fn_safe _ _ (emb_wf _ Hf) E) (embs_wf _ Hx) Hc (set_stk st s) Hg eq_refl).
Qed.
Lemma safe_push_all : forall l p st s0 st', safe p st s0 (push_all l) (at_ st') (fun _ => at_ (rev l ++ st')).
Proof.
  induction l as [|v l IH]; intros p st s0 st'; cbn [push_all]; [apply safe_ret'; auto|]. eapply safe_bind; [apply safe_push|]. intro. cbn [rev]. rewrite <- app_assoc. apply IH.
Qed.
Lemma safe_QVCall : forall p st s0 f xs n d, wfv f -> Forall wfv xs -> length xs = n -> safe p st s0 (QVCall L ev) (at_ (VInt (Z.of_nat d) :: VInt (Z.of_nat n) :: rev xs ++ f :: st)) (left_ st).
Proof.
  intros p st s0 f xs n d Hf Hx <-. unfold QVCall. eapply safe_bind_eq; [apply safe_popArity|]. eapply safe_bind_eq; [apply safe_popArity|]. cbn beta.
  eapply (safe_bind L IW p st s0 _ _ _ (fun a s => exists ys, (Forall wfv ys /\ a = Z.of_nat (length ys)) /\ at_ (rev ys ++ f :: st) s)).
  - destruct (_ =? 0). { apply safe_ret'. intros s H. exists xs. auto. }
    destruct (Z.of_nat (length xs) =? 0) eqn:E0. { apply safe_pstr; [reflexivity|]. intros s H. exists (rev xs ++ [f]). rewrite <- app_assoc. exact H. }
    destruct xs as [|x xs] using rev_ind; [discriminate|]. clear IHxs. apply Forall_app in Hx. destruct Hx as (Hx & Hl). inversion_clear Hl as [|? ? Hl' _].
    rewrite rev_app_distr. cbn [rev app]. eapply safe_bind_eq; [apply safe_pop|]. cbn beta iota.
    destruct (elems_of x) as [l|] eqn:E. 2: { apply safe_pstr; [reflexivity|]. intros s H. exists (rev xs ++ [f]). rewrite <- app_assoc. exact H. }
    eapply safe_bind; [apply safe_push_all|]. intro. apply safe_ret'. intros s H. exists (xs ++ l). split; [split|].
    + apply Forall_app. split; [exact Hx|exact (elems_wf L _ _ Hl' E)].
    + rewrite !app_length. cbn [length]. lia.
    + rewrite rev_app_distr, <- app_assoc. exact H.
  - intro a. apply safe_ex. intro ys. apply safe_and. intros (Hy & ->). apply safe_VCall; auto.
Qed.

(** ** Classes *)
Definition method_ok (v : value) : Prop := exists n a b d, v = VFnInfo (n :: a) b d /\ wf_body L b.
Lemma safe_class_fns : forall p st s0 q l fns, Forall method_ok l -> Forall (fun e => wf_body L (f_body (snd e))) fns ->
  safe p st s0 (class_fns q l fns) (at_ st) (fun r s => Forall (fun e => wf_body L (f_body (snd e))) r /\ at_ st s).
Proof.
  intros p st s0 q l fns H. revert fns. induction H as [|v l (n & a & b & d & -> & Hb) Hl IH]; intros fns Hf; cbn [class_fns]; [apply safe_ret'; auto|].
  eapply safe_bind; [apply safe_fresh|]. intro i. apply IH. apply (wf_set_key (fun f => wf_body L (f_body f))); auto.
Qed.
Lemma safe_Class : forall p st s0 q l n, Forall method_ok l -> length l = n -> safe p st s0 (Class q) (at_ (VInt (Z.of_nat n) :: rev l ++ st)) (one st).
Proof.
  intros p st s0 q l n Hl <-. unfold Class. eapply safe_bind_eq; [apply safe_popArity|]. eapply safe_bind_eq; [apply safe_popN; reflexivity|]. eapply safe_bind; [apply safe_fresh|]. intro i.
  eapply safe_bind; [apply safe_class_fns; [exact Hl|constructor]|]. intro fns. apply safe_and. intro Hf. apply safe_push1. exact Hf.
Qed.
(** what the arguments of new leave *)
Definition new_args (x st : list value) : Prop := x = VInt 0 :: st \/ exists vs, Forall wfv vs /\ x = VInt 1 :: VInt (Z.of_nat (length vs)) :: rev vs ++ st.
Lemma safe_New : forall p st s0 q c x, wfv c -> new_args x (c :: st) -> safe p st s0 (New ev q) (at_ x) (left_ st).
Proof.
  intros p st s0 q c x Hc Hx. unfold New. eapply (safe_bind L IW p st s0 _ _ _ (fun h s => ((h = 0 /\ x = VInt 0 :: c :: st) \/ (h = 1 /\ exists vs, Forall wfv vs /\ x = VInt 1 :: VInt (Z.of_nat (length vs)) :: rev vs ++ c :: st)) /\ at_ (tl x) s)).
  { destruct Hx as [->|(vs & Hv & ->)]; (eapply safe_conseq; [apply safe_popArity|intros s H; exact H|]); intros h s (-> & H); split; eauto 8. }
  intro h. apply safe_and. intros H. eapply (safe_bind L IW p st s0 _ _ _ (fun args s => Forall wfv args /\ at_ (c :: st) s)).
  { destruct H as [(-> & ->)|(-> & vs & Hv & ->)]; cbn [Z.eqb tl]; [apply safe_ret'; auto|]. eapply safe_bind_eq; [apply safe_popArity|]. eapply safe_conseq; [apply safe_popN; reflexivity|intros s H; exact H|].
    intros args s (-> & H). auto. }
  intro args. apply safe_and. intro Ha. eapply safe_bind_eq; [apply safe_pop|]. cbn beta iota. destruct c; try (apply safe_err; [triv|apply over_at]).
  eapply (safe_bind L IW p st s0 _ _ _ (fun _ => at_ st)). { intros Hx0 s ((A & B & C & D) & G) Hs. cbn. split; [|exact Hs]. split; [|exact G]. split; [exact A|]. split; [|split; [exact C|exact D]]. cbn. apply Forall_app. split; [exact B|constructor; constructor]. }
  intro i. eapply (safe_bind L IW p st s0 _ _ _ (fun _ => at_ st)).
  { destruct (find n_init (c_fns c)) as [f|] eqn:E; [|apply safe_ret'; auto]. eapply safe_bind; [apply safe_FnCall; [exact (wf_find (fun f => wf_body L (f_body f)) _ _ _ Hc E)|constructor; [exact Hc|exact Ha]]|].
    intro v. apply safe_and. intros _. apply safe_ret'. auto. }
  intro. apply safe_puts_none. exact Hc.
Qed.
End SafeE.
