(** Property C76: what running a well-formed program does to the evaluation stack, and that an engine stays usable. *)
From Coq Require Import String SpecFloat.
From Verif Require Import Base Token Scanner Tokenize Grammar Matcher Compiler Interp QValue Qlang QlangSpec QlangTop QEmbed QText QTidy QStep PegRel QEval QSafe QSafeP QSafeE QSafeT QlangEx PropCtrl PropVars PropCall PropText.
From Verif Require PropScan PropClass.
Notation no_class := PropClass.no_class.
Local Open Scope Z_scope.

Section Stack.
Context {W : Type}.
Variable L : qlib W.
Variable IW : W -> Prop.
Hypothesis HL : wf_lib L IW.
Variables isL isD : Z -> bool.
Notation St := (est nat value (@rest W)).
Notation ev := (QlangTop.ev L).

(** Evaluating well-formed code leaves one value more on the stack, or panics on top of the stack that was there; whatever it
    calls, loops over, defers and recovers from on the way. *)
Theorem C76_eval : forall n p rule ts c s, text_is L rule ts c -> wf_state L IW s -> ready p rule s -> safely_ends L IW p s (ev n p rule (VCode ts) s).
Proof. exact (ev_safe L IW HL). Qed.

(** ** What C55, C56, C58 and C59 ask of the code that is evaluated holds of well-formed code *)
(** calls: the body and the deferred expressions of a call keep the stack they find *)
Theorem C55_kept : forall n f args body vars s, wf_body L (f_body f) -> Forall (wf_value L) args -> wf_state L IW s -> f_body f = Some body -> call_vars f args = Some vars ->
  keeps (ev n) f body vars s.
Proof.
  intros n f args body vars s Hf Ha Hs Hb Hv x s1 B. rewrite Hb in Hf. destruct Hf as (c & Hd). set (k := nframes s) in *. set (s0 := invoked f vars s) in *.
  assert (N0 : nframes s0 = S k) by apply nframes_invoked. assert (F0 : getf k s0 = mkFrame vars VNil None (Some (f_parent f)) [] (length (e_stk s))) by apply getf_invoked.
  assert (I0 : wf_state L IW s0). { destruct Hs as (A & B'). split; [|exact B']. cbn. apply Forall_app. split; [exact A|]. constructor; [|constructor]. repeat split; cbn; auto; [|discriminate]. exact (call_vars_wf L _ _ _ Ha Hv). }
  assert (R : ready k n_docr s0). { split; [lia|]. rewrite F0. cbn. auto. }
  pose proof (C76_eval n k n_docr body c s0 (or_intror (or_introl (conj eq_refl Hd))) I0 R) as X.
  assert (Y : wf_state L IW s1 /\ (k < nframes s1)%nat /\ over (e_stk s) s1 /\ (fr_base (getf k s1) <= length (e_stk s1))%nat /\ (forall e, pending x = Some e -> wf_panic L e)).
  { assert (P : forall e, panicked L IW k (e_stk s0) s0 e s1 -> (x = Paniced e \/ pending x = None) -> wf_state L IW s1 /\ (k < nframes s1)%nat /\ over (e_stk s) s1 /\ (fr_base (getf k s1) <= length (e_stk s1))%nat /\ (forall e, pending x = Some e -> wf_panic L e)).
    { intros e (A & B' & C & D & E) Hx. split; [exact A|]. split; [destruct C; lia|]. split; [exact D|]. split; [exact E|]. intros e' H'. destruct Hx as [->|Hx]; [injection H' as <-; exact B'|congruence]. }
    destruct x as [|e| |e|e]; cbn in B; [| |rewrite B in X; exact (P _ X (or_intror eq_refl))|destruct B as (B & _); rewrite B in X; exact (P _ X (or_introl eq_refl))|destruct B as (B & _); rewrite B in X; exact (P _ X (or_intror eq_refl))].
    - rewrite B in X. destruct X as (A & G & v & Wv & E). split; [exact A|]. split; [destruct G; lia|]. split; [exists [v]; exact E|]. split; [|discriminate].
      rewrite (proj2 G k) by (discriminate || lia). rewrite F0, E. cbn. lia.
    - rewrite B in X. destruct X. }
  destruct Y as (I1 & N1 & O1 & B1 & W1). split; [exact N1|]. split; [exact O1|]. intros _ o s2 D. apply run_defers_iff in D.
  set (s1' := updf k (set_recov (pending x)) s1) in *.
  assert (I1' : wf_state L IW s1'). { apply inv_updf; [exact I1|]. intros (A & B' & C & D'). exact (conj A (conj B' (conj W1 D'))). }
  assert (C1 : ctx k (e_stk s1) s1'). { split; [unfold s1'; rewrite nframes_updf; exact N1|]. unfold s1'. rewrite QSafeP.getf_updf. destruct (_ && _)%bool; exact B1. }
  assert (D1 : Forall (wf_deferred L) (fr_defers (getf k s1))) by apply (inv_getf L IW s1 k I1).
  pose proof (safe_run_defers L IW (ev n) (ev_safe L IW HL n) k (e_stk s1) s1' _ D1 C1 s1' (conj I1' (grown_refl _ _)) (ex_intro _ [] eq_refl)) as Z.
  assert (O2 : over (e_stk s1) s2). { destruct o as [e|]; cbn in D; rewrite D in Z; [apply Z|apply (proj2 Z)]. }
  destruct O1 as (l1 & E1), O2 as (l2 & E2). exists (l2 ++ l1). rewrite E2, E1. apply app_assoc.
Qed.
(** so a call that returns leaves the stack as it was *)
Theorem C55_wf_return : forall n f args s v s', wf_body L (f_body f) -> Forall (wf_value L) args -> wf_state L IW s -> FnCall (ev n) f args s = inl (v, s') -> e_stk s' = e_stk s.
Proof. intros n f args s v s' Hf Ha Hs. apply C55_stack_return. intros body vars Hb Hv. exact (C55_kept n f args body vars s Hf Ha Hs Hb Hv). Qed.
(** statements: what if, switch and for evaluate leaves one value *)
Definition well_formed (rule : bytes) (code : value) : Prop := exists ts c, code = VCode ts /\ text_is L rule ts c.
Theorem C58_one_value : forall n p, one_value (ev n) well_formed (fun s => wf_state L IW s /\ (p < nframes s)%nat) p.
Proof.
  intros n p. split; [intros s l H; exact H|]. intros rule code s s' (ts & c & -> & Ht) (Hi & Hp) H. inversion H as [s1 E| |]; subst.
  assert (R : ready p rule (enter p s)).
  { split; [unfold enter; rewrite nframes_updf; exact Hp|]. unfold enter. rewrite QSafeP.getf_updf, Nat.eqb_refl. apply Nat.ltb_lt in Hp. rewrite Hp. cbn. auto. }
  assert (I1 : wf_state L IW (enter p s)). { apply inv_updf; [exact Hi|]. intros (A & B & C & D). exact (conj A (conj B (conj C D))). }
  pose proof (C76_eval n p rule ts c (enter p s) Ht I1 R) as X. rewrite E in X. destruct X as (A & G & v & Wv & S1). split; [|exists v; exact S1].
  split; [|unfold leave; rewrite nframes_updf; destruct G as (G & _); unfold enter in G; rewrite nframes_updf in G; lia]. apply inv_updf; [exact A|]. intros (A' & B & C & D). exact (conj A' (conj B (conj C D))).
Qed.
(** so these statements leave one value, nil after for *)
Theorem C58_wf_if : forall n p br els s s', br <> [] -> branch_code well_formed br -> opt_code well_formed n_docr (else_code els) -> wf_state L IW s -> (p < nframes s)%nat ->
  If (ev n) p (pushed_all (flat br ++ VInt (Z.of_nat (length br) - 1) :: pushed_else els) s) = inl (tt, s') -> exists v, e_stk s' = v :: e_stk s.
Proof. intros n p br els s s' Hb Hc He Hs Hp. exact (C58_if_one_value (ev n) _ _ p br els s s' Hb (C58_one_value n p) Hc He (conj Hs Hp)). Qed.
Theorem C58_wf_switch : forall n p code br dflt s s', opt_code well_formed n_expr code -> branch_code well_formed br -> opt_code well_formed n_docr (else_code dflt) -> wf_state L IW s -> (p < nframes s)%nat ->
  Switch L (ev n) p (pushed_all (code :: flat br ++ VInt (Z.of_nat (length br)) :: pushed_else dflt) s) = inl (tt, s') -> exists v, e_stk s' = v :: e_stk s.
Proof. intros n p code br dflt s s' Hx Hb Hd Hs Hp. exact (C58_switch_one_value L (ev n) _ _ p code br dflt s s' (C58_one_value n p) Hx Hb Hd (conj Hs Hp)). Qed.
Theorem C59_wf_for : forall n k p l init cond step body s s', for_form l init cond step -> Forall (opt_code well_formed n_s) l -> opt_code well_formed n_docr body -> wf_state L IW s -> (p < nframes s)%nat ->
  For (ev n) k p (pushed_all (l ++ [VInt (Z.of_nat (length l)); body]) s) = inl (tt, s') -> e_stk s' = VNil :: e_stk s.
Proof. intros n k p l init cond step body s s' F Hl Hb Hs Hp. exact (C59_stack (ev n) _ _ k p l init cond step body s s' F (C58_one_value n p) Hl Hb (conj Hs Hp)). Qed.

(** ** The engine *)
(** the lowest [n] values of a stack *)
Definition lowest (n : nat) (l : list value) : list value := skipn (length l - n) l.
(** between calls of Exec *)
Definition usable (s : St) : Prop := wf_state L IW s /\ (e_ipt s < nframes s)%nat /\ (fr_base (getf (e_ipt s) s) <= length (e_stk s))%nat.
Definition base (s : St) : nat := fr_base (getf (e_ipt s) s).
(** what Exec may do from [s]: end with one value more, or with one on the values below the base; or panic above the base *)
Definition exec_safe (s : St) (r : (option (panicq + (nat * smsg)) * St) + (panicq * St)) : Prop :=
  match r with
  | inl (None, s') => usable s' /\ e_ipt s' = e_ipt s /\ base s' = base s /\ exists v, wf_value L v /\ (e_stk s' = v :: e_stk s \/ e_stk s' = v :: lowest (base s) (e_stk s))
  | inl (Some _, _) => False
  | inr (e, s') => usable s' /\ e_ipt s' = e_ipt s /\ wf_panic L e /\ over (lowest (base s) (e_stk s)) s'
  end.
Lemma text_tidy : forall ts c n p, doc_is L ts c -> tq (c (ev n) n p).
Proof.
  intros ts c n p H. destruct (text_parses L r_doc ts c (or_intror (or_introl (conj eq_refl H)))) as (g & l & _ & (tr & _ & (D & _))). exact (proj2 (D (ev n) n (tidy_ev L n)) p).
Qed.
Theorem C76_exec : forall n semis old src ts eof c s, Tokenize isL isD false semis (AutoKw q_akw) old src = TzOk ts eof -> doc_is L ts c -> usable s ->
  exec_safe s (Exec L isL isD n semis old src s).
Proof.
  intros n semis old src ts eof c s Ht H (U1 & U2 & U3). unfold exec_safe. destruct (exec_out L isL isD semis old src ts eof c n s Ht H) as [->| ->].
  { split; [split; [exact U1|split; [exact U2|exact U3]]|]. split; [reflexivity|]. split; [exact Logic.I|]. exists (firstn (length (e_stk s) - base s) (e_stk s)). unfold lowest. symmetry. apply firstn_skipn. }
  set (p := e_ipt s) in *. pose proof (text_tidy ts c n p H (set_mute 0 s)) as (_ & T). cbn [e_ipt set_mute] in T.
  set (st := lowest (base s) (e_stk s)). set (l := firstn (length (e_stk s) - base s) (e_stk s)).
  assert (E : e_stk s = l ++ st) by (symmetry; apply firstn_skipn).
  assert (Hb : fr_base (getf p s) = length st). { unfold st, lowest. rewrite skipn_length. fold p in U3. unfold base in *. fold p. lia. }
  destruct (all_safe L IW HL (ev n) (ev_safe L IW HL n) n) as (_ & _ & _ & _ & _ & _ & _ & _ & _ & _ & _ & _ & _ & _ & _ & _ & _ & _ & _ & _ & _ & _ & _ & _ & _ & _ & _ & _ & _ & _ & _ & _ & Hd & _).
  assert (C : ctx p st s) by (split; [exact U2|]; rewrite Hb; apply Nat.le_refl).
  specialize (Hd ts c H p l st s Hb C (set_mute 0 s) (conj U1 (conj (Nat.le_refl _) (fun _ _ _ => eq_refl))) E).
  destruct (c (ev n) n p (set_mute 0 s)) as [(y, s')|(e, s')]; cbn in T, Hd; change (e_ipt s' = p) in T.
  - destruct Hd as ((A & B) & v & Hv & D). assert (Eb : base s' = base s) by (unfold base; rewrite T; apply (proj2 B); [exact U2|discriminate]).
    assert (D' : e_stk s' = v :: e_stk s \/ e_stk s' = v :: st) by (rewrite E; exact D).
    split; [|split; [exact T|split; [exact Eb|eauto]]]. split; [exact A|]. rewrite T. split; [destruct B; lia|]. rewrite (proj2 B p U2) by discriminate. rewrite Hb. destruct D' as [-> | ->]; cbn; [rewrite E, app_length|]; lia.
  - destruct Hd as (A & B & D & E' & F). split; [|auto]. split; [exact A|]. rewrite T. split; [destruct D; lia|exact F].
Qed.

(** ** Sessions *)
(** the states of an engine that has executed well-formed programs, with Exec or SafeExec, however these ended *)
Inductive reached : St -> Prop :=
| Started : forall w, IW w -> reached (q_start w)
| Executed : forall n semis old src ts eof c s x s', reached s -> Tokenize isL isD false semis (AutoKw q_akw) old src = TzOk ts eof -> doc_is L ts c ->
    (Exec L isL isD n semis old src s = inl (x, s') \/ exists e, Exec L isL isD n semis old src s = inr (e, s')) -> reached s'
| Safely : forall n semis old src ts eof c s x s', reached s -> Tokenize isL isD false semis (AutoKw q_akw) old src = TzOk ts eof -> doc_is L ts c ->
    (SafeExec L isL isD n semis old src s = inl (x, s') \/ exists e, SafeExec L isL isD n semis old src s = inr (e, s')) -> reached s'
| VarSet : forall n v s, reached s -> wf_value L v -> reached (SetVar n v s)
| Taken : forall s o s', reached s -> Ret s = inl (o, s') -> reached s'.

Lemma defers_safe : forall n s r, usable s -> e_ipt s = 0%nat -> (forall e, r = Some e -> wf_panic L e) ->
  match ExecDefers (ev n) 0 (updf 0 (set_recov r) s) with inl (_, s') | inr (_, s') => usable s' /\ e_ipt s' = 0%nat end /\
  (forall e s', ExecDefers (ev n) 0 (updf 0 (set_recov r) s) = inr (e, s') -> wf_panic L e).
Proof.
  intros n s r (U1 & U2 & U3) Hp Hr. rewrite Hp in *. set (s1 := updf 0 (set_recov r) s).
  assert (I1 : wf_state L IW s1). { apply inv_updf; [exact U1|]. intros (A & B & C & D). exact (conj A (conj B (conj Hr D))). }
  assert (N1 : nframes s1 = nframes s) by apply nframes_updf.
  assert (B1 : fr_base (getf 0 s1) = fr_base (getf 0 s)). { unfold s1. rewrite getf_updf. destruct (_ && _)%bool; reflexivity. }
  assert (C : ctx 0 (e_stk s1) s1). { split; [rewrite N1; exact U2|]. rewrite B1. exact U3. }
  pose proof (safe_ExecDefers L IW (ev n) (ev_safe L IW HL n) 0 (e_stk s1) s1 C s1 (conj I1 (conj (Nat.le_refl _) (fun _ _ _ => eq_refl))) (ex_intro _ [] eq_refl)) as X.
  pose proof (tq_ExecDefers (ev n) (tidy_ev L n) 0%nat s1) as (_ & T).
  destruct (ExecDefers (ev n) 0 s1) as [(y, s')|(e, s')]; cbn in X, T.
  - split; [|discriminate]. destruct X as ((A & B) & O). rewrite T. split; [|exact Hp]. split; [exact A|]. rewrite T. change (e_ipt s1) with (e_ipt s). rewrite Hp. split; [destruct B; lia|].
    rewrite (proj2 B 0%nat) by (rewrite ?N1; exact U2 || discriminate). rewrite B1. pose proof (over_length _ _ O). change (e_stk s1) with (e_stk s) in *. lia.
  - destruct X as (A & B & D & E & F). split; [|intros e' x [= <- <-]; exact B]. rewrite T. split; [|exact Hp]. split; [exact A|]. rewrite T. change (e_ipt s1) with (e_ipt s). rewrite Hp. split; [destruct D; lia|exact F].
Qed.

Lemma safe_usable : forall n semis old src ts eof c s x s', usable s -> e_ipt s = 0%nat -> Tokenize isL isD false semis (AutoKw q_akw) old src = TzOk ts eof -> doc_is L ts c ->
  (SafeExec L isL isD n semis old src s = inl (x, s') \/ exists e, SafeExec L isL isD n semis old src s = inr (e, s')) -> usable s' /\ e_ipt s' = 0%nat.
Proof.
  intros n semis old src ts eof c s x s' IU IE Ht Hc H.
  pose proof (C76_exec n semis old src ts eof c s Ht Hc IU) as X. unfold SafeExec in H.
    assert (G : exists s1 r, usable s1 /\ e_ipt s1 = 0%nat /\ (forall e, r = Some e -> wf_panic L e) /\ (s' = s1 \/ match ExecDefers (ev n) 0 (updf 0 (set_recov r) s1) with inl (_, s2) | inr (_, s2) => s' = s2 end)).
    { destruct (Exec L isL isD n semis old src s) as [(err, s1)|(e, s1)].
      - destruct err as [x'|]; [destruct X|]. destruct X as (A & B & _). exists s1, None. split; [exact A|]. split; [congruence|]. split; [discriminate|]. right.
        destruct (ExecDefers (ev n) 0 _) as [(y, s2)|(y, s2)].
        + destruct (fr_recov (getf 0 s2)) as [z|]; [destruct (as_error z)|]; destruct H as [H|(e & H)]; congruence.
        + destruct H as [H|(e & H)]; congruence.
      - destruct X as (A & B & D & _). destruct (uncatchable e) eqn:U.
        + exists s1, None. split; [exact A|]. split; [congruence|]. split; [discriminate|]. left. destruct H as [H|(e' & H)]; congruence.
        + exists s1, (Some e). split; [exact A|]. split; [congruence|]. split; [intros z [= <-]; exact D|]. right.
          destruct (ExecDefers (ev n) 0 _) as [(y, s2)|(y, s2)].
          * destruct (fr_recov (getf 0 s2)) as [z|]; [destruct (as_error z)|]; destruct H as [H|(e' & H)]; congruence.
          * destruct H as [H|(e' & H)]; congruence. }
    destruct G as (s1 & r & A & B & D & [-> | E]); [auto|]. destruct (defers_safe n s1 r A B D) as (F & _). destruct (ExecDefers (ev n) 0 _) as [(y, s2)|(y, s2)]; subst; exact F.
Qed.
Lemma setvar_usable : forall n v s, usable s -> e_ipt s = 0%nat -> wf_value L v -> usable (SetVar n v s) /\ e_ipt (SetVar n v s) = 0%nat.
Proof.
  intros n v s (U1 & U2 & U3) E Hv. change (SetVar n v s) with (put 0 n v s). split; [|exact E]. split; [|split].
  - apply inv_updf; [exact U1|]. intros (F1 & F2). split; [cbn; apply wf_set_key; assumption|exact F2].
  - change (e_ipt (put 0 n v s)) with (e_ipt s). rewrite nframes_put. exact U2.
  - change (e_ipt (put 0 n v s)) with (e_ipt s). change (e_stk (put 0 n v s)) with (e_stk s). destruct (put_rest 0 n v s (e_ipt s)) as (_ & _ & _ & _ & ->). exact U3.
Qed.
Lemma ret_usable : forall s o s', usable s -> e_ipt s = 0%nat -> Ret s = inl (o, s') -> usable s' /\ e_ipt s' = 0%nat.
Proof.
  intros s o s' (U1 & U2 & U3) E H. unfold Ret in H. rewrite E in *. destruct (Nat.leb_spec (fr_base (getf 0 s)) (length (e_stk s))); [|discriminate]. injection H as _ <-.
  split; [|exact E]. split; [|split].
  - apply inv_stk. exact U1.
  - cbn. rewrite E. exact U2.
  - cbn. rewrite E. change (getf 0 (set_stk _ s)) with (getf 0 s). rewrite skipn_length. lia.
Qed.
(** Whatever programs an engine has executed and however they ended, and whatever variables were set and values taken in
    between, it can execute the next as [C76_exec] says. *)
Theorem C76_session : forall s, reached s -> usable s /\ e_ipt s = 0%nat.
Proof.
  induction 1 as [w Hw|n semis old src ts eof c s x s' _ (IU & IE) Ht Hc H|n semis old src ts eof c s x s' _ (IU & IE) Ht Hc H|n v s _ (IU & IE) Hv|s o s' _ (IU & IE) H].
  - split; [|reflexivity]. split; [|split; cbn; lia]. split; [constructor; [apply wf_frame0|constructor]|]. split; [constructor|]. split; [constructor|exact Hw].
  - pose proof (C76_exec n semis old src ts eof c s Ht Hc IU) as X. destruct H as [H|(e & H)]; rewrite H in X.
    + destruct x as [x|]; [destruct X|]. destruct X as (A & B & _). split; [exact A|congruence].
    + destruct X as (A & B & _). split; [exact A|congruence].
  - eapply safe_usable; eassumption.
  - apply setvar_usable; assumption.
  - eapply ret_usable; eassumption.
Qed.
End Stack.

(** ** Examples *)
Example L0_wf : wf_lib L0 (fun _ => True).
Proof.
  split; [|repeat split; discriminate]. intros n v. cbn. repeat match goal with |- context [if ?b then _ else _] => destruct b end; intros [= <-]; exact Logic.I.
Qed.
Example start_usable : usable L0 (fun _ => True) (q_start tt).
Proof. exact (proj1 (C76_session L0 (fun _ => True) L0_wf no_class no_class (q_start tt) (Started _ _ _ _ tt Logic.I))). Qed.
(** the program of PropText, which calls a function, and a state that is not the first *)
Notation first_run := (Exec L0 no_class no_class 200 false PropScan.fresh (s2b prog) (q_start tt)).
Example prog_safe : exists s', first_run = inl (None, s') /\ e_stk s' = [VNil] /\ nframes s' = 2%nat /\ reached L0 (fun _ => True) no_class no_class s'.
Proof.
  destruct prog_means as (c & Hc). destruct prog_tokenized as (eof & Ht).
  assert (E : match first_run with inl (None, s') => (e_stk s', nframes s') | _ => ([], O) end = ([VNil], 2%nat)) by (vm_compute; reflexivity).
  destruct (first_run) as [([x|], s')|(x, s')] eqn:X; try discriminate E. exists s'. injection E as E1 E2. split; [reflexivity|]. split; [exact E1|]. split; [exact E2|].
  eapply (Executed _ _ _ _ 200 false PropScan.fresh (s2b prog) prog_toks eof c (q_start tt) None s'); [apply Started; exact Logic.I|exact Ht|exact Hc|left; exact X].
Qed.
(** [C55_kept] for the function this program defines *)
Example prog_call_kept : exists s f body vars, first_run = inl (None, s) /\ var_of 0 (s2b "f") s = Some (VFunc f) /\ f_body f = Some body /\ (0 < length body)%nat /\
  call_vars f [VInt 1; VInt 2] = Some vars /\ keeps (ev L0 200) f body vars s /\ match FnCall (ev L0 200) f [VInt 1; VInt 2] s with inl (v, _) => v = VInt 2 | _ => False end.
Proof.
  destruct prog_safe as (s & E & _ & _ & R). destruct (C76_session L0 (fun _ => True) L0_wf no_class no_class s R) as ((W & _) & _). exists s.
  assert (X : match first_run with inl (None, s) => match var_of 0 (s2b "f") s with Some (VFunc f) => match f_body f, call_vars f [VInt 1; VInt 2] with
    | Some body, Some _ => (negb (length body =? 0)%nat, match FnCall (ev L0 200) f [VInt 1; VInt 2] s with inl (v, _) => v | _ => VNil end) | _, _ => (false, VNil) end | _ => (false, VNil) end | _ => (false, VNil) end = (true, VInt 2))
    by (vm_compute; reflexivity).
  rewrite E in X. destruct (var_of 0 (s2b "f") s) as [v|] eqn:V; [|discriminate X]. destruct v; try discriminate X. destruct (f_body f) as [body|] eqn:B; [|discriminate X]. destruct (call_vars f [VInt 1; VInt 2]) as [vars|] eqn:C; [|discriminate X].
  exists f, body, vars. apply pair_equal_spec in X. destruct X as (X1 & X2). split; [exact E|]. split; [reflexivity|]. split; [exact B|]. split; [destruct body; [discriminate X1|cbn; lia]|]. split; [exact C|].
  split; [|destruct (FnCall _ f _ s) as [(v, s')|]; [exact X2|discriminate X2]].
  assert (Wf : wf_value L0 (VFunc f)) by (exact (inv_var L0 _ s _ _ _ W V)).
  refine (C55_kept L0 (fun _ => True) L0_wf 200 f [VInt 1; VInt 2] body vars s Wf _ W B C). constructor; [exact Logic.I|constructor; [exact Logic.I|constructor]].
Qed.
(** the if statement of this program: its parts are as in [C58_wf_if], and executing it again from that state leaves a value *)
Example prog_if_code : branch_code (well_formed L0) [(VCode (seg 29 5), VCode (seg 35 5))] /\ opt_code (well_formed L0) n_docr (VCode (seg 43 4)).
Proof.
  split.
  - constructor; [|constructor]. split; [|right].
    + eexists (seg 29 5), _. split; [reflexivity|]. left. split; [reflexivity|].
      refine (EX L0 (seg 29 5) _ [] _ (T4 L0 (seg 29 3) _ (seg 32 2) _ (T3 L0 (seg 29 1) _ (seg 30 2) _ _ _) _) (O5_nil L0)).
      * t2_at 29%nat 1%nat. name_at 29%nat.
      * refine (O3_op L0 (tk 30) _ _ (seg 31 1) _ [] _ _ _ (O3_nil L0)); [right; right; left; reflexivity|]. t2_at 31%nat 1%nat. int_at 31%nat.
      * refine (O4_op L0 (tk 32) (seg 33 1) _ [] _ eq_refl _ (O4_nil L0)). t3_at 33%nat 1%nat. name_at 33%nat.
    + eexists (seg 35 5), _. split; [reflexivity|]. right. left. split; [reflexivity|]. refine (D L0 (seg 35 5) _ [] _ _ (R_nil L0)).
      refine (S_assign L0 (tk 35) (tk 36) (seg 37 3) _ eq_refl eq_refl _). expr_at 37%nat 3%nat. refine (F_base L0 (seg 37 3) _ [] _ _ (AT_nil L0)).
      refine (B_slice L0 (tk 37) (seg 38 1) _ _ [] _ (tk 39) eq_refl _ (OT_none _) eq_refl). refine (ES_some L0 (seg 38 1) _ [] _ _ _ (M_nil L0)). expr_at 38%nat 1%nat. int_at 38%nat.
  - right. eexists (seg 43 4), _. split; [reflexivity|]. right. left. split; [reflexivity|]. refine (D L0 (seg 43 3) _ (seg 46 1) _ _ _).
    + refine (S_assign L0 (tk 43) (tk 44) (seg 45 1) _ eq_refl eq_refl _). expr_at 45%nat 1%nat. int_at 45%nat.
    + exact (R_empty L0 (tk 46) [] _ eq_refl (or_introl eq_refl) (R_nil L0)).
Qed.
Example prog_if_again : match first_run with
  | inl (_, s) => match If (ev L0 200) 0 (pushed_all (flat [(VCode (seg 29 5), VCode (seg 35 5))] ++ VInt 0 :: pushed_else (Some (VCode (seg 43 4)))) s) with inl (_, s') => (e_stk s, e_stk s') | _ => ([], []) end
  | _ => ([], []) end = ([VNil], [VNil; VNil]).
Proof. vm_compute. reflexivity. Qed.
(** a panic among the arguments of a call, from that state: the value that was there stays below the function and the first argument *)
Example prog_then_panic : match first_run with
  | inl (_, s) => match Exec L0 no_class no_class 200 false PropScan.fresh (s2b "f(1, nosuch)") s with inr (e, s') => (length (e_stk s'), lowest 1 (e_stk s'), nframes s', panic_value e) | _ => (O, [], O, VNil) end
  | _ => (O, [], O, VNil) end = (3%nat, [VNil], 2%nat, VMsg m_nosym [VStr (s2b "nosuch")]).
Proof. vm_compute. reflexivity. Qed.

(** That every program the engine accepts leaves one value is false: an index of two expressions with nothing between them leaves
    the operands and counts of the first, and what is around it takes these for its own. *)
Definition stray : string := "x = [7]; a = [1,2,3]; a[1 + 2 * x[,]]".
Definition taken : string := "x = [7]; a = [1,2,3]; y = [0, a[1 + 2 * x[,]]]".
Theorem C76_any_program_refuted :
  ~ (forall src s', Exec L0 no_class no_class 200 false PropScan.fresh src (q_start tt) = inl (None, s') -> length (e_stk s') = 1%nat).
Proof.
  intro H. specialize (H (s2b stray)).
  assert (E : match Exec L0 no_class no_class 200 false PropScan.fresh (s2b stray) (q_start tt) with inl (None, s') => length (e_stk s') | _ => O end = 4%nat) by (vm_compute; reflexivity).
  destruct (Exec L0 no_class no_class 200 false PropScan.fresh (s2b stray) (q_start tt)) as [([x|], s')|(e, s')]; try discriminate E. specialize (H s' eq_refl). rewrite E in H. discriminate H.
Qed.
Example stray_leaves : leaves stray [] = (Fine, [VInt 7; VInt 2; VInt 1; VSlice TInt [VInt 1; VInt 2; VInt 3]], []).
Proof. vm_compute. reflexivity. Qed.
Example taken_leaves : leaves taken ["y"%string] = (Fine, [VSlice TInt [VInt 2; VInt 7]; VInt 1; VSlice TInt [VInt 1; VInt 2; VInt 3]; VInt 0], [Some (VSlice TInt [VInt 2; VInt 7])]).
Proof. vm_compute. reflexivity. Qed.

Print Assumptions C55_kept.
Print Assumptions C55_wf_return.
Print Assumptions C58_one_value.
Print Assumptions C58_wf_if.
Print Assumptions C58_wf_switch.
Print Assumptions C59_wf_for.
Print Assumptions C76_eval.
Print Assumptions C76_exec.
Print Assumptions C76_session.
Print Assumptions C76_any_program_refuted.
