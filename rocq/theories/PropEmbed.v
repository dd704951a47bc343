(** Property C91: a Go program that sets and reads variables of an engine and has texts evaluated sees what a map of variables
    would show. *)
From Coq Require Import String SpecFloat.
From Verif Require Import Base Token Scanner Tokenize Grammar Matcher Compiler Interp QValue Qlang QlangSpec QlangTop QText QTidy QStep PegRel QEval QSafe QSafeP QlangEx PropVars PropCall QExpr QExprP QEmbed PropText PropStack.
From Verif Require PropScan PropClass.
Notation no_class := PropClass.no_class.
Local Open Scope list_scope.
Local Open Scope Z_scope.

Section Embed.
Context {W : Type}.
Variable L : qlib W.
Notation St := (est nat value (@rest W)).

(** ** Variables of the outermost frame *)
Lemma var_defines : forall n (s : St) v, coherent s -> parent 0 s = None -> (Var n s = Some v <-> defines s n 0 v).
Proof.
  intros n s v (_ & C2) P. change (Var n s) with (var_of 0 n s). split; [|intros (H & _); exact H]. intro H. split; [exact H|]. intros q ->.
  destruct (C2 _ _ _ H) as (u & S). inversion S; subst; [|congruence]. destruct H0 as (D & Pu). rewrite H in D. injection D as <-. exact (Pu _ eq_refl).
Qed.
Lemma no_entry : forall n (s : St), coherent s -> parent 0 s = None -> (exists u, defines s n 0 u) \/ (var_of 0 n s = None /\ forall r u, ~ sees s n 0 r u).
Proof.
  intros n s C P. destruct (Var n s) as [u|] eqn:V.
  - left. exists u. apply var_defines; assumption.
  - right. split; [exact V|]. intros r u S. inversion S; subst; [|congruence]. apply var_defines in H; [congruence|exact C|exact P].
Qed.
(** Var reads what a program sees outside any function; *)
Theorem C91_var : forall n (s : St), coherent s -> parent 0 s = None ->
  (forall v, Var n s = Some v <-> sees s n 0 0 v) /\ (Var n s = None <-> forall q v, ~ sees s n 0 q v).
Proof.
  intros n s C P. assert (K : forall v, Var n s = Some v <-> sees s n 0 0 v).
  { intro v. rewrite var_defines by assumption. split; [apply sees_own|]. intro S. inversion S; subst; [assumption|congruence]. }
  split; [exact K|]. split.
  - intros V q v S. inversion S; subst; [|congruence]. apply var_defines in H; [congruence|exact C|exact P].
  - intro N. destruct (Var n s) as [v|] eqn:V; [|reflexivity]. exfalso. eapply N. apply K. reflexivity.
Qed.
(** and SetVar changes that and nothing else; functions that have read the variable see the new value too. *)
Theorem C91_set : forall n v (s : St), coherent s -> parent 0 s = None -> (0 < nframes s)%nat -> plain v ->
  wrote 0 n v (e_stk s) s (SetVar n v s) /\ coherent (SetVar n v s) /\
  (forall i u, sees s n i 0 u -> sees (SetVar n v s) n i 0 v).
Proof.
  intros n v s C P F Pv. change (SetVar n v s) with (put 0 n v s). pose proof (wrote_put 0 n v (e_stk s) s F Pv) as A.
  replace (set_stk (e_stk s) (put 0 n v s)) with (put 0 n v s) in A by reflexivity.
  split; [exact A|]. split; [apply coherent_write; [exact F|exact Pv|exact C|apply no_entry; assumption]|].
  intros i u S. assert (G : forall i q u, sees s n i q u -> q = 0%nat -> sees (put 0 n v s) n i 0 v); [|exact (G i _ u S eq_refl)]. clear i u S. intros i q u S. induction S as [i u D|i j q u N Pn E S IH]; intro Q; subst.
  - apply sees_own. apply defines_put; [exact F|exact Pv|]. rewrite beq_refl. reflexivity.
  - eapply sees_up; [|exact Pn|rewrite parent_put; exact E|exact (IH eq_refl)]. intros u' X. apply defines_put in X; [|exact F|exact Pv]. destruct (Nat.eqb_spec i 0) as [->|].
    + unfold parent in *. congruence.
    + rewrite Bool.andb_false_r in X. exact (N _ X).
Qed.

(** ** Values of programs *)
Variable IW : W -> Prop.
Hypothesis HL : wf_lib L IW.
Variables isL isD : Z -> bool.
(** Whatever a host has done with an engine: Ret takes the topmost value, if there is one, and cuts the stack down to the base; *)
Theorem C91_ret : forall s, reached L IW isL isD s -> Ret s = inl (hd_error (e_stk s), set_stk (lowest (base s) (e_stk s)) s).
Proof.
  intros s R. destruct (C76_session L IW HL isL isD s R) as ((_ & _ & U) & E). unfold Ret, base, lowest. rewrite E in *. destruct (Nat.leb_spec (fr_base (getf 0 s)) (length (e_stk s))); [reflexivity|lia].
Qed.
(** the value it takes after a well-formed program has ended well is the one of that program, and it is the only one above the base. *)
Theorem C91_value : forall n semis old src ts eof c s s1, Tokenize isL isD false semis (AutoKw q_akw) old src = TzOk ts eof -> doc_is L ts c -> reached L IW isL isD s ->
  Exec L isL isD n semis old src s = inl (None, s1) ->
  exists v, hd_error (e_stk s1) = Some v /\ wf_value L v /\ Ret s1 = inl (Some v, set_stk (lowest (base s) (e_stk s)) s1).
Proof.
  intros n semis old src ts eof c s s1 Ht Hc R E.
  assert (R1 : reached L IW isL isD s1) by (eapply Executed; [exact R|exact Ht|exact Hc|left; exact E]).
  pose proof (C76_exec L IW HL isL isD n semis old src ts eof c s Ht Hc (proj1 (C76_session L IW HL isL isD s R))) as X. rewrite E in X. destruct X as (_ & _ & B & v & Wv & K).
  exists v. rewrite (C91_ret s1 R1), B. destruct (C76_session L IW HL isL isD s R) as ((_ & _ & U) & _). fold (base s) in U.
  assert (G : hd_error (e_stk s1) = Some v) by (destruct K as [-> | ->]; reflexivity). split; [exact G|]. split; [exact Wv|]. rewrite G. f_equal. f_equal. f_equal.
  pose proof (C91_ret s1 R1) as Z. unfold Ret in Z.
  destruct (C76_session L IW HL isL isD s1 R1) as ((_ & _ & U1) & _). fold (base s1) in U1. rewrite B in U1.
  unfold lowest in *. destruct K as [K|K]; rewrite K in *; cbn [length] in *.
  - replace (S (length (e_stk s)) - base s)%nat with (S (length (e_stk s) - base s)) by lia. reflexivity.
  - rewrite skipn_length. replace (S (length (e_stk s) - (length (e_stk s) - base s)) - base s)%nat with 1%nat by lia. reflexivity.
Qed.
(** Unless a program has failed inside && or ||, there is nothing to take twice. *)
Theorem C91_once : forall s o s', reached L IW isL isD s -> base s = 0%nat -> Ret s = inl (o, s') -> Ret s' = inl (None, s').
Proof.
  intros s o s' R B H. rewrite (C91_ret s R) in H. injection H as _ <-. unfold base in B. destruct (C76_session L IW HL isL isD s R) as (_ & E). rewrite E in B.
  unfold Ret, lowest, base. cbn. change (getf 0 (set_stk _ s)) with (getf 0 s). rewrite E, B. rewrite Nat.sub_0_r, skipn_all. reflexivity.
Qed.

(** ** Sessions *)
Definition plain_lib : Prop := forall n v, l_fnval L n = Some v -> plain v.
(** what a session relies on *)
Definition holds (g : env) (s : St) : Prop :=
  coherent s /\ (0 < nframes s)%nat /\ parent 0 s = None /\ e_ipt s = 0%nat /\ e_mute s = 0 /\ fr_defers (getf 0 s) = [] /\ (fr_base (getf 0 s) <= length (e_stk s))%nat /\
  forall n v, defines s n 0 v <-> g n = Some v.
Lemma xval_has : forall g s e, holds g s -> has_value L s 0 e (xval L g e).
Proof.
  intros g s e (C & F & P & _ & _ & _ & _ & D). induction e as [v|n|f a IH|f a IHa b IHb|a IHa b IHb|a IHa b IHb]; cbn [xval].
  - apply v_lit.
  - destruct (beq n n_unset) eqn:B; [apply beq_eq in B; subst; apply v_unset|]. assert (Nu : n <> n_unset) by (intro X; subst; rewrite beq_refl in B; discriminate).
    destruct (g n) as [v|] eqn:G; [eapply v_var; [exact Nu|]; apply sees_own; apply D; exact G|].
    assert (N : forall q v, ~ sees s n 0 q v). { intros q v S. inversion S; subst; [|congruence]. apply D in H. congruence. }
    destruct n as [|b n]; [apply v_noname; exact N|]. destruct (l_fnval L (b :: n)) eqn:E; [eapply v_builtin; [exact Nu|discriminate|exact N|exact E]|eapply v_unknown; [exact Nu|discriminate|exact N|exact E]].
  - destruct (xval L g a); [apply v_un; exact IH|eapply v_un_err; exact IH].
  - destruct (xval L g a); [|eapply v_bin_err1; exact IHa]. destruct (xval L g b); [eapply v_bin; eassumption|eapply v_bin_err2; eassumption].
  - destruct (xval L g a) as [v|q]; [|eapply v_and_err; exact IHa]. destruct v as [|b0| | | | | | | | | | | | | | | | | | | | | | | ]; try (apply (v_and_type L s 0 a b _ IHa); intros ?; discriminate). destruct b0; [eapply v_and_true; eassumption|eapply v_and_false; eassumption].
  - destruct (xval L g a) as [v|q]; [|eapply v_or_err; exact IHa]. destruct v as [|b0| | | | | | | | | | | | | | | | | | | | | | | ]; try (apply (v_or_type L s 0 a b _ IHa); intros ?; discriminate). destruct b0; [eapply v_or_true; eassumption|eapply v_or_false; eassumption].
Qed.
(** values are plain and panics are strings or errors *)
Definition tame (r : value + pvq) : Prop := match r with inl v => plain v | inr (PvStr _) | inr (PvErr _) => True | _ => False end.
Lemma eq_tame : forall a b, match EQ (l_same L) a b with inl (VBool _) | inr (PvErr _) => True | _ => False end.
Proof.
  intros a b. destruct a; destruct b; cbn; try exact Logic.I.
  all: try (destruct (l_same L _ _); try exact Logic.I; rewrite ?Bool.orb_true_r, ?Bool.orb_false_r; try exact Logic.I; destruct (beq _ _); exact Logic.I).
  all: destruct t; try exact Logic.I; destruct t0; exact Logic.I.
Qed.
Lemma op_tame : forall l k f, operator L l k f -> forall a b, tame (f a b).
Proof.
  intros l k f H a b.
  assert (T : forall f, (match f with inl (VBool _) | inl (VInt _) | inl (VFloat _) | inl (VStr _) | inr (PvStr _) | inr (PvErr _) => True | _ => False end) -> tame f).
  { intros [[]|[]] X; try destruct X; try exact Logic.I; intros ? ?; discriminate. }
  apply T. clear T. destruct H.
  1-5: destruct a; try exact Logic.I; destruct b; try exact Logic.I; cbn; try destruct (_ =? 0); exact Logic.I.
  1-4: destruct a; try exact Logic.I; destruct b; exact Logic.I.
  - pose proof (eq_tame a b) as X. destruct (EQ (l_same L) a b) as [[]|[]]; try destruct X; exact Logic.I.
  - pose proof (eq_tame a b) as X. unfold NE. destruct (EQ (l_same L) a b) as [[]|[]]; try destruct X; exact Logic.I.
Qed.
Lemma un_tame : forall a, tame (Not a) /\ tame (Neg a).
Proof. intro a. split; destruct a; try exact Logic.I; intros ? ?; discriminate. Qed.
Lemma xval_tame : forall g, plain_lib -> (forall n v, g n = Some v -> plain v) -> forall l e ts, written L l e ts -> tame (xval L g e).
Proof.
  intros g PL G l e ts H. induction H; cbn [xval]; try assumption.
  - destruct H; intros ? ?; discriminate.
  - destruct (beq (tlit t) n_unset); [intros ? ?; discriminate|]. destruct (g (tlit t)) as [v|] eqn:E; [exact (G _ _ E)|]. destruct (tlit t) as [|c0 nm]; [exact Logic.I|].
    destruct (l_fnval L (c0 :: nm)) eqn:F; [exact (PL _ _ F)|exact Logic.I].
  - destruct (xval L g e); [apply un_tame|exact IHwritten].
  - destruct (xval L g e); [apply un_tame|exact IHwritten].
  - destruct (xval L g a); [|exact IHwritten1]. destruct (xval L g b); [eapply op_tame; eassumption|exact IHwritten2].
  - destruct (xval L g a) as [v|]; [|exact IHwritten1]. destruct v as [|[]| | | | | | | | | | | | | | | | | | | | | | | ]; try exact Logic.I; assumption.
  - destruct (xval L g a) as [v|]; [|exact IHwritten1]. destruct v as [|[]| | | | | | | | | | | | | | | | | | | | | | | ]; try exact Logic.I; assumption.
Qed.
Definition all_plain (g : env) : Prop := forall n v, g n = Some v -> plain v.
Lemma with_plain : forall g x v, all_plain g -> plain v -> all_plain (with_var x v g).
Proof. intros g x v G P n u. unfold with_var. destruct (beq n x); [intros [= <-]; exact P|apply G]. Qed.

(** no deferred expressions: the deferred function of SafeExec only notes the panic *)
Definition noted (r : option panicq) (s : St) : St := updf 0 (set_defers []) (updf 0 (set_recov r) s).
Lemma no_defers : forall n r (s : St), fr_defers (getf 0 s) = [] -> (0 < nframes s)%nat ->
  ExecDefers (ev L n) 0 (updf 0 (set_recov r) s) = inl (tt, noted r s).
Proof.
  intros n r s H F. unfold ExecDefers, bind, gets. rewrite getf_updf. destruct (Nat.ltb_spec 0 (nframes s)); [|lia]. cbn [Nat.eqb andb]. cbn [fr_defers set_recov]. rewrite H. reflexivity.
Qed.
Lemma noted_frame : forall r (s : St) i, fr_vars (getf i (noted r s)) = fr_vars (getf i s) /\ parent i (noted r s) = parent i s /\ fr_base (getf i (noted r s)) = fr_base (getf i s).
Proof.
  intros r s i. unfold noted, parent. rewrite !getf_updf, !nframes_updf. destruct (Nat.eqb_spec i 0) as [->|]; [|auto]. destruct (0 <? nframes s)%nat; auto.
Qed.
Lemma noted_recov : forall r (s : St), (0 < nframes s)%nat -> fr_recov (getf 0 (noted r s)) = r /\ fr_defers (getf 0 (noted r s)) = [].
Proof. intros r s F. unfold noted. rewrite !getf_updf, !nframes_updf. destruct (Nat.ltb_spec 0 (nframes s)); [auto|lia]. Qed.
Lemma safe_fails : forall n semis old src (s s1 : St) e, Exec L isL isD n semis old src s = inr (e, s1) -> uncatchable e = false -> as_error e = Some e ->
  fr_defers (getf 0 s1) = [] -> (0 < nframes s1)%nat -> SafeExec L isL isD n semis old src s = inl (Some (inl e), noted (Some e) s1).
Proof. intros n semis old src s s1 e E U A D F. unfold SafeExec. rewrite E, U, no_defers by assumption. rewrite (proj1 (noted_recov (Some e) s1 F)), A. reflexivity. Qed.
Lemma noted_holds : forall r g s, holds g s -> holds g (noted r s).
Proof.
  intros r g s (C & F & P & I & M & D & B & V). assert (N : nframes (noted r s) = nframes s) by (unfold noted; rewrite !nframes_updf; reflexivity).
  assert (VO : forall i n, var_of i n (noted r s) = var_of i n s) by (intros i n; unfold var_of; rewrite (proj1 (noted_frame r s i)); reflexivity).
  split; [apply (coherent_like s); [intro i; apply noted_frame|intro i; apply noted_frame|exact C]|]. split; [rewrite N; exact F|]. split; [rewrite (proj1 (proj2 (noted_frame r s 0))); exact P|].
  split; [exact I|]. split; [exact M|]. split; [apply noted_recov; exact F|]. split; [rewrite (proj2 (proj2 (noted_frame r s 0))); exact B|].
  intros n v. rewrite <- V. unfold defines. rewrite VO. reflexivity.
Qed.
Lemma taken_holds : forall g s l, holds g s -> (fr_base (getf 0 s) <= length l)%nat -> holds g (set_stk l s).
Proof. intros g s l (C & F & P & I & M & D & B & V) H. split; [apply coherent_stk; exact C|]. repeat (split; [assumption|]). exact V. Qed.
(** taking the value of a text that has ended well *)
Lemma ret_top : forall g s v l, holds g s -> e_stk s = v :: l -> (fr_base (getf 0 s) <= length l)%nat -> exists s', Ret s = inl (Some v, s') /\ holds g s'.
Proof.
  intros g s v l H E B. exists (set_stk (skipn (length (e_stk s) - fr_base (getf 0 s)) (e_stk s)) s). unfold Ret. destruct H as (C & F & P & I & M & D & B0 & V).
  destruct (Nat.leb_spec (fr_base (getf 0 s)) (length (e_stk s))); [|lia]. split; [rewrite E; reflexivity|]. apply taken_holds; [repeat (split; [assumption|]); exact V|]. rewrite skipn_length. lia.
Qed.
Lemma request_runs : forall semis a r, plain_lib -> requests L isL isD semis a r -> exists N, forall n g s, (N <= n)%nat -> holds g s -> all_plain g ->
  exists x s', perform L isL isD n semis a s = (x, s') /\ looks (fst (answered L g r)) x /\ holds (snd (answered L g r)) s' /\ all_plain (snd (answered L g r)).
Proof.
  intros semis a r PL H. destruct H as [y v Pv|y|old src ts eof e Ht Hw|old src t t1 ts eof e Ht K Nn K1 Hw].
  - exists O. intros n g s _ Hs G. destruct Hs as (C & F & P & I & M & D & B & V). destruct (C91_set y v s C P F Pv) as (A1 & A2 & _).
    exists SNothing, (SetVar y v s). split; [reflexivity|]. split; [constructor|]. split; [|apply with_plain; assumption]. destruct A1 as (B1 & B2 & B3 & B4 & B5 & B6 & _). destruct (B3 0%nat) as (_ & _ & P1 & D1 & BB).
    split; [exact A2|]. split; [rewrite B4; exact F|]. split; [congruence|]. split; [congruence|]. split; [congruence|]. split; [congruence|]. split; [rewrite BB, B1; exact B|].
    intros m u. rewrite B2. cbn [snd answered]. unfold with_var. rewrite Bool.andb_true_r. destruct (beq m y); [|apply V]. split; [intros ->; reflexivity|intros [= <-]; reflexivity].
  - exists O. intros n g s _ Hs G. exists (SVar (Var y s)), s. split; [reflexivity|]. split; [|split; [exact Hs|exact G]]. cbn [fst answered].
    replace (g y) with (Var y s); [constructor|]. destruct Hs as (C & F & P & I & M & D & B & V). destruct (g y) as [v|] eqn:E; [apply var_defines; [exact C|exact P|]; apply V; exact E|].
    destruct (Var y s) as [v|] eqn:X; [|reflexivity]. apply var_defines in X; [|exact C|exact P]. apply V in X. congruence.
  - destruct (C75_run L isL isD semis old src ts eof e Ht Hw) as (N & X). exists N. intros n g s Hn Hs G. pose proof (xval_has g s e Hs) as Hv. pose proof (xval_tame g PL G _ _ _ Hw) as Tv.
    pose proof Hs as (C & F & P & I & M & D & B & V). specialize (X n s (xval L g e) Hn C). rewrite I in X. specialize (X F M Hv).
    cbn [answered]. destruct (xval L g e) as [v|q]; cbn [fst snd].
    + destruct X as (s1 & E & S1 & C1). destruct S1 as (B2 & B3 & B4 & B5 & B6 & B7 & _). destruct (B3 0%nat) as (_ & _ & P1 & D1 & BB).
      assert (H1 : holds g (pushed v s1)).
      { split; [apply coherent_stk; exact C1|]. split; [unfold pushed; change (nframes (set_stk _ s1)) with (nframes s1); lia|]. split; [change (parent 0 (pushed v s1)) with (parent 0 s1); congruence|]. split; [cbn; congruence|]. split; [cbn; congruence|].
        split; [change (getf 0 (pushed v s1)) with (getf 0 s1); congruence|]. split; [change (getf 0 (pushed v s1)) with (getf 0 s1); cbn; rewrite BB, B5; lia|]. intros m u. change (defines (pushed v s1) m 0 u) with (defines s1 m 0 u). rewrite B2. apply V. }
      pose proof (noted_holds None g _ H1) as H2. destruct (ret_top g (noted None (pushed v s1)) v (e_stk s1) H2 eq_refl) as (s2 & R & H3).
      { rewrite (proj2 (proj2 (noted_frame None (pushed v s1) 0))). change (getf 0 (pushed v s1)) with (getf 0 s1). rewrite BB, B5. exact B. }
      exists (SValue (Some v)), s2. split; [|split; [constructor|split; assumption]]. unfold perform, SafeEval, SafeExec. rewrite E. rewrite no_defers by apply H1.
      rewrite (proj1 (noted_recov None (pushed v s1) (proj1 (proj2 H1)))). rewrite R. reflexivity.
    + destruct X as (src' & s1 & E & S1 & C1). destruct S1 as (B2 & B3 & B4 & (l & B5) & B6 & B7 & B8 & _). destruct (B3 0%nat) as (_ & _ & P1 & D1).
      assert (H1 : holds g s1).
      { split; [exact C1|]. split; [lia|]. split; [congruence|]. split; [congruence|]. split; [congruence|]. split; [congruence|].
        split; [destruct (B4 0%nat) as [->|(_ & Z)]; [rewrite B5, app_length; lia|apply Z]|]. intros m u. rewrite B2. apply V. }
      exists (SError (inl (wrap src' (PUser q)))), (noted (Some (wrap src' (PUser q))) s1). split; [|split; [constructor|split; [apply noted_holds; exact H1|exact G]]].
      unfold perform, SafeEval. erewrite safe_fails; [reflexivity|exact E|destruct q; try destruct Tv; reflexivity|destruct q; try destruct Tv; reflexivity|apply H1|apply H1].
  - destruct (C75_exec L isL isD semis old src t t1 ts eof e Ht K Nn K1 Hw) as (N & X). exists N. intros n g s Hn Hs G. pose proof (xval_has g s e Hs) as Hv. pose proof (xval_tame g PL G _ _ _ Hw) as Tv.
    pose proof Hs as (C & F & P & I & M & D & B & V). specialize (X n s (xval L g e) Hn C). rewrite I in X. specialize (X F P M Hv).
    cbn [answered]. destruct (xval L g e) as [v|q]; cbn [fst snd].
    + destruct (X Tv) as (s1 & E & S1 & C1). destruct S1 as (B5 & B2 & B3 & B4 & B6 & B7 & _). destruct (B3 0%nat) as (_ & _ & P1 & D1 & BB).
      assert (H1 : holds (with_var (tlit t) v g) s1).
      { split; [exact C1|]. split; [lia|]. split; [congruence|]. split; [congruence|]. split; [congruence|].
        split; [congruence|]. split; [rewrite BB, B5; cbn; lia|]. intros m u. rewrite B2. unfold with_var. rewrite Bool.andb_true_r. destruct (beq m (tlit t)); [|apply V]. split; [intros ->; reflexivity|intros [= <-]; reflexivity]. }
      pose proof (noted_holds None _ _ H1) as H2. destruct (ret_top _ (noted None s1) v (e_stk s) H2 B5) as (s2 & R & H3).
      { rewrite (proj2 (proj2 (noted_frame None s1 0))). rewrite BB. exact B. }
      exists (SValue (Some v)), s2. split; [|split; [constructor|split; [exact H3|apply with_plain; assumption]]]. unfold perform, SafeEval, SafeExec. rewrite E. rewrite no_defers by apply H1.
      rewrite (proj1 (noted_recov None s1 (proj1 (proj2 H1)))). rewrite R. reflexivity.
    + destruct X as (src' & s1 & E & S1 & C1). destruct S1 as (B2 & B3 & B4 & (l & B5) & B6 & B7 & B8 & _). destruct (B3 0%nat) as (_ & _ & P1 & D1).
      assert (H1 : holds g s1).
      { split; [exact C1|]. split; [lia|]. split; [congruence|]. split; [congruence|]. split; [congruence|]. split; [congruence|].
        split; [destruct (B4 0%nat) as [->|(_ & Z)]; [rewrite B5, app_length; lia|apply Z]|]. intros m u. rewrite B2. apply V. }
      exists (SError (inl (wrap src' (PUser q)))), (noted (Some (wrap src' (PUser q))) s1). split; [|split; [constructor|split; [apply noted_holds; exact H1|exact G]]].
      unfold perform, SafeEval. erewrite safe_fails; [reflexivity|exact E|destruct q; try destruct Tv; reflexivity|destruct q; try destruct Tv; reflexivity|apply H1|apply H1].
Qed.
(** A host that sets variables, reads them, and has expressions and assignments evaluated, in any order, on a new engine: it sees
    what a map of variables would show, also after evaluations that failed. *)
Theorem C91_session : forall semis l rs, plain_lib -> Forall2 (requests L isL isD semis) l rs ->
  exists N, forall n w, (N <= n)%nat -> exists xs s, host L isL isD n semis l (q_start w) = (xs, s) /\
    Forall2 looks (fst (answers L no_vars rs)) xs /\ forall x, Var x s = snd (answers L no_vars rs) x.
Proof.
  intros semis l rs PL H.
  assert (K : exists N, forall n g s, (N <= n)%nat -> holds g s -> all_plain g -> exists xs s', host L isL isD n semis l s = (xs, s') /\ Forall2 looks (fst (answers L g rs)) xs /\ holds (snd (answers L g rs)) s').
  { induction H as [|a r l rs Ha Hl (N & IH)].
    - exists O. intros n g s _ Hs _. exists [], s. split; [reflexivity|]. split; [constructor|exact Hs].
    - destruct (request_runs semis a r PL Ha) as (M & X). exists (N + M)%nat. intros n g s Hn Hs G. destruct (X n g s ltac:(lia) Hs G) as (x & s1 & E & Lk & H1 & G1).
      destruct (IH n _ s1 ltac:(lia) H1 G1) as (xs & s2 & E2 & Lk2 & H2). exists (x :: xs), s2. cbn [host]. rewrite E, E2. split; [reflexivity|]. cbn [answers].
      destruct (answered L g r) as (an, g1). cbn [fst snd] in *. destruct (answers L g1 rs) as (al, g2). cbn [fst snd] in *. split; [constructor; assumption|exact H2]. }
  destruct K as (N & K). exists N. intros n w Hn. destruct (K n no_vars (q_start w) Hn) as (xs & s & E & Lk & Hs).
  - split; [split; [intros [|[|i]] j X; discriminate X|intros [|[|i]] m q X; discriminate X]|]. split; [apply Nat.lt_0_1|]. split; [reflexivity|]. split; [reflexivity|]. split; [reflexivity|]. split; [reflexivity|]. split; [apply Nat.le_refl|].
    intros m v. split; [intros (X & _); discriminate X|discriminate].
  - discriminate.
  - exists xs, s. split; [exact E|]. split; [exact Lk|]. intro x. destruct Hs as (C & _ & P & _ & _ & _ & _ & V). destruct (snd (answers L no_vars rs) x) as [v|] eqn:G; [apply var_defines; [exact C|exact P|]; apply V; exact G|].
    destruct (Var x s) as [v|] eqn:X; [|reflexivity]. apply var_defines in X; [|exact C|exact P]. apply V in X. congruence.
Qed.
End Embed.

(** ** Examples *)
Notation new_engine := (q_start tt).
Definition eval_in (t : string) (s : est nat value (@rest unit)) := SafeEval L0 no_class no_class 200 false PropScan.fresh (s2b t) s.
(** the program of [C75_exec]'s example: it fails before z is set, then succeeds; a is set before and read after *)
Definition a3 : action := ASet (s2b "a") (VInt 3).
Definition session : list action := [a3; AEval PropScan.fresh (s2b sum); ASet (s2b "z") (VInt 9); AEval PropScan.fresh (s2b sum); AGet (s2b "x"); AGet (s2b "a"); AGet (s2b "y")].
Definition asked : list request := [RSet (s2b "a") (VInt 3); RLet (s2b "x") sum_ex; RSet (s2b "z") (VInt 9); RLet (s2b "x") sum_ex; RGet (s2b "x"); RGet (s2b "a"); RGet (s2b "y")].
Example session_asked : plain_lib L0 /\ Forall2 (requests L0 no_class no_class false) session asked.
Proof.
  split. { intros n v. cbn. repeat match goal with |- context [if ?b then _ else _] => destruct b end; intro H; try discriminate H; injection H as <-; discriminate. }
  assert (R : requests L0 no_class no_class false (AEval PropScan.fresh (s2b sum)) (RLet (s2b "x") sum_ex)).
  { destruct sum_tokenized as (eof & Ht & K & Kl & K1). rewrite <- Kl. eapply rq_let; [exact Ht|exact K|rewrite Kl; discriminate|exact K1|exact sum_written]. }
  repeat (constructor; [first [exact R | apply rq_set; discriminate | apply rq_get]|]). constructor.
Qed.
Example session_answers : fst (answers L0 no_vars asked) = [ANothing; AFailed (msg m_nosym [VStr (s2b "z")]); ANothing; AValue (VBool true); AVar (Some (VBool true)); AVar (Some (VInt 3)); AVar None].
Proof. vm_compute. reflexivity. Qed.
Example session_run : match host L0 no_class no_class 200 false session new_engine with
  ([SNothing; SError (inl (PUser (PvRuntime (EOfStr (SOther m)) _))); SNothing; SValue (Some v); SVar x; SVar a; SVar y], s) => (m, v, x, a, y, e_stk s, base s) | _ => (VNil, VNil, None, None, None, [], O) end =
  (VMsg m_nosym [VStr (s2b "z")], VBool true, Some (VBool true), Some (VInt 3), None, [], O).
Proof. vm_compute. reflexivity. Qed.
(** a function that has read a variable sees that the host has changed it *)
Definition with_fn := match eval_in "a = 1; f = fn() { return fn() { return a } }; g = f(); b = g()" new_engine with inl (None, s) => s | _ => new_engine end.
Example set_seen : match eval_in "c = g()" (SetVar (s2b "a") (VInt 7) with_fn) with inl (None, s) => (Var (s2b "b") s, Var (s2b "c") s, Var (s2b "a") s) | _ => (None, None, None) end = (Some (VInt 1), Some (VInt 7), Some (VInt 7)).
Proof. vm_compute. reflexivity. Qed.
(** [C91_value] for the program of PropText: that program is well formed and ends well *)
Example value_run : exists s1, Exec L0 no_class no_class 200 false PropScan.fresh (s2b prog) new_engine = inl (None, s1) /\ Ret s1 = inl (Some VNil, set_stk [] s1).
Proof.
  destruct prog_safe as (s1 & E & K & _). exists s1. split; [exact E|]. destruct prog_means as (c & Hc). destruct prog_tokenized as (eof & Ht).
  destruct (C91_value L0 (fun _ => True) L0_wf no_class no_class 200 false PropScan.fresh (s2b prog) prog_toks eof c new_engine s1 Ht Hc (Started _ _ _ _ tt Logic.I) E) as (v & H & _ & R).
  rewrite K in H. injection H as <-. exact R.
Qed.

(** What Ret gives after an evaluation that failed is not meaningful: a value may have been left by it; *)
Theorem C91_failed_refuted : exists e s1 s2, eval_in "1 + nosuch" new_engine = inl (Some e, s1) /\ Ret s1 = inl (Some (VInt 1), s2) /\ Ret s2 = inl (None, s2).
Proof.
  destruct (eval_in "1 + nosuch" new_engine) as [([e|], s1)|] eqn:E; vm_compute in E; try discriminate E. exists e, s1. injection E as _ <-. eexists. split; [reflexivity|]. split; reflexivity.
Qed.
(** and if it failed inside && or ||, then for ever: the base stays above that value, and every later Ret without a program gives it again. *)
Theorem C91_stale_refuted : exists e s1 s2, eval_in "1 + (true && nosuch)" new_engine = inl (Some e, s1) /\ Ret s1 = inl (Some (VInt 1), s2) /\ Ret s2 = inl (Some (VInt 1), s2) /\
  (exists s3 s4, eval_in "x = 5" s2 = inl (None, s3) /\ Ret s3 = inl (Some (VInt 5), s4) /\ Ret s4 = inl (Some (VInt 1), s4)).
Proof.
  destruct (eval_in "1 + (true && nosuch)" new_engine) as [([e|], s1)|] eqn:E; vm_compute in E; try discriminate E. exists e, s1. injection E as _ <-. eexists. split; [reflexivity|]. split; [reflexivity|]. split; [reflexivity|].
  eexists. eexists. split; [vm_compute; reflexivity|]. split; reflexivity.
Qed.

Print Assumptions C91_var.
Print Assumptions C91_set.
Print Assumptions C91_ret.
Print Assumptions C91_value.
Print Assumptions C91_once.
Print Assumptions C91_session.
Print Assumptions C91_failed_refuted.
Print Assumptions C91_stale_refuted.
