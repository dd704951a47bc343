(** Programs without functions do what QWhile says (Property C92). *)
From Coq Require Import String SpecFloat.
From Verif Require Import Base Token Grammar Compiler Interp QValue Qlang QlangSpec QlangTop QText QTidy QExpr QEval PropVars QExprP QEmbed PropEmbed QWhile.
Local Open Scope list_scope.
Local Open Scope Z_scope.

Section WhileP.
Context {W : Type}.
Variable L : qlib W.
Notation St := (est nat value (@rest W)).
Notation ev := (QlangTop.ev L).
Notation sem := (@sem W).
Infix ">>" := seq (at level 60, right associativity).

(** the variables of the outermost frame are [g] *)
Definition at_env (g : env) (s : St) : Prop := coherent s /\ (0 < nframes s)%nat /\ parent 0 s = None /\ forall n v, defines s n 0 v <-> g n = Some v.
(** the same but for these variables, the stack and the bases *)
Definition still (s s' : St) : Prop :=
  (forall m i u, i <> 0%nat -> (defines s' m i u <-> defines s m i u)) /\
  (forall i, fr_ret (getf i s') = fr_ret (getf i s) /\ fr_recov (getf i s') = fr_recov (getf i s) /\ parent i s' = parent i s /\ fr_defers (getf i s') = fr_defers (getf i s)) /\
  nframes s' = nframes s /\ e_mute s' = e_mute s /\ e_ipt s' = e_ipt s /\
  r_objs (e_rest s') = r_objs (e_rest s) /\ r_ids (e_rest s') = r_ids (e_rest s) /\ r_excs (e_rest s') = r_excs (e_rest s) /\ r_world (e_rest s') = r_world (e_rest s).
Definition bases (s s' : St) : Prop := forall i, fr_base (getf i s') = fr_base (getf i s).
(** a panic whose source is known; if [d] also one whose source is not known yet *)
Definition panics_as (d : bool) (q : pvq) (e : panicq) : Prop := (exists src, e = wrap src (PUser q)) \/ (d = true /\ e = PUser q).
(** an evaluation that started in [s] has this outcome, with the value on top of [stk] *)
Definition dgave (d : bool) (stk : list value) (s : St) (o : outcome) (r : @qres W unit) : Prop :=
  match snd o with
  | inl v => exists s', r = inl (tt, s') /\ e_stk s' = v :: stk /\ at_env (fst o) s' /\ still s s' /\ bases s s'
  | inr q => exists e s', r = inr (e, s') /\ panics_as d q e /\ (exists l, e_stk s' = l ++ stk) /\ at_env (fst o) s' /\ still s s' /\
      forall i, fr_base (getf i s') = fr_base (getf i s) \/ (length stk <= fr_base (getf i s') <= length (e_stk s'))%nat
  end.
Notation sgave := (dgave false).

Lemma still_refl : forall s, still s s.
Proof. intro s. split; [reflexivity|]. repeat split. Qed.
Lemma still_trans : forall s1 s2 s3, still s1 s2 -> still s2 s3 -> still s1 s3.
Proof.
  intros s1 s2 s3 (A1 & A2 & A3 & A4 & A5 & A6 & A7 & A8 & A9) (B1 & B2 & B3 & B4 & B5 & B6 & B7 & B8 & B9).
  split; [intros m i u Hi; rewrite (B1 m i u Hi); apply A1; exact Hi|]. split; [|repeat split; etransitivity; eassumption].
  intro i. destruct (A2 i) as (a & b & c & d). destruct (B2 i) as (a' & b' & c' & d'). repeat split; etransitivity; eassumption.
Qed.
Lemma bases_trans : forall s1 s2 s3, bases s1 s2 -> bases s2 s3 -> bases s1 s3.
Proof. intros s1 s2 s3 A B i. etransitivity; [apply B|apply A]. Qed.
Lemma env_stk : forall g s l, at_env g s -> at_env g (set_stk l s).
Proof. intros g s l (C & F & P & V). split; [apply coherent_stk; exact C|]. split; [exact F|]. split; [exact P|exact V]. Qed.
Lemma still_stk : forall s l, still s (set_stk l s).
Proof. intros s l. split; [reflexivity|]. repeat split. Qed.
Lemma sgave_from : forall d stk s s1 o r, still s s1 -> bases s s1 -> dgave d stk s1 o r -> dgave d stk s o r.
Proof.
  intros d stk s s1 (g, [v|q]) r A B H.
  - destruct H as (s' & E & K & V & S & Bs). exists s'. split; [exact E|]. split; [exact K|]. split; [exact V|]. split; [eapply still_trans; eassumption|eapply bases_trans; eassumption].
  - destruct H as (e & s' & E & X0 & K & V & S & Bs). exists e, s'. split; [exact E|]. split; [exact X0|]. split; [exact K|]. split; [exact V|]. split; [eapply still_trans; eassumption|].
    intro i. destruct (Bs i) as [X|X]; [left; rewrite X; apply B|right; exact X].
Qed.
Lemma loosely : forall stk s o r, sgave stk s o r -> dgave true stk s o r.
Proof.
  intros stk s (g, [v|q]) r H; [exact H|]. destruct H as (e & s' & E & [X|(X & _)] & H); [|discriminate X]. exists e, s'. split; [exact E|]. split; [left; exact X|exact H].
Qed.
Lemma sgave_blame : forall ts d stk s o (m : @Q W unit) s0, dgave d stk s o (m s0) -> sgave stk s o (blame ts m s0).
Proof.
  intros ts d stk s (g, [v|q]) m s0 H; unfold blame.
  - destruct H as (s' & -> & H). exists s'. auto.
  - destruct H as (e & s' & -> & [(src & ->)|(_ & ->)] & H).
    + exists (wrap src (PUser q)), s'. rewrite wrap_wrap. split; [reflexivity|]. split; [left; exists src; reflexivity|exact H].
    + exists (wrap ts (PUser q)), s'. split; [reflexivity|]. split; [left; exists ts; reflexivity|exact H].
Qed.
(** a panic here and now *)
Lemma throws : forall l stk s g q, at_env g s -> e_stk s = l ++ stk -> dgave true stk s (g, inr q) (inr (PUser q, s)).
Proof. intros l stk s g q V K. exists (PUser q), s. split; [reflexivity|]. split; [right; auto|]. split; [exists l; exact K|]. split; [exact V|]. split; [apply still_refl|]. intro i. left. reflexivity. Qed.
(** one after another *)
Lemma sgave_bind : forall d stk stk' s g v o (m : @Q W unit) (f : @Q W unit), dgave d stk' s (g, inl v) (m s) ->
  (forall s1, e_stk s1 = v :: stk' -> at_env g s1 -> still s s1 -> bases s s1 -> dgave d stk s1 o (f s1)) -> dgave d stk s o ((m ;;; f) s).
Proof.
  intros d stk stk' s g v o m f (s1 & E & K & V & S & B) H. unfold bind. rewrite E. apply (sgave_from d stk s s1); [exact S|exact B|]. apply H; assumption.
Qed.
Lemma sgave_stop : forall {A} d stk s g q (m : @Q W unit) (f : unit -> @Q W A) (h : @qres W A -> @qres W unit), dgave d stk s (g, inr q) (m s) ->
  (forall e s', h (inr (e, s')) = inr (e, s')) -> dgave d stk s (g, inr q) (h (bind m f s)).
Proof. intros A d stk s g q m f h (e & s' & E & K) Hh. exists e, s'. unfold bind. rewrite E, Hh. split; [reflexivity|exact K]. Qed.

Lemma gave_s : forall g s o r, at_env g s -> gave 0%nat s o r -> sgave (e_stk s) s (g, o) r.
Proof.
  intros g s [v|q] r (C & F & P & V) H.
  - destruct H as (s1 & -> & (A1 & A2 & A3 & A4 & A5 & A6 & A7) & C1). exists (pushed v s1). split; [reflexivity|]. split; [cbn; rewrite A4; reflexivity|]. split; [|split].
    + split; [apply coherent_stk; exact C1|]. split; [change (nframes (pushed v s1)) with (nframes s1); rewrite A3; exact F|]. split; [change (parent 0 (pushed v s1)) with (parent 0 s1); rewrite <- P; apply (A2 0%nat)|].
      intros n u. change (defines (pushed v s1) n 0 u) with (defines s1 n 0 u). rewrite A1. apply V.
    + split; [intros m i u _; apply A1|]. split; [intro i; destruct (A2 i) as (a & b & c & d & e); repeat split; assumption|]. repeat split; try assumption; apply A7.
    + intro i. apply (A2 i).
  - destruct H as (src & s1 & -> & (A1 & A2 & A2' & A3 & A4 & A5 & A6 & A7) & C1). exists (wrap src (PUser q)), s1. split; [reflexivity|]. split; [left; exists src; reflexivity|]. split; [exact A3|]. split; [|split].
    + split; [exact C1|]. split; [rewrite A4; exact F|]. split; [rewrite <- P; apply (A2 0%nat)|]. intros n u. cbn [fst]. rewrite A1. apply V.
    + split; [intros m i u _; apply A1|]. split; [exact A2|]. repeat split; try assumption; apply A7.
    + intro i. destruct (A2' i) as [Y|(_ & Y)]; [left; exact Y|right; exact Y].
Qed.
Lemma value_env : forall g s e, at_env g s -> has_value L s 0 e (xval L g e).
Proof.
  intros g s e (C & F & P & D). induction e as [v|n|f a IH|f a IHa b IHb|a IHa b IHb|a IHa b IHb]; cbn [xval].
  - apply v_lit.
  - destruct (beq n n_unset) eqn:B; [apply beq_eq in B; subst; apply v_unset|]. assert (Nu : n <> n_unset) by (intro X; subst; rewrite beq_refl in B; discriminate).
    destruct (g n) as [v|] eqn:G; [eapply v_var; [exact Nu|]; apply sees_own; apply D; exact G|].
    assert (N : forall q v, ~ sees s n 0 q v). { intros q v S. inversion S; subst; [|congruence]. apply D in H. congruence. }
    destruct n as [|b n]; [apply v_noname; exact N|]. destruct (l_fnval L (b :: n)) eqn:E; [eapply v_builtin; [exact Nu|discriminate|exact N|exact E]|eapply v_unknown; [exact Nu|discriminate|exact N|exact E]].
  - destruct (xval L g a); [apply v_un; exact IH|eapply v_un_err; exact IH].
  - destruct (xval L g a); [|eapply v_bin_err1; exact IHa]. destruct (xval L g b); [eapply v_bin; eassumption|eapply v_bin_err2; eassumption].
  - destruct (xval L g a) as [v|q]; [|eapply v_and_err; exact IHa]. destruct v as [|b0| | | | | | | | | | | | | | | | | | | | | | | ]; try (apply (v_and_type L s 0 a b _ IHa); intros ?; discriminate). destruct b0; [eapply v_and_true; eassumption|eapply v_and_false; eassumption].
  - destruct (xval L g a) as [v|q]; [|eapply v_or_err; exact IHa]. destruct v as [|b0| | | | | | | | | | | | | | | | | | | | | | | ]; try (apply (v_or_type L s 0 a b _ IHa); intros ?; discriminate). destruct b0; [eapply v_or_true; eassumption|eapply v_or_false; eassumption].
Qed.
Lemma expr_means : forall e ts, written L 5 e ts -> exists c, expr_is L ts c /\ exists N, forall n g s, (N <= n)%nat -> at_env g s -> sgave (e_stk s) s (g, xval L g e) (c (ev n) n 0%nat s).
Proof.
  intros e ts H. destruct (written_means L _ _ _ H) as (c & A & (N & M)). exists c. split; [exact A|]. exists N. intros n g s Hn V. apply gave_s; [exact V|].
  apply M; [exact Hn|split; [apply V|apply V]|apply value_env; exact V].
Qed.

(** pieces of code *)
(** a bound of the model was reached *)
Definition stuck {A : Type} (r : @qres W A) : Prop := exists s, r = inr (PUser PvFuel, s).
(** evaluating a piece of code is running its meaning in a state with the same variables and the same stack *)
Lemma code_point : forall rule ts c, text_is L rule ts c -> exists N', forall n g s, (N' <= n)%nat -> at_env g s ->
  exists s2, at_env g s2 /\ fr_base (getf 0 s2) = length (e_stk s2) /\ e_stk s2 = e_stk s /\
    (forall o, sgave (e_stk s2) s2 o (c (ev n) n 0%nat s2) -> sgave (e_stk s) s o (evalCode (ev (S n)) 0 rule (VCode ts) s)) /\
    (stuck (c (ev n) n 0%nat s2) -> stuck (evalCode (ev (S n)) 0 rule (VCode ts) s)).
Proof.
  intros rule ts c Ht. destruct (eval_text L rule ts c Ht) as (N' & E). exists N'. intros n g s Hn (C & F & P & V).
  unfold evalCode, bind, depth, modify, gets. set (s1 := updf 0 (set_base (length (e_stk s))) s). rewrite (E n 0%nat s1) by lia. unfold evaluated. set (s2 := set_mute 0 (set_ipt 0%nat s1)).
  pose proof (fun i => getf_base 0 (length (e_stk s)) s i) as K0. fold s1 in K0.
  assert (V2 : forall i, fr_vars (getf i s2) = fr_vars (getf i s)) by (intro i; apply (K0 i)).
  assert (P2 : forall i, parent i s2 = parent i s) by (intro i; apply (K0 i)).
  assert (D2 : forall n i v, defines s2 n i v <-> defines s n i v) by (intros m i v; unfold defines, var_of; rewrite V2; reflexivity).
  assert (N2 : nframes s2 = nframes s) by (apply (nframes_updf 0 (set_base (length (e_stk s))) s)).
  assert (G2 : at_env g s2). { split; [apply (coherent_like s s2 V2 P2 C)|]. split; [rewrite N2; exact F|]. split; [rewrite P2; exact P|]. intros m v. rewrite D2. apply V. }
  assert (B2 : fr_base (getf 0 s2) = length (e_stk s2)). { change (getf 0 s2) with (getf 0 s1). destruct (K0 0%nat) as (_ & _ & _ & _ & _ & ->). rewrite (proj2 (Nat.ltb_lt _ _) F). reflexivity. }
  exists s2. split; [exact G2|]. split; [exact B2|]. split; [reflexivity|]. split; [|intros (s3 & ->); eexists; reflexivity]. intros o H. change (e_stk s2) with (e_stk s) in H.
  assert (S12 : forall s3, still s2 s3 -> still s (aside s1 s3)).
  { intros s3 (A1 & A2 & A3 & A4 & A5 & A6). split; [intros m i u Hi; rewrite <- D2, <- A1 by exact Hi; reflexivity|]. split.
    - intro i. change (getf i (aside s1 s3)) with (getf i s3). change (parent i (aside s1 s3)) with (parent i s3). destruct (A2 i) as (a & b & d & e). rewrite a, b, d, e. destruct (K0 i) as (_ & j1 & j2 & j3 & j4 & _).
      change (getf i s2) with (getf i s1). change (parent i s2) with (parent i s1). auto.
    - split; [change (nframes (aside s1 s3)) with (nframes s3); rewrite A3; exact N2|]. repeat split; cbn; apply A6. }
  destruct o as (g', [v|q]).
  - destruct H as (s3 & -> & K3 & V3 & S3 & Bs3). set (s4 := aside s1 s3). pose proof (fun i => getf_base 0 (fr_base (getf 0 s)) s4 i) as K. exists (updf 0 (set_base (fr_base (getf 0 s))) s4).
    split; [reflexivity|]. split; [exact K3|]. assert (N3 : nframes s4 = nframes s) by (change (nframes s4) with (nframes s3); destruct S3 as (_ & _ & A3 & _); rewrite A3; exact N2).
    cbn [fst snd] in *. split; [|split].
    + destruct V3 as (C3 & F3 & P3 & V3). split; [apply (coherent_like s3); [intro i; apply (K i)|intro i; apply (K i)|exact C3]|]. split; [rewrite nframes_updf; exact F3|]. split; [rewrite <- P3; apply (K 0%nat)|].
      intros m u. rewrite <- V3. unfold defines, var_of. rewrite (proj1 (K 0%nat)). reflexivity.
    + apply (still_trans s s4); [apply S12; exact S3|]. split; [intros m i u _; unfold defines, var_of; rewrite (proj1 (K i)); reflexivity|]. split; [intro i; destruct (K i) as (_ & k1 & k2 & k3 & k4 & _); auto|]. rewrite nframes_updf. repeat split.
    + intro i. destruct (K i) as (_ & _ & _ & _ & _ & ->). change (getf i s4) with (getf i s3). rewrite Bs3. change (getf i s2) with (getf i s1). destruct (K0 i) as (_ & _ & _ & _ & _ & ->). rewrite N3, (proj2 (Nat.ltb_lt _ _) F).
      destruct (Nat.eqb_spec i 0) as [->|]; reflexivity.
  - destruct H as (e & s3 & -> & X3 & K3 & V3 & S3 & Bs3). exists e, (aside s1 s3). split; [reflexivity|]. split; [exact X3|]. split; [exact K3|]. split; [destruct V3 as (C3 & F3 & P3 & V3); split; [apply (coherent_like s3); [reflexivity|reflexivity|exact C3]|]; split; [exact F3|]; split; [exact P3|exact V3]|]. split; [apply S12; exact S3|].
    intro i. change (getf i (aside s1 s3)) with (getf i s3). change (e_stk (aside s1 s3)) with (e_stk s3). destruct (Bs3 i) as [X|X]; [|right; exact X]. rewrite X. change (getf i s2) with (getf i s1). destruct (K0 i) as (_ & _ & _ & _ & _ & ->).
    destruct (_ && _)%bool; [right|left; reflexivity]. destruct K3 as (l & ->). rewrite app_length. lia.
Qed.

Lemma code_gave : forall rule ts c, text_is L rule ts c -> exists N', forall N g o,
  (forall n s, (N <= n)%nat -> at_env g s -> fr_base (getf 0 s) = length (e_stk s) -> sgave (e_stk s) s o (c (ev n) n 0%nat s)) ->
  forall n s, (S (N + N') <= n)%nat -> at_env g s -> sgave (e_stk s) s o (evalCode (ev n) 0 rule (VCode ts) s).
Proof.
  intros rule ts c Ht. destruct (code_point rule ts c Ht) as (N' & E). exists N'. intros N g o H n s Hn V. destruct n as [|n]; [lia|].
  destruct (E n g s ltac:(lia) V) as (s2 & V2 & B2 & K2 & G & _). apply G. apply H; [lia|exact V2|exact B2].
Qed.

(** ** Meanings *)
Definition cmeans (rule : bytes) (e : ex) (ts : list token) : Prop :=
  exists N, forall n g s, (N <= n)%nat -> at_env g s -> sgave (e_stk s) s (g, xval L g e) (evalCode (ev n) 0 rule (VCode ts) s).
Definition smeans (st : stmt) (c : sem) : Prop :=
  forall k g o, srun L k st g = Some o -> exists N, forall n s, (N <= n)%nat -> at_env g s -> sgave (e_stk s) s o (c (ev n) n 0%nat s).
(** the same with one bound for all variables: statements without statements in them *)
Definition umeans (st : stmt) (c : sem) : Prop :=
  exists N, forall k g o n s, srun L k st g = Some o -> (N <= n)%nat -> at_env g s -> sgave (e_stk s) s o (c (ev n) n 0%nat s).
Lemma umeans_smeans : forall st c, umeans st c -> smeans st c.
Proof. intros st c (N & H) k g o E. exists N. intros n s Hn V. apply (H k g o n s E Hn V). Qed.
Definition bodymeans (b : block) (ts : list token) : Prop :=
  forall k g o, brun L k b g = Some o -> exists N, forall n s, (N <= n)%nat -> at_env g s -> sgave (e_stk s) s o (run_body (ev n) 0 ts s).
(** what follows a statement of value [v] *)
Definition rrun (k : nat) (b : block) (v : value) (g : env) : option outcome := match b with BNil => Some (g, inl v) | _ => brun L k b g end.
Lemma brun_cons : forall k s b g, brun L k (BCons s b) g = andthen (srun L k s g) (fun g1 v => rrun k b v g1).
Proof. intros k s [|s' b] g; [|reflexivity]. change (brun L k (BCons s BNil) g) with (srun L k s g). destruct (srun L k s g) as [(g1, [v|q])|]; reflexivity. Qed.
Definition cut_to (b : nat) (l : list value) : list value := skipn (length l - b) l.
Definition rmeans (b : block) (c : sem) : Prop :=
  forall k g v o, rrun k b v g = Some o -> exists N, forall n s stk, (N <= n)%nat -> at_env g s -> e_stk s = v :: stk -> (fr_base (getf 0 s) <= length stk)%nat ->
    sgave (match b with BNil => stk | _ => cut_to (fr_base (getf 0 s)) stk end) s o (c (ev n) n 0%nat s).
Fixpoint brmeans (br : branches) (l : list (list token * list token)) : Prop :=
  match br, l with
  | CNil, [] => True
  | CCons c b br', (cs, bs) :: l' => cmeans n_expr c cs /\ bodymeans b bs /\ brmeans br' l'
  | _, _ => False
  end.

Lemma cut_self : forall l, cut_to (length l) l = l.
Proof. intro l. unfold cut_to. rewrite Nat.sub_diag. reflexivity. Qed.
Lemma cut_cons : forall b v l, (b <= length l)%nat -> cut_to b (v :: l) = cut_to b l.
Proof. intros b v l H. unfold cut_to. cbn [length]. replace (S (length l) - b)%nat with (S (length l - b)) by lia. reflexivity. Qed.
Lemma cut_length : forall b l, (b <= length l)%nat -> length (cut_to b l) = b.
Proof. intros b l H. unfold cut_to. rewrite skipn_length. lia. Qed.

Lemma cmeans_of : forall rule e ts c, text_is L rule ts c -> (exists N, forall n g s, (N <= n)%nat -> at_env g s -> sgave (e_stk s) s (g, xval L g e) (c (ev n) n 0%nat s)) -> cmeans rule e ts.
Proof.
  intros rule e ts c Ht (N & H). destruct (code_gave rule ts c Ht) as (N' & E). exists (S (N + N')). intros n g s Hn V. apply (E N g); [|exact Hn|exact V]. intros n' s' Hn' V' _. apply H; assumption.
Qed.

(** ** Statements *)
Lemma env_plain : forall g s, at_env g s -> all_plain g.
Proof. intros g s (_ & _ & _ & V) n v H. apply V in H. apply H. Qed.
Lemma env_entry : forall g s x v, at_env g s -> g x = Some v -> has_entry s x 0 /\ sees s x 0 0 v.
Proof. intros g s x v (_ & _ & _ & V) H. apply V in H. split; [destruct H as (D & _); unfold has_entry; congruence|apply sees_own; exact H]. Qed.
Lemma env_none : forall g s x, at_env g s -> g x = None -> ~ has_entry s x 0 /\ forall q u, ~ sees s x 0 q u.
Proof.
  intros g s x (C & _ & P & V) H. assert (X : forall q u, ~ sees s x 0 q u). { intros q u S. inversion S; subst; [|congruence]. match goal with D : defines s x 0 u |- _ => apply V in D; congruence end. }
  split; [|exact X]. intro He. destruct (entry_sees s x 0 C He) as (q & v & S & _). exact (X _ _ S).
Qed.
Lemma wrote_gave : forall d g x v stk s s', at_env g s -> wrote 0 x v (v :: stk) s s' -> coherent s' -> dgave d stk s (with_var x v g, inl v) (inl (tt, s')).
Proof.
  intros d g x v stk s s' (C & F & P & V) (W1 & W2 & W3 & W4 & W5 & W6 & W7) C'. exists s'. split; [reflexivity|]. split; [exact W1|]. split; [|split].
  - split; [exact C'|]. split; [rewrite W4; exact F|]. split; [rewrite <- P; apply (W3 0%nat)|]. intros n u. rewrite W2. cbn [fst]. unfold with_var. cbn [Nat.eqb]. rewrite Bool.andb_true_r. destruct (beq n x); [split; congruence|apply V].
  - split; [intros m i u Hi; rewrite W2; destruct (Nat.eqb_spec i 0); [contradiction|]; rewrite Bool.andb_false_r; reflexivity|]. split; [intro i; destruct (W3 i) as (a & b & c & d0 & e); auto|]. repeat split; try assumption; apply W7.
  - intro i. apply (W3 i).
Qed.
Lemma assign_gave : forall ts x g v stk s, x <> [] -> plain v -> at_env g s -> e_stk s = v :: stk -> sgave stk s (with_var x v g, inl v) (blame ts (raise (Assign 0 x)) s).
Proof.
  intros ts x g v stk s Nx Pv V K. apply (sgave_blame _ true). unfold raise, bind.
  assert (X : exists s', Assign 0 x s = inl (None, s') /\ wrote 0 x v (e_stk s) s s' /\ coherent s').
  { destruct (g x) as [u|] eqn:G.
    - destruct (env_entry g s x u V G) as (He & S). apply (C57_assign 0 x s 0%nat u v stk); auto. apply V.
    - destruct (env_none g s x V G) as (He & S). apply (C57_assign_new 0 x s v stk); auto; apply V. }
  destruct X as (s' & -> & Wr & C'). unfold ret. apply wrote_gave; [exact V|rewrite <- K; exact Wr|exact C'].
Qed.
Lemma smeans_alike : forall st c c', alike c c' -> smeans st c' -> smeans st c.
Proof. intros st c c' A H k g o E. destruct (H k g o E) as (N & M). exists N. intros n s Hn V. rewrite A. apply M; assumption. Qed.
Lemma val_means : forall e c, (exists N, forall n g s, (N <= n)%nat -> at_env g s -> sgave (e_stk s) s (g, xval L g e) (c (ev n) n 0%nat s)) -> umeans (SVal e) c.
Proof. intros e c (N & H). exists N. intros k g o n s [= <-] Hn V. apply H; assumption. Qed.
Lemma set_means : forall x e ts0 ts c, plain_lib L -> written L 5 e ts -> x <> [] -> (exists N, forall n g s, (N <= n)%nat -> at_env g s -> sgave (e_stk s) s (g, xval L g e) (c (ev n) n 0%nat s)) ->
  umeans (SSet x e) (c >> (fun _ _ p => blame ts0 (raise (Assign p x)))).
Proof.
  intros x e ts0 ts c PL Hw Nx (N & H). exists N. intros k g o n s E Hn V. specialize (H n g s Hn V). pose proof (xval_tame L g PL (env_plain g s V) 5 e ts Hw) as T. cbn in E. unfold seq.
  destruct (xval L g e) as [v|q]; injection E as <-.
  - eapply sgave_bind; [exact H|]. intros s1 K V1 _ _. apply assign_gave; assumption.
  - apply (sgave_stop _ _ _ _ _ _ _ (fun r => r) H). reflexivity.
Qed.
Lemma incdec_tame : forall k f, In (k, f) incdec_ops -> forall v, tame (f v).
Proof. intros k f [[= _ <-]|[[= _ <-]|[]]] v; destruct v; try exact Logic.I; intros ? ?; discriminate. Qed.
Lemma assign_tame : forall k f, In (k, f) assign_ops -> forall v w, tame (f v w).
Proof.
  intros k f H v w. unfold assign_ops in H. cbn [In] in H. destruct H as [[= _ <-]|[[= _ <-]|[[= _ <-]|[[= _ <-]|[[= _ <-]|[]]]]]].
  - apply (op_tame L 2 _ _ (op_add L)).
  - apply (op_tame L 2 _ _ (op_sub L)).
  - apply (op_tame L 1 _ _ (op_mul L)).
  - apply (op_tame L 1 _ _ (op_quo L)).
  - apply (op_tame L 1 _ _ (op_mod L)).
Qed.
Lemma inc_means : forall kd f x ts0, In (kd, f) incdec_ops -> umeans (SInc f x) (fun _ _ p => blame ts0 (raise (IncDec f p x))).
Proof.
  intros kd f x ts0 Hf. exists 0%nat. intros k g o n s E _ V. apply (sgave_blame _ true). unfold raise, bind. cbn in E. destruct (g x) as [u|] eqn:G.
  - destruct (env_entry g s x u V G) as (He & S). pose proof (incdec_tame kd f Hf u) as T. destruct (f u) as [v|q] eqn:Ef; injection E as <-.
    + destruct (C57_inc f 0 x s 0%nat u v (proj1 V) He S Ef T) as (s' & -> & Wr & C'). apply wrote_gave; assumption.
    + unfold IncDec, bind. rewrite (getVar_entry s x 0 0%nat u (proj1 V) He S). cbn [snd]. rewrite Ef. unfold of_op, throw.
      apply (throws [] (e_stk s) s g q V eq_refl).
  - injection E as <-. destruct (env_none g s x V G) as (He & _). rewrite (proj2 (C57_op_unknown 0 x s He)). apply (throws [] (e_stk s) s g _ V eq_refl).
Qed.
Lemma op_means : forall kd f x e ts0 c, In (kd, f) assign_ops -> (exists N, forall n g s, (N <= n)%nat -> at_env g s -> sgave (e_stk s) s (g, xval L g e) (c (ev n) n 0%nat s)) ->
  umeans (SOp f x e) (c >> (fun _ _ p => blame ts0 (raise (OpAssign f p x)))).
Proof.
  intros kd f x e ts0 c Hf (N & H). exists N. intros k g o n s E Hn V. specialize (H n g s Hn V). cbn in E. unfold seq.
  destruct (xval L g e) as [w|q]; [|injection E as <-; apply (sgave_stop _ _ _ _ _ _ _ (fun r => r) H); reflexivity].
  eapply sgave_bind; [exact H|]. intros s1 K V1 _ _. apply (sgave_blame _ true). unfold raise, bind. destruct (g x) as [u|] eqn:G.
  - destruct (env_entry g s1 x u V1 G) as (He & S). pose proof (assign_tame kd f Hf u w) as T. destruct (f u w) as [v|q] eqn:Ef; injection E as <-.
    + destruct (C57_op_assign f 0 x s1 0%nat u w v _ (proj1 V1) K He S Ef T) as (s' & -> & Wr & C'). apply wrote_gave; assumption.
    + unfold OpAssign, bind. rewrite (getVar_entry s1 x 0 0%nat u (proj1 V1) He S). unfold pop. rewrite K. cbn [snd]. rewrite Ef. unfold of_op, throw.
      eapply sgave_from; [apply (still_stk s1 (e_stk s))|intro; reflexivity|]. apply (throws [] (e_stk s) (set_stk (e_stk s) s1) g q); [apply env_stk; exact V1|reflexivity].
  - injection E as <-. destruct (env_none g s1 x V1 G) as (He & _). rewrite (proj1 (C57_op_unknown 0 x s1 He)). apply (throws [w] (e_stk s) s1 g _ V1 K).
Qed.

(** a condition: its value is taken from the stack *)
Lemma popped : forall v stk (s : St) {A} (f : value -> @Q W A), e_stk s = v :: stk -> bind pop_any f s = f v (set_stk stk s).
Proof. intros v stk s A f K. unfold pop_any, bind, pop. rewrite K. reflexivity. Qed.
Lemma cond_gave : forall d e g stk (m : @Q W unit) (f : value -> @Q W unit) s o, at_env g s -> dgave d stk s (g, xval L g e) (m s) ->
  match xval L g e with
  | inl v => forall s1, e_stk s1 = stk -> at_env g s1 -> still s s1 -> bases s s1 -> dgave d stk s1 o (f v s1)
  | inr q => o = (g, inr q)
  end -> dgave d stk s o ((m ;;; v <-- pop_any ;; f v) s).
Proof.
  intros d e g stk m f s o V H Hf. destruct (xval L g e) as [v|q].
  - eapply sgave_bind; [exact H|]. intros s1 K V1 S1 B1. rewrite (popped v stk) by exact K. eapply sgave_from; [apply (still_stk s1 stk)|intro; reflexivity|]. apply Hf; [reflexivity|apply env_stk; exact V1| |exact B1].
    eapply still_trans; [exact S1|apply still_stk].
  - subst o. apply (sgave_stop _ _ _ _ _ _ _ (fun r => r) H). reflexivity.
Qed.
Lemma ifrun_cons : forall k c b br E g, ifrun L k (CCons c b br) E g =
  match xval L g c with
  | inl (VBool true) => brun L k b g
  | inl (VBool false) => ifrun L k br E g
  | inl _ => Some (g, inr (PvErr (EOther (VMsg m_ifcond []))))
  | inr q => Some (g, inr q)
  end.
Proof. reflexivity. Qed.
Lemma caserun_cons : forall k v c b br E g, caserun L k v (CCons c b br) E g =
  match xval L g c with
  | inl w => match EQ (l_same L) v w with inl (VBool true) => brun L k b g | inl _ => caserun L k v br E g | inr q => Some (g, inr q) end
  | inr q => Some (g, inr q)
  end.
Proof. reflexivity. Qed.
Lemma if_means : forall br l els eb, brmeans br l -> bodymeans eb els -> forall k g o, ifrun L k br (brun L k eb) g = Some o ->
  exists N, forall n s, (N <= n)%nat -> at_env g s -> dgave true (e_stk s) s o (if_chain (ev n) 0 l els s).
Proof.
  induction br as [|c b br IH]; intros l els eb; destruct l as [|(cs, bs) l]; intros Hb He k g o E; try (destruct Hb; fail).
  - destruct (He k g o E) as (N & M). exists N. intros n s Hn V. apply loosely. apply M; assumption.
  - destruct Hb as (Hc & Hbd & Hbr). destruct Hc as (N & Hc). rewrite ifrun_cons in E.
    assert (X : exists N', forall n s stk v, (N' <= n)%nat -> at_env g s -> e_stk s = stk -> xval L g c = inl v ->
      dgave true stk s o (match v with VBool true => run_body (ev n) 0 bs | VBool false => if_chain (ev n) 0 l els | _ => throw_err m_ifcond end s)).
    { destruct (xval L g c) as [v0|q]; [|exists 0%nat; intros; discriminate].
      destruct v0 as [|b0| | | | | | | | | | | | | | | | | | | | | | | ];
        try (injection E as <-; exists 0%nat; intros ? ? ? ? _ V K Ev; injection Ev as <-; apply (throws []); assumption).
      destruct b0.
      - destruct (Hbd k g o E) as (N' & M). exists N'. intros n s stk v Hn V <- [= <-]. apply loosely. apply M; assumption.
      - destruct (IH l els eb Hbr He k g o E) as (N' & M). exists N'. intros n s stk v Hn V <- [= <-]. apply M; assumption. }
    destruct X as (N' & X). exists (N + N')%nat. intros n s Hn V. cbn [if_chain]. apply (cond_gave true c g); [exact V|apply loosely; apply Hc; [lia|exact V]|].
    destruct (xval L g c) as [v|q]; [|injection E as <-; reflexivity]. intros s1 K V1 _ _. apply X; [lia|assumption|assumption|reflexivity].
Qed.
Lemma case_means : forall v br l d db, brmeans br l -> bodymeans db d -> forall k g o, caserun L k v br (brun L k db) g = Some o ->
  exists N, forall n s, (N <= n)%nat -> at_env g s -> dgave true (e_stk s) s o (cases L (ev n) 0 v l d s).
Proof.
  intros v. induction br as [|c b br IH]; intros l d db; destruct l as [|(cs, bs) l]; intros Hb He k g o E; try (destruct Hb; fail).
  - destruct (He k g o E) as (N & M). exists N. intros n s Hn V. apply loosely. apply M; assumption.
  - destruct Hb as (Hc & Hbd & Hbr). destruct Hc as (N & Hc). rewrite caserun_cons in E.
    assert (X : exists N', forall n s stk w, (N' <= n)%nat -> at_env g s -> e_stk s = stk -> xval L g c = inl w ->
      dgave true stk s o ((e <-- of_op (EQ (l_same L) v w) ;; match e with VBool true => run_body (ev n) 0 bs | _ => cases L (ev n) 0 v l d end) s)).
    { destruct (xval L g c) as [w0|q]; [|exists 0%nat; intros; discriminate]. pose proof (eq_tame L v w0) as T.
      destruct (EQ (l_same L) v w0) as [r|q] eqn:Eq.
      - destruct r; try (destruct T; fail). destruct b0.
        + destruct (Hbd k g o E) as (N' & M). exists N'. intros n s stk w Hn V <- Ew. injection Ew as <-. rewrite Eq. apply loosely. apply M; assumption.
        + destruct (IH l d db Hbr He k g o E) as (N' & M). exists N'. intros n s stk w Hn V <- Ew. injection Ew as <-. rewrite Eq. apply M; assumption.
      - injection E as <-. exists 0%nat. intros n s stk w _ V K Ew. injection Ew as <-. rewrite Eq. apply (throws []); assumption. }
    destruct X as (N' & X). exists (N + N')%nat. intros n s Hn V. cbn [cases]. apply (cond_gave true c g _ _ (fun w => e <-- of_op (EQ (l_same L) v w) ;; match e with VBool true => run_body (ev n) 0 bs | _ => cases L (ev n) 0 v l d end)); [exact V|apply loosely; apply Hc; [lia|exact V]|].
    destruct (xval L g c) as [w|q]; [|injection E as <-; reflexivity]. intros s1 K V1 _ _. apply X; [lia|assumption|assumption|reflexivity].
Qed.
(** what the tokens of a switch between the keyword and the brace mean *)
Definition omeans (e : option ex) (ts : list token) : Prop := match e with None => ts = [] | Some e => ts <> [] /\ cmeans n_expr e ts end.
Lemma switch_means : forall x xs br l d db, omeans x xs -> brmeans br l -> bodymeans db d -> forall k g o, srun L k (SSwitch x br db) g = Some o ->
  exists N, forall n s, (N <= n)%nat -> at_env g s -> dgave true (e_stk s) s o (switch_on L (ev n) 0 xs l d s).
Proof.
  intros x xs br l d db Hx Hb Hd k g o E. change (match oval L x g with inl v => caserun L k v br (brun L k db) g | inr q => Some (g, inr q) end = Some o) in E. destruct x as [e|]; cbn [oval omeans] in *.
  - destruct Hx as (Nx & N & Hx).
    assert (X : exists N', forall n s stk v, (N' <= n)%nat -> at_env g s -> e_stk s = stk -> xval L g e = inl v -> dgave true stk s o (cases L (ev n) 0 v l d s)).
    { destruct (xval L g e) as [v0|q]; [|exists 0%nat; intros; discriminate]. destruct (case_means v0 br l d db Hb Hd k g o E) as (N' & M). exists N'. intros n s stk v Hn V <- Ev. injection Ev as <-. apply M; assumption. }
    destruct X as (N' & X). exists (N + N')%nat. intros n s Hn V. destruct xs as [|t xs]; [contradiction|]. apply (cond_gave true e g _ _ (fun v => cases L (ev n) 0 v l d)); [exact V|apply loosely; apply Hx; [lia|exact V]|].
    destruct (xval L g e) as [v|q]; [|injection E as <-; reflexivity]. intros s1 K V1 _ _. apply X; [lia|assumption|assumption|reflexivity].
  - subst xs. apply (case_means (VBool true) br l d db Hb Hd k g o E).
Qed.

(** ** Loops *)
Definition drop_means (run : nat -> env -> option outcome) (rule : bytes) (ts : list token) : Prop :=
  forall k g o, run k g = Some o -> exists N, forall n s (f : @Q W unit) o', (N <= n)%nat -> at_env g s ->
    match o with
    | (g1, inl _) => forall s1, e_stk s1 = e_stk s -> at_env g1 s1 -> still s s1 -> bases s s1 -> dgave true (e_stk s) s1 o' (f s1)
    | _ => o' = o
    end -> dgave true (e_stk s) s o' ((run_drop (ev n) 0 rule ts ;;; f) s).
Lemma drops : forall run rule ts, (forall k g o, run k g = Some o -> exists N, forall n s, (N <= n)%nat -> at_env g s -> sgave (e_stk s) s o (evalCode (ev n) 0 rule (VCode ts) s)) -> ts <> [] -> drop_means run rule ts.
Proof.
  intros run rule ts H Ht k g o E. destruct (H k g o E) as (N & M). exists N. intros n s f o' Hn V Hf. specialize (M n s Hn V). apply loosely in M. destruct ts as [|t ts]; [contradiction|]. unfold run_drop.
  destruct o as (g1, [v|q]).
  - destruct M as (s1 & E1 & K1 & V1 & S1 & B1). cbn [fst snd] in *. unfold bind at 1 2. rewrite E1. unfold bind, pop. rewrite K1. cbn. apply (sgave_from true _ s s1); [exact S1|exact B1|].
    eapply sgave_from; [apply (still_stk s1 (e_stk s))|intro; reflexivity|]. apply Hf; [reflexivity|apply env_stk; exact V1| |exact B1]. eapply still_trans; [exact S1|apply still_stk].
  - subst o'. destruct M as (e & s1 & E1 & M). exists e, s1. unfold bind. rewrite E1. split; [reflexivity|exact M].
Qed.
Lemma no_drop : forall run rule, (forall k g, run k g = Some (g, inl VNil)) -> drop_means run rule [].
Proof. intros run rule H k g o E. rewrite H in E. injection E as <-. exists 0%nat. intros n s f o' _ V Hf. unfold run_drop, bind, ret. apply Hf; [reflexivity|exact V|apply still_refl|intro; reflexivity]. Qed.

Definition fmeans (e : option ex) (ts : list token) : Prop := match e with None => ts = [] | Some e => ts <> [] /\ cmeans n_s e ts end.
Lemma holds_gave : forall e ts, fmeans e ts -> exists N, forall n g s (f : bool -> @Q W unit) o', (N <= n)%nat -> at_env g s ->
  match oval L e g with
  | inl (VBool b) => forall s1, e_stk s1 = e_stk s -> at_env g s1 -> still s s1 -> bases s s1 -> dgave true (e_stk s) s1 o' (f b s1)
  | inl _ => o' = (g, inr (msg m_forcond []))
  | inr q => o' = (g, inr q)
  end -> dgave true (e_stk s) s o' ((b <-- QText.holds (ev n) 0 ts ;; f b) s).
Proof.
  intros [e|] ts H; cbn [fmeans oval] in *.
  - destruct H as (Ht & N & H). exists N. intros n g s f o' Hn V Hf. specialize (H n g s Hn V). apply loosely in H. destruct ts as [|t ts]; [contradiction|]. unfold QText.holds.
    destruct (xval L g e) as [v|q].
    + destruct H as (s1 & E1 & K1 & V1 & S1 & B1). cbn [fst snd] in *. unfold bind at 1 2. rewrite E1. unfold bind, pop. rewrite K1. apply (sgave_from true _ s s1); [exact S1|exact B1|].
      eapply sgave_from; [apply (still_stk s1 (e_stk s))|intro; reflexivity|].
      destruct v; try (rewrite Hf; apply (throws []); [apply env_stk; exact V1|reflexivity]).
      apply Hf; [reflexivity|apply env_stk; exact V1| |exact B1]. eapply still_trans; [exact S1|apply still_stk].
    + subst o'. destruct H as (e0 & s1 & E1 & M). exists e0, s1. unfold bind. rewrite E1. split; [reflexivity|exact M].
  - subst ts. exists 0%nat. intros n g s f o' _ V Hf. unfold QText.holds, bind, ret. apply Hf; [reflexivity|exact V|apply still_refl|intro; reflexivity].
Qed.
Lemma rounds_gave : forall c cs body bs step ss, fmeans c cs -> drop_means body n_docr bs -> drop_means step n_s ss -> forall k j g o, loop j (oval L c) (body k) (step k) g = Some o ->
  exists N, forall n K s, (N <= n)%nat -> (N <= K)%nat -> at_env g s -> dgave true (e_stk s) s o ((rounds (ev n) K 0 cs bs ss ;;; push VNil) s).
Proof.
  intros c cs body bs step ss Hc Hb Hs k. destruct (holds_gave c cs Hc) as (N & Hh). induction j as [|j IH]; intros g o E; [discriminate E|]. cbn [loop] in E.
  assert (X : exists N', forall n K s stk b, (N' <= n)%nat -> (N' <= K)%nat -> at_env g s -> e_stk s = stk -> oval L c g = inl (VBool b) ->
    dgave true stk s o (if b then (run_drop (ev n) 0 n_docr bs ;;; run_drop (ev n) 0 n_s ss ;;; rounds (ev n) K 0 cs bs ss ;;; push VNil) s else push VNil s)).
  { destruct (oval L c g) as [v0|q]; [|exists 0%nat; intros; discriminate]. destruct v0; try (exists 0%nat; intros; discriminate). destruct b.
    - destruct (body k g) as [(g1, [v1|q1])|] eqn:E1; cbn [andthen] in E; [| |discriminate E].
      + destruct (Hb k g _ E1) as (N1 & M1). destruct (step k g1) as [(g2, [v2|q2])|] eqn:E2; cbn [andthen] in E; [| |discriminate E].
        * destruct (Hs k g1 _ E2) as (N2 & M2). destruct (IH g2 o E) as (N3 & M3). exists (N1 + N2 + N3)%nat. intros n K s stk b Hn HK V <- Eb. injection Eb as <-.
          apply M1; [lia|exact V|]. intros s1 K1 V1 S1 B1. rewrite <- K1. apply M2; [lia|exact V1|]. intros s2 K2 V2 S2 B2. rewrite <- K2. apply M3; [lia|lia|exact V2].
        * injection E as <-. destruct (Hs k g1 _ E2) as (N2 & M2). exists (N1 + N2)%nat. intros n K s stk b Hn HK V <- Eb. injection Eb as <-.
          apply M1; [lia|exact V|]. intros s1 K1 V1 S1 B1. rewrite <- K1. apply M2; [lia|exact V1|]. reflexivity.
      + injection E as <-. destruct (Hb k g _ E1) as (N1 & M1). exists N1. intros n K s stk b Hn HK V <- Eb. injection Eb as <-. apply M1; [lia|exact V|]. reflexivity.
    - injection E as <-. exists 0%nat. intros n K s stk b _ _ V <- Eb. injection Eb as <-. exists (pushed VNil s). split; [reflexivity|]. split; [reflexivity|]. split; [apply env_stk; exact V|]. split; [apply still_stk|intro; reflexivity]. }
  destruct X as (N' & X). exists (S (N + N'))%nat. intros n K s Hn HK V. destruct K as [|K]; [lia|]. cbn [rounds].
  replace ((((h <-- QText.holds (ev n) 0 cs;; (if h then run_drop (ev n) 0 n_docr bs;;; run_drop (ev n) 0 n_s ss;;; rounds (ev n) K 0 cs bs ss else ret tt));;; push VNil)) s)
    with ((h <-- QText.holds (ev n) 0 cs;; (fun s => if h then (run_drop (ev n) 0 n_docr bs;;; run_drop (ev n) 0 n_s ss;;; rounds (ev n) K 0 cs bs ss ;;; push VNil) s else push VNil s)) s).
  - apply (Hh n g s _ o); [lia|exact V|]. destruct (oval L c g) as [v0|q]; [|injection E as <-; reflexivity].
    destruct v0 as [|b0| | | | | | | | | | | | | | | | | | | | | | | ]; try (injection E as <-; reflexivity). intros s1 K1 V1 _ _. apply X; [lia|lia|exact V1|exact K1|reflexivity].
  - unfold bind. destruct (QText.holds (ev n) 0 cs s) as [(h, s1)|(e, s1)]; [|reflexivity]. destruct h; [|reflexivity].
    destruct (run_drop (ev n) 0 n_docr bs s1) as [(u, s2)|(e, s2)]; [|reflexivity]. destruct (run_drop (ev n) 0 n_s ss s2) as [(u', s3)|(e, s3)]; [|reflexivity]. reflexivity.
Qed.
(** ** Blocks *)
Lemma sgave_lower : forall d l stk s g q r, dgave d (l ++ stk) s (g, inr q) r -> dgave d stk s (g, inr q) r.
Proof.
  intros d l stk s g q r (e & s' & E & X0 & (l' & K) & V & S & Bs). exists e, s'. split; [exact E|]. split; [exact X0|]. split; [exists (l' ++ l); rewrite K; apply app_assoc|]. split; [exact V|]. split; [exact S|].
  intro i. destruct (Bs i) as [X|X]; [left; exact X|right; rewrite app_length in X; lia].
Qed.
Lemma cut_app : forall b l, exists l', l = l' ++ cut_to b l.
Proof. intros b l. exists (firstn (length l - b) l). unfold cut_to. symmetry. apply firstn_skipn. Qed.
Definition dmeans (s : stmt) (b : block) (c : sem) : Prop :=
  forall k g o, brun L k (BCons s b) g = Some o -> exists N, forall n st, (N <= n)%nat -> at_env g st -> (fr_base (getf 0 st) <= length (e_stk st))%nat ->
    sgave (match b with BNil => e_stk st | _ => cut_to (fr_base (getf 0 st)) (e_stk st) end) st o (c (ev n) n 0%nat st).
Lemma doc_means : forall s b c rc, smeans s c -> rmeans b rc -> dmeans s b (c >> rc).
Proof.
  intros s b c rc Hs Hr k g o E. rewrite brun_cons in E. unfold seq. destruct (srun L k s g) as [(g1, [v|q])|] eqn:E1; cbn [andthen] in E; [| |discriminate E].
  - destruct (Hs k g _ E1) as (N1 & M1). destruct (Hr k g1 v o E) as (N2 & M2). exists (N1 + N2)%nat. intros n st Hn V HB. eapply sgave_bind; [apply M1; [lia|exact V]|].
    intros s1 K1 V1 S1 B1. rewrite <- (B1 0%nat). apply M2; [lia|exact V1|exact K1|rewrite (B1 0%nat); exact HB].
  - injection E as <-. destruct (Hs k g _ E1) as (N1 & M1). exists N1. intros n st Hn V HB. apply (sgave_stop _ _ _ _ _ _ _ (fun r => r)); [|reflexivity]. specialize (M1 n st Hn V).
    destruct b; [exact M1|]. destruct (cut_app (fr_base (getf 0 st)) (e_stk st)) as (l & El). rewrite El in M1 at 1. apply (sgave_lower _ l). exact M1.
Qed.
Lemma rest_means : forall ts s b c, dmeans s b c -> rmeans (BCons s b) ((fun _ _ p => blame ts (Clear p)) >> c).
Proof.
  intros ts s b c Hd k g v o E. destruct (Hd k g o E) as (N & M). exists N. intros n st stk Hn V K HB. unfold seq, bind, blame, Clear, gets, SetFrame. unfold bind at 1.
  assert (X : (fr_base (getf 0 st) <=? length (e_stk st))%nat = true) by (apply Nat.leb_le; rewrite K; cbn; lia). rewrite X. clear X.
  change (skipn (length (e_stk st) - fr_base (getf 0 st)) (e_stk st)) with (cut_to (fr_base (getf 0 st)) (e_stk st)). rewrite K, cut_cons by exact HB.
  set (s1 := set_stk (cut_to (fr_base (getf 0 st)) stk) st). eapply sgave_from; [apply (still_stk st (cut_to (fr_base (getf 0 st)) stk))|intro; reflexivity|]. fold s1.
  assert (L1 : length (e_stk s1) = fr_base (getf 0 s1)) by (apply (cut_length (fr_base (getf 0 st)) stk HB)).
  specialize (M n s1 Hn (env_stk _ _ _ V) ltac:(lia)). change (cut_to (fr_base (getf 0 st)) stk) with (e_stk s1). destruct b; [exact M|]. rewrite <- L1, cut_self in M. exact M.
Qed.
Lemma rmeans_alike : forall b c c', alike c c' -> rmeans b c' -> rmeans b c.
Proof. intros b c c' A H k g v o E. destruct (H k g v o E) as (N & M). exists N. intros n s stk Hn V K HB. rewrite A. apply M; assumption. Qed.
Lemma alike_assoc : forall a b c : sem, alike ((a >> b) >> c) (a >> (b >> c)).
Proof. intros a b c ev0 k p s. unfold seq, bind. destruct (a ev0 k p s) as [(u, s1)|]; reflexivity. Qed.
Lemma nop_means : rmeans BNil nop.
Proof. intros k g v o [= <-]. exists 0%nat. intros n s stk _ V K _. exists s. split; [reflexivity|]. split; [exact K|]. split; [exact V|]. split; [apply still_refl|intro; reflexivity]. Qed.
Lemma nil_means : umeans SNone (puts VNil).
Proof. exists 0%nat. intros k g o n s [= <-] _ V. exists (pushed VNil s). split; [reflexivity|]. split; [reflexivity|]. split; [apply env_stk; exact V|]. split; [apply still_stk|intro; reflexivity]. Qed.

(** what the tokens of a block mean *)
Definition block_means (b : block) (ts : list token) : Prop := match b with BNil => ts = [] | BCons s b' => ts <> [] /\ exists c, doc_is L ts c /\ dmeans s b' c end.
Lemma block_code : forall s b ts c, doc_is L ts c -> dmeans s b c -> forall k g o, brun L k (BCons s b) g = Some o ->
  exists N, forall n st, (N <= n)%nat -> at_env g st -> sgave (e_stk st) st o (evalCode (ev n) 0 n_docr (VCode ts) st).
Proof.
  intros s b ts c Hd M k g o E. destruct (code_gave n_docr ts c (or_intror (or_introl (conj eq_refl Hd)))) as (N' & G). destruct (M k g o E) as (N & H).
  exists (S (N + N')). intros n st Hn V. apply (G N g); [|exact Hn|exact V]. intros n1 s1 Hn1 V1 HB. specialize (H n1 s1 Hn1 V1 ltac:(lia)). destruct b; [exact H|]. rewrite HB, cut_self in H. exact H.
Qed.
Lemma block_body : forall b ts, block_means b ts -> (exists c, opt_doc L ts c) /\ bodymeans b ts /\ drop_means (fun k => brun L k b) n_docr ts.
Proof.
  intros [|s b] ts H.
  - cbn in H. subst ts. split; [exists nop; constructor|]. split; [|apply no_drop; reflexivity]. intros k g o [= <-]. exists 0%nat. intros n s _ V.
    exists (pushed VNil s). split; [reflexivity|]. split; [reflexivity|]. split; [apply env_stk; exact V|]. split; [apply still_stk|intro; reflexivity].
  - destruct H as (Ht & c & Hd & M). split; [exists c; apply OD_some; exact Hd|]. split; [|apply drops; [intros k g o; apply (block_code s b ts c Hd M)|exact Ht]].
    intros k g o E. destruct (block_code s b ts c Hd M k g o E) as (N & G). exists N. intros n st Hn V. destruct ts; [contradiction|]. apply G; assumption.
Qed.

(** ** Loops and their headers *)
Definition header_means (i : stmt) (c : option ex) (st : stmt) (header : list (list token)) : Prop :=
  exists is cs ss, drop_means (fun k => srun L k i) n_s is /\ fmeans c cs /\ drop_means (fun k => srun L k st) n_s ss /\
    forall n p b, for_stmt (ev n) n p header b = (run_drop (ev n) p n_s is ;;; rounds (ev n) n p cs b ss ;;; push VNil).
Lemma for_means : forall i c st header b bs ts, header_means i c st header -> drop_means (fun k => brun L k b) n_docr bs -> smeans (SFor i c st b) (fun ev0 k p => blame ts (for_stmt ev0 k p header bs)).
Proof.
  intros i c st header b bs ts (is & cs & ss & Hi & Hc & Hs & Hf) Hb k g o E. change (andthen (srun L k i g) (fun g1 _ => loop k (oval L c) (brun L k b) (srun L k st) g1) = Some o) in E.
  destruct (srun L k i g) as [(g1, [v|q])|] eqn:E1; cbn [andthen] in E; [| |discriminate E].
  - destruct (Hi k g _ E1) as (N1 & M1). destruct (rounds_gave c cs (fun k => brun L k b) bs (fun k => srun L k st) ss Hc Hb Hs k k g1 o E) as (N2 & M2). exists (N1 + N2)%nat. intros n s Hn V. apply (sgave_blame _ true). rewrite Hf.
    apply M1; [lia|exact V|]. intros s1 K1 V1 _ _. rewrite <- K1. apply M2; [lia|lia|exact V1].
  - injection E as <-. destruct (Hi k g _ E1) as (N1 & M1). exists N1. intros n s Hn V. apply (sgave_blame _ true). rewrite Hf. apply M1; [exact Hn|exact V|reflexivity].
Qed.
Lemma skip_means : forall rule, drop_means (fun k => srun L k SNone) rule [].
Proof. intro rule. apply no_drop. reflexivity. Qed.

(** ** Texts *)
Lemma factor_stmt : forall ts c, factor_is L ts c -> exists c', expr_is L ts c' /\ alike c' c.
Proof.
  intros ts c H. pose proof (EX L _ _ _ _ (T4 L _ _ _ _ (T3 L _ _ _ _ (T2 L _ _ _ _ (T1 L _ _ _ _ H (O1_nil L)) (O2_nil L)) (O3_nil L)) (O4_nil L)) (O5_nil L)) as X. rewrite !app_nil_r in X.
  eexists. split; [exact X|]. intros ev0 k p s. unfold seq, bind, nop, ret. destruct (c ev0 k p s) as [([], s1)|(e, s1)]; reflexivity.
Qed.
Lemma written_start : forall l e ts, written L l e ts -> ts <> [] /\ plain_start ts.
Proof.
  intros l e ts H. induction H; try assumption.
  1-6: split; [discriminate|]; unfold plain_start; cbn [map hd_error].
  - destruct H; match goal with K : tkind _ = _ |- _ => rewrite K end; split; discriminate.
  - rewrite H. split; discriminate.
  - rewrite H. split; discriminate.
  - rewrite H. split; discriminate.
  - rewrite H. split; discriminate.
  - rewrite H. split; discriminate.
  - destruct IHwritten1 as (A & B). destruct ts; [contradiction|]. split; [discriminate|exact B].
  - destruct IHwritten1 as (A & B). destruct ts; [contradiction|]. split; [discriminate|exact B].
  - destruct IHwritten1 as (A & B). destruct ts; [contradiction|]. split; [discriminate|exact B].
Qed.
Lemma cond_means : forall e ts, written L 5 e ts -> ts <> [] /\ hd_error (map tkind ts) <> Some LBRACE /\ (exists c, expr_is L ts c) /\ cmeans n_expr e ts /\ (exists c, stmt_is L ts c) /\ plain_start ts /\ cmeans n_s e ts.
Proof.
  intros e ts H. destruct (written_start _ _ _ H) as (A & B). destruct (expr_means e ts H) as (c & C & M). split; [exact A|]. split; [apply B|]. split; [exists c; exact C|].
  split; [apply (cmeans_of n_expr e ts c (or_introl (conj eq_refl C)) M)|]. split; [exists c; apply S_expr; exact C|]. split; [exact B|]. apply (cmeans_of n_s e ts c); [|exact M].
  right. right. left. split; [reflexivity|]. apply S_expr. exact C.
Qed.
Definition stmt_means (st : stmt) (ts : list token) : Prop := ts <> [] /\ plain_start ts /\ exists c, stmt_is L ts c /\ smeans st c.
Lemma stmt_code : forall st ts, stmt_means st ts -> drop_means (fun k => srun L k st) n_s ts.
Proof.
  intros st ts (Ht & _ & c & Hc & M). apply drops; [|exact Ht]. intros k g o E. destruct (M k g o E) as (N & H).
  destruct (code_gave n_s ts c) as (N' & G); [right; right; left; split; [reflexivity|exact Hc]|]. exists (S (N + N')). intros n s Hn V. apply (G N g); [|exact Hn|exact V]. intros n1 s1 Hn1 V1 _. apply H; assumption.
Qed.
Lemma factor_means : forall st ts c, ts <> [] -> plain_start ts -> factor_is L ts c -> smeans st c -> stmt_means st ts.
Proof.
  intros st ts c A B F M. split; [exact A|]. split; [exact B|]. destruct (factor_stmt ts c F) as (c' & X & Y). exists c'. split; [apply S_expr; exact X|]. apply (smeans_alike st c' c Y M).
Qed.
End WhileP.

Scheme swritten_ind' := Minimality for swritten Sort Prop
with bwritten_ind' := Minimality for bwritten Sort Prop
with rwritten_ind' := Minimality for rwritten Sort Prop
with elwritten_ind' := Minimality for elwritten Sort Prop
with ewritten_ind' := Minimality for ewritten Sort Prop
with cwritten_ind' := Minimality for cwritten Sort Prop
with dwritten_ind' := Minimality for dwritten Sort Prop
with owritten_ind' := Minimality for owritten Sort Prop
with hwritten_ind' := Minimality for hwritten Sort Prop.
Definition written_all := fun W L p1 p2 p3 p4 p5 p6 p7 p8 p9 h1 h2 h3 h4 h5 h6 h7 h8 h9 h10 h11 h12 h13 h14 h15 h16 h17 h18 h19 h20 h21 h22 h23 h24 h25 =>
  conj (swritten_ind' W L p1 p2 p3 p4 p5 p6 p7 p8 p9 h1 h2 h3 h4 h5 h6 h7 h8 h9 h10 h11 h12 h13 h14 h15 h16 h17 h18 h19 h20 h21 h22 h23 h24 h25) (conj (bwritten_ind' W L p1 p2 p3 p4 p5 p6 p7 p8 p9 h1 h2 h3 h4 h5 h6 h7 h8 h9 h10 h11 h12 h13 h14 h15 h16 h17 h18 h19 h20 h21 h22 h23 h24 h25) (conj (rwritten_ind' W L p1 p2 p3 p4 p5 p6 p7 p8 p9 h1 h2 h3 h4 h5 h6 h7 h8 h9 h10 h11 h12 h13 h14 h15 h16 h17 h18 h19 h20 h21 h22 h23 h24 h25) (conj (elwritten_ind' W L p1 p2 p3 p4 p5 p6 p7 p8 p9 h1 h2 h3 h4 h5 h6 h7 h8 h9 h10 h11 h12 h13 h14 h15 h16 h17 h18 h19 h20 h21 h22 h23 h24 h25) (conj (ewritten_ind' W L p1 p2 p3 p4 p5 p6 p7 p8 p9 h1 h2 h3 h4 h5 h6 h7 h8 h9 h10 h11 h12 h13 h14 h15 h16 h17 h18 h19 h20 h21 h22 h23 h24 h25) (conj (cwritten_ind' W L p1 p2 p3 p4 p5 p6 p7 p8 p9 h1 h2 h3 h4 h5 h6 h7 h8 h9 h10 h11 h12 h13 h14 h15 h16 h17 h18 h19 h20 h21 h22 h23 h24 h25) (conj (dwritten_ind' W L p1 p2 p3 p4 p5 p6 p7 p8 p9 h1 h2 h3 h4 h5 h6 h7 h8 h9 h10 h11 h12 h13 h14 h15 h16 h17 h18 h19 h20 h21 h22 h23 h24 h25) (conj (owritten_ind' W L p8 h21 h22) (hwritten_ind' W L p1 p2 p3 p4 p5 p6 p7 p8 p9 h1 h2 h3 h4 h5 h6 h7 h8 h9 h10 h11 h12 h13 h14 h15 h16 h17 h18 h19 h20 h21 h22 h23 h24 h25)))))))).

Section WhileT.
Context {W : Type}.
Variable L : qlib W.
Theorem texts_mean : plain_lib L ->
  (forall st ts, swritten L st ts -> stmt_means L st ts) /\ (forall b ts, bwritten L b ts -> block_means L b ts) /\
  (forall b ts, rwritten L b ts -> exists c, rest_is L ts c /\ rmeans L b c) /\
  (forall br ts, elwritten L br ts -> exists l, elifs_are L ts l /\ brmeans L br l) /\
  (forall b ts, ewritten L b ts -> exists bs, else_is L ts bs /\ bodymeans L b bs) /\
  (forall br ts, cwritten L br ts -> exists l, cases_are L ts l /\ brmeans L br l) /\
  (forall b ts, dwritten L b ts -> exists bs, default_is L ts bs /\ bodymeans L b bs) /\
  (forall e ts, owritten L e ts -> (exists c, opt_expr L ts c) /\ hd_error (map tkind ts) <> Some LBRACE /\ omeans L e ts) /\
  (forall i c st ts, hwritten L i c st ts -> exists header, header_is L ts header /\ header_means L i c st header).
Proof.
  intro PL.
  apply (written_all W L (fun st ts => stmt_means L st ts) (fun b ts => block_means L b ts) (fun b ts => exists c, rest_is L ts c /\ rmeans L b c)
    (fun br ts => exists l, elifs_are L ts l /\ brmeans L br l) (fun b ts => exists bs, else_is L ts bs /\ bodymeans L b bs)
    (fun br ts => exists l, cases_are L ts l /\ brmeans L br l) (fun b ts => exists bs, default_is L ts bs /\ bodymeans L b bs)
    (fun e ts => (exists c, opt_expr L ts c) /\ hd_error (map tkind ts) <> Some LBRACE /\ omeans L e ts)
    (fun i c st ts => exists header, header_is L ts header /\ header_means L i c st header)).
  (* statements *)
  - intros e ts H. destruct (written_start L _ _ _ H) as (A & B). split; [exact A|]. split; [exact B|]. destruct (expr_means L e ts H) as (c & C & M). exists c. split; [apply S_expr; exact C|apply umeans_smeans; apply val_means; exact M].
  - intros t t1 e ts K N K1 H. split; [discriminate|]. split; [unfold plain_start; cbn; rewrite K; split; discriminate|]. destruct (expr_means L e ts H) as (c & C & M).
    eexists. split; [apply S_assign; eassumption|]. apply umeans_smeans. eapply set_means; eassumption.
  - intros t t1 f K K1. split; [discriminate|]. split; [unfold plain_start; cbn; rewrite K; split; discriminate|]. eexists. split; [apply S_incdec; eassumption|]. apply umeans_smeans. eapply inc_means; eassumption.
  - intros t t1 f e ts K K1 H. split; [discriminate|]. split; [unfold plain_start; cbn; rewrite K; split; discriminate|]. destruct (expr_means L e ts H) as (c & C & M).
    eexists. split; [eapply S_opassign; eassumption|]. apply umeans_smeans. eapply op_means; eassumption.
  - intros t c cs t1 b bs t2 br brs els es K Hc K1 Hb IHb K2 Hbr IHbr He IHe. destruct (cond_means L c cs Hc) as (_ & _ & (cc & X) & Mc & _). destruct (block_body L b bs IHb) as ((bc & Ob) & Mb & _).
    destruct IHbr as (l & El & Ml). destruct IHe as (ec & Ee & Me).
    apply (factor_means L _ _ (fun ev0 _ p => blame es (if_chain ev0 p ((cs, bs) :: l) ec))); [discriminate|unfold plain_start; cbn; rewrite K; split; discriminate| |].
    + eapply F_if; [exact K|exact X|apply BD; eassumption|exact El|exact Ee].
    + intros k g o E. destruct (if_means L (CCons c b br) ((cs, bs) :: l) ec els (conj Mc (conj Mb Ml)) Me k g o E) as (N & M). exists N. intros n s Hn V. apply (sgave_blame _ true). apply M; assumption.
  - intros t x xs t1 br brs d ds t2 K Hx IHx K1 Hbr IHbr Hd IHd K2. destruct IHx as ((xc & X) & Xh & Mx). destruct IHbr as (l & El & Ml). destruct IHd as (dc & Ed & Md).
    apply (factor_means L _ _ (fun ev0 _ p => blame [t2] (switch_on L ev0 p xs l dc))); [discriminate|unfold plain_start; cbn; rewrite K; split; discriminate| |].
    + eapply F_switch; eassumption.
    + intros k g o E. destruct (switch_means L x xs br l dc d Mx Ml Md k g o E) as (N & M). exists N. intros n s Hn V. apply (sgave_blame _ true). apply M; assumption.
  - intros t i c st hs t1 b bs t2 K Hh IHh K1 Hb IHb K2. destruct IHh as (header & Eh & Mh). destruct (block_body L b bs IHb) as ((bc & Ob) & _ & Mb).
    apply (factor_means L _ _ (fun ev0 k p => blame [t2] (for_stmt ev0 k p header bs))); [discriminate|unfold plain_start; cbn; rewrite K; split; discriminate| |].
    + eapply F_for; eassumption.
    + apply for_means; assumption.
  (* blocks *)
  - reflexivity.
  - intros s ts b r Hs (A & B & c & C & M) Hr (rc & R & Mr). split; [destruct ts; [contradiction|discriminate]|]. exists (seq c rc). split; [apply D; assumption|apply doc_means; assumption].
  - exists nop. split; [constructor|apply nop_means].
  - intros t s ts b r K Hs (A & B & c & C & M) Hr (rc & R & Mr). eexists. split; [apply R_stmt; eassumption|]. eapply rmeans_alike; [apply alike_assoc|]. apply rest_means. apply doc_means; assumption.
  - intros t b r K Hd Hr (rc & R & Mr). eexists. split; [apply R_empty; eassumption|]. eapply rmeans_alike; [apply alike_assoc|]. apply rest_means. apply doc_means; [apply umeans_smeans; apply nil_means|exact Mr].
  (* branches *)
  - exists []. split; [constructor|exact Logic.I].
  - intros t c cs t1 b bs t2 br r K Hc K1 Hb IHb K2 Hr (l & El & Ml). destruct (cond_means L c cs Hc) as (_ & _ & (cc & X) & Mc & _). destruct (block_body L b bs IHb) as ((bc & Ob) & Mb & _).
    exists ((cs, bs) :: l). split; [eapply EL_cons; [exact K|exact X|apply BD; eassumption|exact El]|exact (conj Mc (conj Mb Ml))].
  - exists []. split; [constructor|]. apply (block_body L BNil []). reflexivity.
  - intros t t1 b bs t2 K K1 Hb IHb K2. destruct (block_body L b bs IHb) as ((bc & Ob) & Mb & _). exists bs. split; [eapply EE_some; [exact K|apply BD; eassumption]|exact Mb].
  - exists []. split; [constructor|exact Logic.I].
  - intros t c cs t1 b bs br r K Hc K1 Hb IHb Hr (l & El & Ml). destruct (cond_means L c cs Hc) as (_ & _ & (cc & X) & Mc & _). destruct (block_body L b bs IHb) as ((bc & Ob) & Mb & _).
    exists ((cs, bs) :: l). split; [eapply CS_cons; eassumption|exact (conj Mc (conj Mb Ml))].
  - exists []. split; [constructor|]. apply (block_body L BNil []). reflexivity.
  - intros t t1 b bs K K1 Hb IHb. destruct (block_body L b bs IHb) as ((bc & Ob) & Mb & _). exists bs. split; [eapply DF_some; eassumption|exact Mb].
  (* headers *)
  - split; [exists nop; constructor|]. split; [discriminate|reflexivity].
  - intros e ts H. destruct (cond_means L e ts H) as (A & B & (c & C) & M & _). split; [exists c; apply OE_some; exact C|]. split; [exact B|]. split; [exact A|exact M].
  - exists []. split; [constructor|]. exists [], [], []. split; [apply skip_means|]. split; [reflexivity|]. split; [apply skip_means|]. reflexivity.
  - intros c cs H. destruct (cond_means L c cs H) as (A & B & _ & _ & (sc & C) & P & M). exists [cs]. split; [pose proof (H_some L _ _ _ _ C P (MH_nil L)) as X; rewrite app_nil_r in X; exact X|].
    exists [], cs, []. split; [apply skip_means|]. split; [exact (conj A M)|]. split; [apply skip_means|]. reflexivity.
  - intros i is c cs st ss t1 t2 Hi IHi K1 Hc K2 Hs IHs. destruct (cond_means L c cs Hc) as (A & B & _ & _ & (sc & C) & P & M). pose proof IHi as (Ai & Pi & ci & Ci & _). pose proof IHs as (As & Ps & cS & CS & _).
    exists [is; cs; ss]. split; [eapply H_some; [exact Ci|exact Pi|]; eapply MH_cons; [exact K1|exact C|exact P|]; eapply MH_cons; [exact K2|exact CS|exact Ps|constructor]|].
    exists is, cs, ss. split; [apply stmt_code; exact IHi|]. split; [exact (conj A M)|]. split; [apply stmt_code; exact IHs|]. reflexivity.
Qed.
End WhileT.
