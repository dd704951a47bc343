(** Property C85: sessions with the interactive calculators. *)
From Coq Require Import String QArith.
From Verif Require Import Base Token Utf8 Utf8Proofs Scanner Tokenize Grammar Matcher MatchProofs MatchProofs2 MatcherProofs Compiler Interp Calc CalcSpec TokenizeProofs PropScan PropCalc Repl.
Local Open Scope list_scope.
Local Open Scope Z_scope.

(** ** Specification *)
(** [t] is [line] without the blanks at its ends. *)
Definition blank (c : Z) : Prop := c = 32 \/ c = 9 \/ c = 13 \/ c = 10.
Definition stripped (line t : bytes) : Prop := exists a b, line = a ++ t ++ b /\ Forall blank a /\ Forall blank b /\
  (forall c r, t = c :: r -> ~ blank c) /\ (forall c r, t = r ++ [c] -> ~ blank c).

Lemma trimmed_blank : forall c, is_trimmed c = true <-> blank c.
Proof. intros c. unfold is_trimmed, blank. rewrite !orb_true_iff, !Z.eqb_eq. tauto. Qed.
Lemma trim_left_spec : forall l, exists a, l = a ++ trim_left l /\ Forall blank a /\ forall c r, trim_left l = c :: r -> ~ blank c.
Proof.
  induction l as [|c l (a & E & F & H)]; [exists []; cbn; repeat split; [constructor|discriminate]|]. cbn [trim_left]. destruct (is_trimmed c) eqn:B.
  - exists (c :: a). split; [cbn; f_equal; exact E|]. split; [constructor; [apply trimmed_blank; exact B|exact F]|exact H].
  - exists []. split; [reflexivity|]. split; [constructor|]. intros c' r Hc. injection Hc as <- <-. rewrite <- trimmed_blank. congruence.
Qed.
Lemma Trim_stripped : forall line, stripped line (Trim line).
Proof.
  intros line. unfold Trim. destruct (trim_left_spec line) as (a & E & F & H). destruct (trim_left_spec (rev (trim_left line))) as (b & E' & F' & H').
  set (m := trim_left line) in *. set (t := trim_left (rev m)) in *. apply (f_equal (@rev Z)) in E'. rewrite rev_involutive, rev_app_distr in E'.
  exists a, (rev b). split; [rewrite <- E'; exact E|]. split; [exact F|]. split; [apply Forall_rev; exact F'|]. split.
  - intros c r Hc. apply (H c (r ++ rev b)). rewrite E', Hc. reflexivity.
  - intros c r Hc. apply (H' c (rev r)). apply (f_equal (@rev Z)) in Hc. rewrite rev_involutive, rev_app_distr in Hc. exact Hc.
Qed.
Lemma blank_prefix : forall a a' t t', a ++ t = a' ++ t' -> Forall blank a -> Forall blank a' -> (forall c r, t = c :: r -> ~ blank c) -> (forall c r, t' = c :: r -> ~ blank c) -> t = t'.
Proof.
  induction a as [|c a IH]; intros [|c' a'] t t' H F F' N N'; cbn [app] in H.
  - exact H.
  - subst t. inversion F'; subst. destruct (N c' (a' ++ t') eq_refl). assumption.
  - subst t'. inversion F; subst. destruct (N' c (a ++ t) eq_refl). assumption.
  - injection H as _ H. inversion F; subst. inversion F'; subst. apply (IH a' t t'); auto.
Qed.
Lemma stripped_unique : forall line t t', stripped line t -> stripped line t' -> t = t'.
Proof.
  intros line t t' (a & b & E & Fa & Fb & N1 & N2) (a' & b' & E' & Fa' & Fb' & N1' & N2').
  assert (Cases : forall u : bytes, u = [] \/ exists c r, u = c :: r) by (intros [|c r]; eauto).
  assert (Empty : forall x y u v, x ++ y = u ++ v :> bytes -> Forall blank x -> Forall blank y -> Forall blank v) by (intros x y u v H Hx Hy; assert (Hf : Forall blank (u ++ v)) by (rewrite <- H; apply Forall_app; auto); apply Forall_app in Hf; tauto).
  destruct (Cases t) as [->|(c & r & ->)].
  - destruct t' as [|c' r']; [reflexivity|]. exfalso. rewrite E in E'. cbn [app] in E'. pose proof (Empty _ _ _ _ E' Fa Fb) as Hf. inversion Hf; subst. apply (N1' c' r' eq_refl). assumption.
  - destruct (Cases t') as [->|(c' & r' & ->)].
    + exfalso. rewrite E' in E. cbn [app] in E. symmetry in E. pose proof (Empty _ _ _ _ (eq_sym E) Fa' Fb') as Hf. inversion Hf; subst. apply (N1 c r eq_refl). assumption.
    + rewrite E in E'. assert (H : (c :: r) ++ b = (c' :: r') ++ b').
      { apply (blank_prefix a a' _ _ E' Fa Fa'); intros x y Hx; cbn [app] in Hx; injection Hx as <- _; [apply (N1 c r eq_refl)|apply (N1' c' r' eq_refl)]. }
      apply (f_equal (@rev Z)) in H. rewrite !(rev_app_distr _ b), (rev_app_distr _ b') in H.
      assert (R : rev (c :: r) = rev (c' :: r')).
      { apply (blank_prefix (rev b) (rev b') _ _ H); [apply Forall_rev; exact Fb|apply Forall_rev; exact Fb'| |].
        - intros x y Hx. apply (N2 x (rev y)). apply (f_equal (@rev Z)) in Hx. rewrite rev_involutive in Hx. exact Hx.
        - intros x y Hx. apply (N2' x (rev y)). apply (f_equal (@rev Z)) in Hx. rewrite rev_involutive in Hx. exact Hx. }
      apply (f_equal (@rev Z)) in R. rewrite !rev_involutive in R. exact R.
Qed.

Section Session.
Context {F X E : Type}.
Variable k : calc F X E.
Variable to_float : val F X unit E -> F.
Variable of_int : Z -> F.
Variable parse_float : bytes -> F + nerr.
Variables isL isD : Z -> bool.
Variable root : gr bytes Empty_set.
Variable d : dst bytes Empty_set unit.
Variable printable : E -> bool.
Notation S := (est unit E unit).
Notation eval := (eval k to_float of_int parse_float isL isD root d printable).
Notation session := (session k to_float of_int parse_float isL isD root d printable).
Notation Eval := (Eval k to_float of_int parse_float isL isD root d).
(** the value of a sequence of tokens *)
Variable value : list token -> option E -> Prop.

(** The tokens of a text, whatever was scanned before. *)
Definition tokens (t : bytes) (ts : list token) : Prop := exists eof, Tokenize isL isD false false (d_tk d) fresh t = TzOk ts eof.
Definition has_value (t : bytes) (v : E) : Prop := exists ts, tokens t ts /\ value ts (Some v).
(** What a line is answered, said of the line alone. *)
Inductive answers (line : bytes) : answer (E := E) -> Prop :=
| ans_silent : stripped line [] -> answers line Silent
| ans_value : forall t v, stripped line t -> t <> [] -> has_value t v -> printable v = true -> answers line (Printed v)
| ans_error : forall t, stripped line t -> t <> [] -> (forall v, has_value t v -> printable v = false) -> answers line Complaint.
(** lines whose tokens can be counted *)
Definition line_ok (line : bytes) : Prop := Forall byte line /\ forall t ts, stripped line t -> tokens t ts -> fits ts.

Hypothesis Hv : forall old src s ts eof, Tokenize isL isD false false (d_tk d) old src = TzOk ts eof -> fits ts -> forall v, value ts (Some v) <->
  exists f s', Eval f old src s = MNil s' /\ e_stk (ust s') = v :: e_stk (ust s) /\ fst (Ret (ust s')) = Some v.
Hypothesis He : forall old src s, (Forall byte src -> exists f, Eval f old src s <> MFuel) /\
  ((forall ts eof, Tokenize isL isD false false (d_tk d) old src = TzOk ts eof -> fits ts) -> forall f s', Eval f old src s = MNil s' ->
   exists ts eof v, Tokenize isL isD false false (d_tk d) old src = TzOk ts eof /\ value ts (Some v) /\ (forall r, value ts r -> r = Some v) /\
     ust s' = mkE 0 (e_ipt (ust s)) (v :: e_stk (ust s)) (e_rest (ust s))).
Hypothesis Hmono : forall f f' old src s, (f <= f')%nat -> Eval f old src s <> MFuel -> Eval f' old src s = Eval f old src s.

Lemma tok_old : forall old t, Tokenize isL isD false false (d_tk d) old t = Tokenize isL isD false false (d_tk d) fresh t.
Proof. reflexivity. Qed.
Lemma strip_bytes : forall line t, Forall byte line -> stripped line t -> Forall byte t.
Proof. intros line t H (a & b & -> & _). apply Forall_app in H. destruct H as (_ & H). apply Forall_app in H. apply H. Qed.
(** one line *)
Lemma line_answer : forall f old line s a s', line_ok line -> eval f old line s = Some (a, s') -> answers line a /\ (forall v, a = Printed v -> e_stk (ust s') = []).
Proof.
  intros f old line s a s' (Hb & Hf) H. unfold Repl.eval in H. pose proof (Trim_stripped line) as Hs. destruct (Trim line) as [|c t]; [injection H as <- <-; split; [apply ans_silent; exact Hs|discriminate]|].
  set (code := c :: t) in *. assert (Hc : code <> []) by discriminate.
  assert (Hfit : forall ts eof, Tokenize isL isD false false (d_tk d) old code = TzOk ts eof -> fits ts) by (intros ts eof Ht; apply (Hf code ts Hs); exists eof; exact Ht).
  assert (Bad : forall r, Eval f old code s = r -> r <> MFuel -> (forall s1, r <> MNil s1) -> forall v, has_value code v -> printable v = false).
  { intros r Hr N1 N2 v (ts & (eof & Ht) & Hval). exfalso. destruct (proj1 (Hv old code s ts eof Ht (Hfit ts eof Ht) v) Hval) as (f' & s1 & E1 & _).
    destruct (Nat.le_gt_cases f f') as [L|L].
    - rewrite (Hmono f f' old code s L) in E1 by congruence. apply (N2 s1). congruence.
    - rewrite (Hmono f' f old code s) in Hr by (congruence || lia). apply (N2 s1). congruence. }
  destruct (Eval f old code s) as [nx s1|s1|s1|e s1|e s1|p s1|] eqn:Ev; try (injection H as <- <-; split; [apply (ans_error line code Hs Hc); eapply Bad; [reflexivity|discriminate|discriminate]|discriminate]); [|discriminate].
  destruct (proj2 (He old code s) Hfit f s1 Ev) as (ts & eof & v & Ht & Hval & Hu & Hs1).
  assert (Uniq : forall v', has_value code v' -> v' = v).
  { intros v' (ts' & (eof' & Ht') & Hv'). rewrite <- (tok_old old) in Ht'. rewrite Ht in Ht'. injection Ht' as -> ->. specialize (Hu _ Hv'). congruence. }
  unfold Ret in H. rewrite Hs1 in H. cbn [e_stk hd_error] in H. destruct (printable v) eqn:Pv; injection H as <- <-.
  - split; [|intros v' _; reflexivity]. apply (ans_value line code v Hs Hc); [|exact Pv]. exists ts. split; [exists eof; exact Ht|exact Hval].
  - split; [|discriminate]. apply (ans_error line code Hs Hc). intros v' Hv'. rewrite (Uniq v' Hv'). exact Pv.
Qed.
Lemma line_ends : forall old line s, Forall byte line -> exists f a s', eval f old line s = Some (a, s').
Proof.
  intros old line s Hb. pose proof (strip_bytes _ _ Hb (Trim_stripped line)) as Hc. unfold Repl.eval. destruct (Trim line) as [|c t]; [exists 0%nat; eauto|].
  destruct (proj1 (He old (c :: t) s) Hc) as (f & Hf). exists f. destruct (Eval f old (c :: t) s) as [nx s1|s1|s1|e s1|e s1|p s1|]; try (eexists _, _; reflexivity); [|contradiction].
  destruct (Ret (ust s1)) as [[e|] x]; [destruct (printable e)|]; eexists _, _; reflexivity.
Qed.
Lemma session_answers : forall lines s, Forall line_ok lines ->
  (exists l s', session s lines l s') /\ forall l s', session s lines l s' -> Forall2 answers lines l.
Proof.
  intros lines. induction lines as [|line lines IH]; intros s H.
  - split; [exists [], s; constructor|]. intros l s' Hs. inversion Hs; subst. constructor.
  - inversion H as [|? ? H1 H2]; subst. split.
    + destruct (line_ends fresh line s (proj1 H1)) as (f & a & s1 & E1). destruct (proj1 (IH s1 H2)) as (l & s' & Hs). exists (a :: l), s'. econstructor; eassumption.
    + intros l s' Hs. inversion Hs as [|? ? a s1 ? l' ? f old E1 Hs']; subst. constructor; [apply (line_answer f old line s a s1 H1 E1)|]. apply (proj2 (IH s1 H2) l' s' Hs').
Qed.
Lemma value_once : forall t v v', (forall ts, tokens t ts -> fits ts) -> has_value t v -> has_value t v' -> v = v'.
Proof.
  intros t v v' Hf (ts & (eof & T1) & V1) (ts' & (eof' & T2) & V2). rewrite T1 in T2. injection T2 as <- <-. assert (Ft : fits ts) by (apply Hf; exists eof; exact T1).
  set (s0 := mkSt (fun _ => 0) (mkE 0 tt [] tt) : st S).
  destruct (proj1 (Hv fresh t s0 ts eof T1 Ft v) V1) as (f & s1 & E1 & S1 & _). destruct (proj1 (Hv fresh t s0 ts eof T1 Ft v') V2) as (f' & s2 & E2 & S2 & _).
  assert (M : MNil (A := bytes) (T := Empty_set) (P := pv X) s1 = MNil s2).
  { rewrite <- E1, <- E2. destruct (Nat.le_gt_cases f f') as [L|L]; [symmetry; apply Hmono; [exact L|congruence]|apply Hmono; [lia|congruence]]. }
  injection M as ->. rewrite S1 in S2. congruence.
Qed.
Lemma answers_unique : forall line a a', line_ok line -> answers line a -> answers line a' -> a = a'.
Proof.
  intros line a a' (_ & Ho) H H'.
  assert (U : forall t v t' v', stripped line t -> stripped line t' -> has_value t v -> has_value t' v' -> v = v').
  { intros t v t' v' S1 S2 V1 V2. rewrite (stripped_unique _ _ _ S2 S1) in V2. apply (value_once t); auto. intros ts. apply Ho. exact S1. }
  destruct H as [S1|t v S1 N1 V1 P1|t S1 N1 V1], H' as [S2|t' v' S2 N2 V2 P2|t' S2 N2 V2]; try reflexivity; try (pose proof (stripped_unique _ _ _ S1 S2); congruence).
  - f_equal. exact (U _ _ _ _ S1 S2 V1 V2).
  - exfalso. rewrite (stripped_unique _ _ _ S1 S2) in V1. specialize (V2 v V1). congruence.
  - exfalso. rewrite (stripped_unique _ _ _ S1 S2) in V1. specialize (V1 v' V2). congruence.
Qed.
(** What is said of each calculator below. *)
Definition good_sessions : Prop := forall lines s, Forall line_ok lines ->
  (exists l s', session s lines l s') /\
  (forall l s', session s lines l s' -> Forall2 answers lines l) /\
  (forall s2 l l2 s' s2', session s lines l s' -> session s2 lines l2 s2' -> l = l2).
Lemma sessions_good : good_sessions.
Proof.
  intros lines s H. destruct (session_answers lines s H) as (P & Q). split; [exact P|]. split; [exact Q|]. intros s2 l l2 s' s2' H1 H2.
  pose proof (Q l s' H1) as A1. pose proof (proj2 (session_answers lines s2 H) l2 s2' H2) as A2. clear P Q H1 H2. revert l l2 A1 A2. induction H as [|line lines Hl H IH]; intros l l2 A1 A2.
  - inversion A1; subst. inversion A2; subst. reflexivity.
  - inversion A1; subst. inversion A2; subst. f_equal; [eapply answers_unique; eassumption|apply IH; assumption].
Qed.
End Session.
Lemma eval_mono : forall {F X E : Type} (k : calc F X E) to_float of_int parse_float isL isD root d f f' old src s, (f <= f')%nat ->
  Eval k to_float of_int parse_float isL isD root d f old src s <> MFuel -> Eval k to_float of_int parse_float isL isD root d f' old src s = Eval k to_float of_int parse_float isL isD root d f old src s.
Proof.
  intros F X E k to_float of_int parse_float isL isD root d f f' old src s L H. unfold Eval, MatchExactly, Match in *.
  assert (M : gmatch (cenv d) (lift (kclient k to_float of_int parse_float)) f root (match Tokenize isL isD false false (d_tk d) old src with TzOk ts _ => ts | _ => [] end) (iinit s) <> OutOfFuel ->
    gmatch (cenv d) (lift (kclient k to_float of_int parse_float)) f' root (match Tokenize isL isD false false (d_tk d) old src with TzOk ts _ => ts | _ => [] end) (iinit s) =
    gmatch (cenv d) (lift (kclient k to_float of_int parse_float)) f root (match Tokenize isL isD false false (d_tk d) old src with TzOk ts _ => ts | _ => [] end) (iinit s)) by (apply gmatch_mono; exact L).
  destruct root; try reflexivity; destruct (Tokenize isL isD false false (d_tk d) old src) as [ts eof|ts e|]; try reflexivity;
    (rewrite M; [reflexivity|]; intro Z; rewrite Z in H; congruence).
Qed.

(** ** The three calculators: every session gives an answer to each line; the answers are those of [answers], which speaks of the lines
    alone, and so the same whatever happened before. *)
Theorem C85_number : forall (F X : Type) f_neg f_mul f_quo f_mod f_add f_sub consts of_int f_int lib to_float parse_float isL isD,
  (forall n, 0 <= n < 2 ^ 53 -> f_int (of_int n) = n) -> (forall name l, lib name = Some l -> l_variadic l = true -> l_arity l <> 0%nat) ->
  let num := @number F X f_neg f_mul f_quo f_mod f_add f_sub consts of_int f_int lib in
  let value := v_doc (num_lits consts of_int parse_float) (num_muls f_mul f_quo f_mod) (num_adds f_add f_sub) (fun a => Some (f_neg a)) (call_in lib) in
  forall old0 root d, engine num to_float isL isD old0 number_grammar root d ->
  good_sessions num to_float of_int parse_float isL isD root d (fun _ => true) value.
Proof.
  intros F X f_neg f_mul f_quo f_mod f_add f_sub consts of_int f_int lib to_float parse_float isL isD Hi Hl num value old0 root d H.
  apply sessions_good; [| |intros; apply eval_mono; assumption].
  - intros old src s0 ts eof Ht Hf v. apply (C40_number f_neg f_mul f_quo f_mod f_add f_sub consts of_int f_int lib to_float parse_float isL isD Hi Hl old0 root d H old src s0 ts eof Ht Hf).
  - intros old src s0. apply (C41_number f_neg f_mul f_quo f_mod f_add f_sub consts of_int f_int lib to_float parse_float isL isD Hi Hl old0 root d H old src s0).
Qed.
(** nil numbers are not printed *)
Definition is_number (r : rat) : bool := match r with Some _ => true | None => false end.
Theorem C85_rat : forall (F X : Type) set_string to_float of_int parse_float isL isD,
  let rc := @rat_calc F X set_string in
  let value := v_doc (rat_lits set_string) rat_mulv rat_addv (q1 Qopp) (call_in rat_lib) in
  forall old0 root d, engine rc to_float isL isD old0 rat_grammar root d ->
  good_sessions rc to_float of_int parse_float isL isD root d is_number value.
Proof.
  intros F X set_string to_float of_int parse_float isL isD rc value old0 root d H.
  apply sessions_good; [| |intros; apply eval_mono; assumption].
  - intros old src s0 ts eof Ht Hf v. apply (C40_rat set_string to_float of_int parse_float isL isD old0 root d H old src s0 ts eof Ht Hf).
  - intros old src s0. apply (C41_rat set_string to_float of_int parse_float isL isD old0 root d H old src s0).
Qed.
Theorem C85_cmplx : forall (F X C : Type) f_neg f_mul f_quo f_add f_sub of_real of_imag of_int c_int lib parse_anyway to_float parse_float isL isD,
  (forall n, 0 <= n < 2 ^ 53 -> c_int (of_real (of_int n)) = Some n) -> (forall name l, lib name = Some l -> l_variadic l = true -> l_arity l <> 0%nat) ->
  let cc := @cmplx F X C f_neg f_mul f_quo f_add f_sub of_real of_imag of_int c_int lib parse_anyway in
  let value := v_doc (cmplx_lits of_real of_imag of_int parse_anyway parse_float) (cmplx_mulv f_mul f_quo) (cmplx_addv f_add f_sub) (fun a => Some (f_neg a)) (call_in lib) in
  forall old0 root d, engine cc to_float isL isD old0 cmplx_grammar root d ->
  good_sessions cc to_float of_int parse_float isL isD root d (fun _ => true) value.
Proof.
  intros F X C f_neg f_mul f_quo f_add f_sub of_real of_imag of_int c_int lib parse_anyway to_float parse_float isL isD Hi Hl cc value old0 root d H.
  apply sessions_good; [| |intros; apply eval_mono; assumption].
  - intros old src s0 ts eof Ht Hf v. apply (C40_cmplx f_neg f_mul f_quo f_add f_sub of_real of_imag of_int c_int lib parse_anyway to_float parse_float isL isD Hi Hl old0 root d H old src s0 ts eof Ht Hf).
  - intros old src s0. apply (C41_cmplx f_neg f_mul f_quo f_add f_sub of_real of_imag of_int c_int lib parse_anyway to_float parse_float isL isD Hi Hl old0 root d H old src s0).
Qed.
(** After a value was printed the calculator's stack is empty; after an error it need not be (see below). *)
Theorem C85_cleared : forall (F X E : Type) (k : calc F X E) to_float of_int parse_float isL isD root d printable f old line s v s',
  eval k to_float of_int parse_float isL isD root d printable f old line s = Some (Printed v, s') -> e_stk (ust s') = [].
Proof.
  intros F X E k to_float of_int parse_float isL isD root d printable f old line s v s' H. unfold eval in H. destruct (Trim line); [discriminate|].
  destruct (Eval _ _ _ _ _ _ _ _ _ _ _ _) as [nx s1|s1|s1|e s1|e s1|p s1|]; try discriminate. unfold Ret in H. destruct (hd_error (e_stk (ust s1))) as [e|]; [|discriminate]. destruct (printable e); [|discriminate].
  injection H as _ <-. reflexivity.
Qed.

(** ** Instance: a session with the rational calculator; an error leaves numbers on the stack, the next answers are not affected. *)
Definition ex_lines : list bytes := map s2b [" 1/3 + 1/6"; ""; "7*(2 + 1/(2-2))"; "max(2,"; "2*3 "]%string.
Fixpoint ex_session (lines : list bytes) (s : st (est unit rat unit)) : option (list (answer (E := rat) * nat)) :=
  match lines with
  | [] => Some []
  | line :: rest =>
      match Cl (cmarker ratc (fun _ => tt)) ex_isL ex_isL 200 (AutoKw new_akw) fresh tt rat_grammar with
      | ClOk root d =>
          match eval ratc (fun _ => tt) (fun _ => tt) (fun _ => inr NSyntax) ex_isL ex_isL root d is_number 2000 fresh line s with
          | Some (a, s') => match ex_session rest s' with Some l => Some ((a, length (e_stk (ust s'))) :: l) | None => None end
          | None => None
          end
      | _ => None
      end
  end.
Example C85_instance : ex_session ex_lines (mkSt (fun _ => 0) (mkE 0 tt [] tt)) =
  Some [(Printed (Some (1 # 2)%Q), 0%nat); (Silent, 0%nat); (Complaint, 2%nat); (Complaint, 4%nat); (Printed (Some 6%Q), 0%nat)] /\
  stripped (s2b " 1/3 + 1/6") (s2b "1/3 + 1/6").
Proof. split; [vm_compute; reflexivity|]. change (s2b "1/3 + 1/6") with (Trim (s2b " 1/3 + 1/6")). apply Trim_stripped. Qed.

Print Assumptions C85_number.
Print Assumptions C85_rat.
Print Assumptions C85_cmplx.
Print Assumptions C85_cleared.
