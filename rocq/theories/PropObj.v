(** Properties C80 and C81: engines whose interpreter is an object of a qlang program, and which marks New accepts. *)
From Coq Require Import String SpecFloat.
From Verif Require Import Base Token Utf8 Scanner Tokenize Grammar Matcher MatcherProofs PegSpec MatchProofs MatchProofs2 MatchProofs3 Wf MatchProofs4 MatchObs MatchInv PegTools Compiler GramSyntax CompilerMore Interp QValue Qlang QlangTop QlangEx QInterp.
From Verif Require Import Utf8Proofs TokenizeProofs PropScan PropCompiler PropInterp MarkCheck PropClass.
Local Open Scope Z_scope.

(** ** Specification *)
Section Spec.
Context {R : Type}.
Notation S := (ost R).
(** calling a method of an object, by its name: a call with the object itself as the first argument *)
Inductive calls (fcall : func -> list value -> S -> (value * S) + (panicq * S)) (o : nat * class) (name : bytes) (args : list value) (s : S) : (value * S) + (panicq * S) -> Prop :=
| calls_method : forall f, find name (c_fns (snd o)) = Some f -> calls fcall o name args s (fcall f (VObj (fst o) (snd o) :: args) s)
| calls_none : find name (c_fns (snd o)) = None -> calls fcall o name args s (inr (PUser (msg m_nomethod [VStr name]), s)).
(** a function is a method of a class *)
Definition is_method (f : func) (c : class) : Prop := exists n g, In (n, g) (c_fns c) /\ f_id g = f_id f.

(** a mark that New accepts *)
Inductive good_mark (go_fn : value -> option (gofun R)) (tbl : list (bytes * value)) (stkc ipc : class) (mark : bytes) : Prop :=
| good_builtin : find (36 :: mark) tbl = None -> In mark [m_mute; m_unmute; m_tr] -> good_mark go_fn tbl stkc ipc mark
| good_func : forall f c r, find (36 :: mark) tbl = Some (VFunc f) -> f_variadic f = false -> f_args f <> [] ->
    (is_method f stkc \/ is_method f ipc -> (length (f_args f) <= 2)%nat) -> mark = c :: r -> (c = 95 -> r <> []) -> good_mark go_fn tbl stkc ipc mark
| good_go : forall v gf, find (36 :: mark) tbl = Some v -> (forall f, v <> VFunc f) -> go_fn v = Some gf -> gf_variadic gf = false -> (0 < gf_in gf)%nat -> good_mark go_fn tbl stkc ipc mark.

(** the last word of a mark: from its last capital letter on *)
Inductive last_word : bytes -> bytes -> Prop :=
| lw_some : forall pre c r, upperc c = true -> Forall (fun x => upperc x = false) r -> last_word (pre ++ c :: r) (c :: r)
| lw_none : forall m, Forall (fun x => upperc x = false) m -> last_word m [].
(** the first letter of a mark, after one '_', is a capital *)
Definition capital (mark : bytes) : Prop := exists c r, (mark = c :: r /\ c <> 95 \/ mark = 95 :: c :: r) /\ upperc c = true.
(** the second argument of a method, of the tokens and the length of what was matched *)
Inductive second (parse_float : bytes -> float + nerr) (veng : value) (mark : bytes) (ts : list token) (len : Z) : value + panicq -> Prop :=
| sec_len : capital mark -> second parse_float veng mark ts len (inl (VInt len))
| sec_src : ~ capital mark -> last_word mark n_Src -> second parse_float veng mark ts len (inl (match ts with [] => VNil | _ => VCode ts end))
| sec_eng : ~ capital mark -> last_word mark n_Engine -> second parse_float veng mark ts len (inl veng)
| sec_none : forall w, ~ capital mark -> last_word mark w -> w <> n_Src -> w <> n_Engine -> ts = [] -> second parse_float veng mark ts len (inr (PUser rt_error))
| sec_float : forall t r x, ~ capital mark -> last_word mark n_Float -> ts = t :: r -> parse_float (tlit t) = inl x -> second parse_float veng mark ts len (inl (VFloat x))
| sec_nofloat : forall t r e, ~ capital mark -> last_word mark n_Float -> ts = t :: r -> parse_float (tlit t) = inr e -> second parse_float veng mark ts len (inr (PUser (msg m_parse [VStr mark])))
| sec_int : forall t r x, ~ capital mark -> last_word mark n_Int -> ts = t :: r -> StrInt 10 (tlit t) = inl x -> second parse_float veng mark ts len (inl (VInt x))
| sec_noint : forall t r e, ~ capital mark -> last_word mark n_Int -> ts = t :: r -> StrInt 10 (tlit t) = inr e -> second parse_float veng mark ts len (inr (PUser (msg m_parse [VStr mark])))
| sec_text : forall t r w, ~ capital mark -> last_word mark w -> ~ In w [n_Src; n_Engine; n_Float; n_Int] -> ts = t :: r -> second parse_float veng mark ts len (inl (VStr (tlit t))).
End Spec.

Section Obj.
Context {R : Type}.
Notation S := (ost R).
Notation res A := ((A * S) + (panicq * S))%type.
Variable fcall : func -> list value -> S -> res value.
Variable go_fn : value -> option (gofun R).
Variable elems : value -> S -> option (list value).
Variable table_of : value -> S -> option (list (bytes * value)).
Variable parse_float : bytes -> float + nerr.
Variable veng : value.
Notation callN := (callN fcall).
Notation second := (second parse_float veng).

Lemma callN_iff : forall o name args s r, callN o name args s = r <-> calls fcall o name args s r.
Proof.
  intros o name args s r. unfold QInterp.callN, throws, vobj. split.
  - intros <-. destruct (find name (c_fns (snd o))) as [f|] eqn:E; [apply calls_method; exact E|apply calls_none; exact E].
  - intros [f E|E]; rewrite E; reflexivity.
Qed.
Lemma method_iff : forall f c, in_class f c = true <-> is_method f c.
Proof.
  intros f c. unfold in_class, is_method. rewrite existsb_exists. split.
  - intros ((n, g) & H & E). exists n, g. split; [exact H|]. apply Nat.eqb_eq. exact E.
  - intros (n & g & H & E). exists (n, g). split; [exact H|]. apply Nat.eqb_eq. exact E.
Qed.
(** ** Which marks New accepts *)
Section Marks.
Variable tbl : list (bytes * value).
Variable stk : nat * class.
Variable ipc : class.
Notation good := (good_mark go_fn tbl (snd stk) ipc).
Notation omarker := (omarker go_fn tbl stk ipc).
Lemma kind_iff : forall f, (0 <? kindRecvr stk ipc f)%nat = true <-> is_method f (snd stk) \/ is_method f ipc.
Proof.
  intro f. unfold kindRecvr. rewrite <- !method_iff. destruct (in_class f (snd stk)), (in_class f ipc); cbn; intuition congruence.
Qed.
Lemma isLen_cases : forall mark, match isLen mark with
  | Some true => capital mark
  | Some false => ~ capital mark /\ exists c r, mark = c :: r /\ (c = 95 -> r <> [])
  | None => mark = [] \/ mark = [95] end.
Proof.
  assert (D : forall c r, isLen (c :: r) = if c =? 95 then match r with d :: _ => Some (upperc d) | [] => None end else Some (upperc c)).
  { intros c r. destruct (Z.eqb_spec c 95) as [->|N]; [reflexivity|]. unfold isLen. destruct c as [|p|p]; try reflexivity.
    do 7 (destruct p as [p|p|]; try reflexivity). exfalso. apply N. reflexivity. }
  intros [|c r]; [left; reflexivity|]. rewrite D. destruct (Z.eqb_spec c 95) as [->|N].
  - destruct r as [|d r]; [right; reflexivity|]. destruct (upperc d) eqn:U.
    + exists d, r. auto.
    + split; [|exists 95, (d :: r); split; [reflexivity|discriminate]]. intros (c & r' & [(E & Nc)|E] & U').
      * injection E as <- <-. congruence.
      * injection E as <- <-. congruence.
  - destruct (upperc c) eqn:U.
    + exists c, r. auto.
    + split; [|exists c, r; split; [reflexivity|congruence]]. intros (c' & r' & [(E & Nc)|E] & U'); injection E; intros; subst; congruence.
Qed.
Definition okm (mark : bytes) : bool := match omarker GNil mark tt with inl _ => true | inr _ => false end.
Lemma omarker_ok : forall (M : Type) g mark (m : M), okm mark = true -> omarker g mark m = inl (GAct g mark, m).
Proof.
  intros M g mark m. unfold okm, QInterp.omarker. destruct (entry tbl mark) as [v|]; [|destruct (beq mark m_mute || beq mark m_unmute || beq mark m_tr); [reflexivity|discriminate]].
  assert (G : match match go_fn v with None => inr (MPNotFunc mark, tt) | Some gf => if gf_variadic gf then inr (MPVariadic mark, tt) else if (gf_in gf <? 1)%nat then inr (MPNoParam mark, tt) else inl (@GAct bytes Empty_set GNil mark, tt) end with inl _ => true | inr _ => false end = true ->
     match go_fn v with None => inr (MPNotFunc mark, m) | Some gf => if gf_variadic gf then inr (MPVariadic mark, m) else if (gf_in gf <? 1)%nat then inr (MPNoParam mark, m) else inl (GAct g mark, m) end = inl (GAct g mark, m)).
  { destruct (go_fn v) as [gf|]; [|discriminate]. destruct (gf_variadic gf); [discriminate|]. destruct (gf_in gf <? 1)%nat; [discriminate|]. reflexivity. }
  destruct v; try exact G. clear G. destruct (f_variadic f); [discriminate|]. destruct (length (f_args f) <? 1)%nat; [discriminate|].
  destruct ((0 <? kindRecvr stk ipc f)%nat && (2 <? length (f_args f))%nat); [discriminate|]. destruct (isLen mark); [reflexivity|discriminate].
Qed.
Lemma omarker_no : forall (M : Type) g mark (m : M), okm mark = false -> exists p, omarker g mark m = inr (p, m).
Proof.
  intros M g mark m. unfold okm, QInterp.omarker. destruct (entry tbl mark) as [v|]; [|destruct (beq mark m_mute || beq mark m_unmute || beq mark m_tr); [discriminate|eauto]].
  assert (G : match match go_fn v with None => inr (MPNotFunc mark, tt) | Some gf => if gf_variadic gf then inr (MPVariadic mark, tt) else if (gf_in gf <? 1)%nat then inr (MPNoParam mark, tt) else inl (@GAct bytes Empty_set GNil mark, tt) end with inl _ => true | inr _ => false end = false ->
     exists p, match go_fn v with None => inr (MPNotFunc mark, m) | Some gf => if gf_variadic gf then inr (MPVariadic mark, m) else if (gf_in gf <? 1)%nat then inr (MPNoParam mark, m) else inl (GAct g mark, m) end = inr (p, m)).
  { destruct (go_fn v) as [gf|]; [|eauto]. destruct (gf_variadic gf); [eauto|]. destruct (gf_in gf <? 1)%nat; [eauto|]. discriminate. }
  destruct v; try exact G. clear G. destruct (f_variadic f); [eauto|]. destruct (length (f_args f) <? 1)%nat; [eauto|].
  destruct ((0 <? kindRecvr stk ipc f)%nat && (2 <? length (f_args f))%nat); [eauto|]. destruct (isLen mark); [discriminate|eauto].
Qed.
Lemma okm_good : forall mark, okm mark = true <-> good mark.
Proof.
  intro mark. unfold okm, QInterp.omarker, entry. split.
  - destruct (find (36 :: mark) tbl) as [v|] eqn:E.
    + assert (G : (forall f, v <> VFunc f) -> match match go_fn v with None => inr (MPNotFunc mark, tt) | Some gf => if gf_variadic gf then inr (MPVariadic mark, tt) else if (gf_in gf <? 1)%nat then inr (MPNoParam mark, tt) else inl (@GAct bytes Empty_set GNil mark, tt) end with inl _ => true | inr _ => false end = true -> good mark).
      { intro N. destruct (go_fn v) as [gf|] eqn:Eg; [|discriminate]. destruct (gf_variadic gf) eqn:V; [discriminate|]. destruct (Nat.ltb_spec (gf_in gf) 1); [discriminate|]. intros _. eapply good_go; eauto. }
      destruct v; try (apply G; intros f0 D; discriminate D). clear G. destruct (f_variadic f) eqn:V; [discriminate|]. destruct (Nat.ltb_spec (length (f_args f)) 1) as [|L]; [discriminate|].
      destruct ((0 <? kindRecvr stk ipc f)%nat && (2 <? length (f_args f))%nat) eqn:K; [discriminate|]. pose proof (isLen_cases mark) as C. destruct (isLen mark) as [b|]; [|discriminate].
      intros _. assert (X : exists c r, mark = c :: r /\ (c = 95 -> r <> [])).
      { destruct b; [|apply C]. destruct C as (c & r & [(-> & Nc)| ->] & _); [exists c, r; split; [reflexivity|congruence]|exists 95, (c :: r); split; [reflexivity|discriminate]]. }
      destruct X as (c & r & Em & Hc). eapply good_func; eauto.
      * intro A. rewrite A in L. cbn in L. lia.
      * intro Km. apply kind_iff in Km. rewrite Km in K. cbn [andb] in K. apply Nat.ltb_ge in K. exact K.
    + destruct (beq mark m_mute) eqn:B1; [apply beq_eq in B1; intros _; apply good_builtin; [exact E|subst; cbn; auto]|].
      destruct (beq mark m_unmute) eqn:B2; [apply beq_eq in B2; intros _; apply good_builtin; [exact E|subst; cbn; auto]|].
      destruct (beq mark m_tr) eqn:B3; [apply beq_eq in B3; intros _; apply good_builtin; [exact E|subst; cbn; auto]|]. discriminate.
  - intros [E H|f c r E V A K Em H|v gf E N F V I]; rewrite E.
    + cbn in H. destruct H as [<-|[<-|[<-|[]]]]; reflexivity.
    + rewrite V. destruct (Nat.ltb_spec (length (f_args f)) 1) as [L|L]; [destruct (f_args f); [congruence|cbn in L; lia]|].
      assert (K1 : (0 <? kindRecvr stk ipc f)%nat && (2 <? length (f_args f))%nat = false).
      { destruct (0 <? kindRecvr stk ipc f)%nat eqn:K1; [|reflexivity]. apply kind_iff in K1. cbn [andb]. apply Nat.ltb_ge. auto. }
      rewrite K1. pose proof (isLen_cases mark) as C. destruct (isLen mark); [reflexivity|]. exfalso. subst mark. destruct C as [C|C]; [discriminate C|]. injection C as -> ->. apply H; reflexivity.
    + destruct v; try (rewrite F, V; destruct (Nat.ltb_spec (gf_in gf) 1); [lia|reflexivity]). exfalso. apply (N f). reflexivity.
Qed.
(** The marker attaches the action of a good mark and rejects any other. *)
Theorem C80_marks : forall (M : Type) g mark (m : M), (good mark -> omarker g mark m = inl (GAct g mark, m)) /\ (~ good mark -> exists p, omarker g mark m = inr (p, m)).
Proof.
  intros M g mark m. rewrite <- okm_good. split; [apply omarker_ok|]. intro N. apply omarker_no. destruct (okm mark); [exfalso; apply N; reflexivity|reflexivity].
Qed.
(** A grammar compiles exactly when it would if all marks were accepted, and all of its marks are good. *)
Theorem C80_compiles : forall isL isD tk old src root d,
  compiles_to omarker isL isD tk old tt src (ClOk root d) <->
  compiles_to (all_marks (PM := mpan) (fun n => n)) isL isD tk old tt src (ClOk root d) /\ exists rs, text_of isL isD tk old src rs /\ Forall good (marks_doc rs).
Proof.
  intros isL isD tk old src root d. rewrite (checked (fun n => n) omarker okm).
  - split; intros (H & rs & Hx & F); (split; [exact H|]; exists rs; split; [exact Hx|]; eapply Forall_impl; [|exact F]; intros n Hn; apply okm_good; exact Hn).
  - intros g n m H. apply omarker_ok. exact H.
  - intros g n m H. destruct (omarker_no _ g n m H) as (p & E). eauto.
Qed.
End Marks.
(** ** What the action of a mark does *)
(** a function that is not a method takes its arguments from the stack and leaves its result there, with the stack's methods popArgs and push *)
Inductive applied (stk : nat * class) (n : nat) (call : list value -> S -> res value) (s : S) : S + (panicq * S) -> Prop :=
| ap_pop : forall e, calls fcall stk n_popArgs [VInt (Z.of_nat n)] s (inr e) -> applied stk n call s (inr e)
| ap_other : forall v s1, calls fcall stk n_popArgs [VInt (Z.of_nat n)] s (inl (v, s1)) -> elems v s1 = None -> applied stk n call s (inr (PUser (msg m_notslice []), s1))
| ap_fail : forall v s1 l e, calls fcall stk n_popArgs [VInt (Z.of_nat n)] s (inl (v, s1)) -> elems v s1 = Some l -> call l s1 = inr e -> applied stk n call s (inr e)
| ap_pushed : forall v s1 l r s2 x s3, calls fcall stk n_popArgs [VInt (Z.of_nat n)] s (inl (v, s1)) -> elems v s1 = Some l -> call l s1 = inl (r, s2) ->
    calls fcall stk n_push [r] s2 (inl (x, s3)) -> applied stk n call s (inl s3)
| ap_nopush : forall v s1 l r s2 e, calls fcall stk n_popArgs [VInt (Z.of_nat n)] s (inl (v, s1)) -> elems v s1 = Some l -> call l s1 = inl (r, s2) ->
    calls fcall stk n_push [r] s2 (inr e) -> applied stk n call s (inr e).
(** the receiver of a method: the stack, or the current interpreter *)
Inductive receiver (stk : nat * class) (ipc : class) (f : func) (s : S) : value -> Prop :=
| rcv_stk : is_method f (snd stk) -> receiver stk ipc f s (VObj (fst stk) (snd stk))
| rcv_ipt : ~ is_method f (snd stk) -> is_method f ipc -> receiver stk ipc f s (o_ipt s).
(** a call whose result is not used *)
Inductive done (r : res value) : S + (panicq * S) -> Prop :=
| done_ok : forall v s, r = inl (v, s) -> done r (inl s)
| done_no : forall e, r = inr e -> done r (inr e).
(** a Go function without a result gives nil *)
Definition go_result (gf : gofun R) (l : list value) (s : S) : res value :=
  match gf_call gf l s with inl (o, s') => inl (match o with Some v => v | None => VNil end, s') | inr e => inr e end.
Inductive acts (tbl : list (bytes * value)) (stk : nat * class) (ipc : class) (mark : bytes) (ts : list token) (len : Z) (s : S) : S + (panicq * S) -> Prop :=
| act_mute : find (36 :: mark) tbl = None -> mark = m_mute -> acts tbl stk ipc mark ts len s (inl (mkO (o_mute s + 1) (o_ipt s) (o_rest s)))
| act_unmute : find (36 :: mark) tbl = None -> mark = m_unmute -> acts tbl stk ipc mark ts len s (inl (mkO (o_mute s - 1) (o_ipt s) (o_rest s)))
| act_tr : find (36 :: mark) tbl = None -> mark = m_tr -> acts tbl stk ipc mark ts len s (inl s)
| act_silent : forall v, find (36 :: mark) tbl = Some v -> ~ runs mark (o_mute s) -> acts tbl stk ipc mark ts len s (inl s)
| act_method1 : forall f self r, find (36 :: mark) tbl = Some (VFunc f) -> runs mark (o_mute s) -> receiver stk ipc f s self -> length (f_args f) = 1%nat ->
    done (fcall f [self] s) r -> acts tbl stk ipc mark ts len s r
| act_method2 : forall f self a r, find (36 :: mark) tbl = Some (VFunc f) -> runs mark (o_mute s) -> receiver stk ipc f s self -> length (f_args f) = 2%nat ->
    second mark ts len (inl a) -> done (fcall f [self; a] s) r -> acts tbl stk ipc mark ts len s r
| act_noarg : forall f self p, find (36 :: mark) tbl = Some (VFunc f) -> runs mark (o_mute s) -> receiver stk ipc f s self -> length (f_args f) = 2%nat ->
    second mark ts len (inr p) -> acts tbl stk ipc mark ts len s (inr (p, s))
| act_function : forall f r, find (36 :: mark) tbl = Some (VFunc f) -> runs mark (o_mute s) -> ~ is_method f (snd stk) -> ~ is_method f ipc ->
    applied stk (length (f_args f)) (fcall f) s r -> acts tbl stk ipc mark ts len s r
| act_go : forall v gf r, find (36 :: mark) tbl = Some v -> (forall f, v <> VFunc f) -> runs mark (o_mute s) -> go_fn v = Some gf ->
    applied stk (gf_in gf) (go_result gf) s r -> acts tbl stk ipc mark ts len s r.
Notation oact := (oact fcall go_fn elems parse_float veng).

Lemma lastWord_ok : forall m, last_word m (lastWord m).
Proof.
  induction m as [|c m IH]; [apply lw_none; constructor|]. cbn [lastWord]. inversion IH as [pre c1 r U F E1 E2|m' F E1 E2].
  - apply (lw_some (c :: pre)); assumption.
  - destruct (upperc c) eqn:U; [apply (lw_some []); assumption|apply lw_none; constructor; assumption].
Qed.
Lemma last_word_fun : forall m w, last_word m w -> lastWord m = w.
Proof.
  assert (N : forall m, Forall (fun x => upperc x = false) m -> lastWord m = []).
  { induction 1 as [|x m U _ IH]; [reflexivity|]. cbn. rewrite IH, U. reflexivity. }
  intros m w [pre c r U F|m0 F]; [|apply N; exact F]. induction pre as [|x pre IH]; cbn [app lastWord].
  - rewrite (N r F), U. reflexivity.
  - rewrite IH. reflexivity.
Qed.
Lemma oarg_iff : forall mark ts len r, isLen mark <> None -> (oarg parse_float veng mark ts len = r <-> second mark ts len r).
Proof.
  intros mark ts len r Hn. pose proof (isLen_cases mark) as C. pose proof (lastWord_ok mark) as W. unfold oarg. split.
  - intros <-. destruct (isLen mark) as [[|]|]; [apply sec_len; exact C| |congruence]. destruct C as (C & _).
    destruct (beq (lastWord mark) n_Src) eqn:B1; [apply beq_eq in B1; rewrite B1 in W; apply sec_src; assumption|].
    destruct (beq (lastWord mark) n_Engine) eqn:B2; [apply beq_eq in B2; rewrite B2 in W; apply sec_eng; assumption|].
    apply beq_neq in B1, B2. destruct ts as [|t ts]; [eapply sec_none; eauto|].
    destruct (beq (lastWord mark) n_Float) eqn:B3.
    { apply beq_eq in B3. rewrite B3 in W. destruct (parse_float (tlit t)) eqn:E; [eapply sec_float; eauto|eapply sec_nofloat; eauto]. }
    destruct (beq (lastWord mark) n_Int) eqn:B4.
    { apply beq_eq in B4. rewrite B4 in W. destruct (StrInt 10 (tlit t)) eqn:E; [eapply sec_int; eauto|eapply sec_noint; eauto]. }
    apply beq_neq in B3, B4. eapply sec_text; eauto. cbn. intuition.
  - intro H. destruct (isLen mark) as [b|] eqn:EL; [|congruence].
    assert (Cb : b = true <-> capital mark) by (destruct b; tauto || (split; [discriminate|tauto])).
    destruct H as [H|N L|N L|w N L A1 A2 ->|t r0 x N L -> E|t r0 e N L -> E|t r0 x N L -> E|t r0 e N L -> E|t r0 w N L A ->].
    { apply Cb in H. subst b. reflexivity. }
    all: destruct b; [exfalso; apply N; apply Cb; reflexivity|]; rewrite (last_word_fun _ _ L).
    + reflexivity.
    + reflexivity.
    + apply beq_neq in A1, A2. rewrite A1, A2. reflexivity.
    + cbn [beq]. change (beq n_Float n_Src) with false. change (beq n_Float n_Engine) with false. change (beq n_Float n_Float) with true. cbn iota. rewrite E. reflexivity.
    + change (beq n_Float n_Src) with false. change (beq n_Float n_Engine) with false. change (beq n_Float n_Float) with true. cbn iota. rewrite E. reflexivity.
    + change (beq n_Int n_Src) with false. change (beq n_Int n_Engine) with false. change (beq n_Int n_Float) with false. change (beq n_Int n_Int) with true. cbn iota. rewrite E. reflexivity.
    + change (beq n_Int n_Src) with false. change (beq n_Int n_Engine) with false. change (beq n_Int n_Float) with false. change (beq n_Int n_Int) with true. cbn iota. rewrite E. reflexivity.
    + cbn in A. rewrite !(proj2 (beq_neq _ _)); [reflexivity|..]; intro; subst; apply A; auto.
Qed.
Lemma done_iff : forall r x, dropped r = x <-> done r x.
Proof.
  intros [(v, s)|e] x; cbn [dropped]; split; try (intros <-; econstructor; reflexivity); intros [v' s' E|e' E]; congruence.
Qed.
Lemma applied_fun : forall stk n call s r,
  match callN stk n_popArgs [VInt (Z.of_nat n)] s with
  | inr e => inr e
  | inl (v, s1) => match elems v s1 with
    | None => inr (PUser (msg m_notslice []), s1)
    | Some l => match call l s1 with inr e => inr e | inl (r, s2) => dropped (callN stk n_push [r] s2) end end end = r <-> applied stk n call s r.
Proof.
  intros stk n call s r. split.
  - intros <-. destruct (callN stk n_popArgs [VInt (Z.of_nat n)] s) as [(v, s1)|e] eqn:E1; apply callN_iff in E1; [|apply ap_pop; exact E1].
    destruct (elems v s1) as [l|] eqn:E2; [|eapply ap_other; eauto]. destruct (call l s1) as [(r, s2)|e] eqn:E3; [|eapply ap_fail; eauto].
    destruct (callN stk n_push [r] s2) as [(x, s3)|e] eqn:E4; apply callN_iff in E4; cbn [dropped]; [eapply ap_pushed; eauto|eapply ap_nopush; eauto].
  - intros [e E1|v s1 E1 E2|v s1 l e E1 E2 E3|v s1 l x s2 y s3 E1 E2 E3 E4|v s1 l x s2 e E1 E2 E3 E4]; apply callN_iff in E1; rewrite E1; [reflexivity| | | |]; rewrite E2; [reflexivity| | |]; rewrite E3; [reflexivity| |]; apply callN_iff in E4; rewrite E4; reflexivity.
Qed.
Lemma receiver_fun : forall stk ipc f s self, receiver stk ipc f s self <->
  kindRecvr stk ipc f <> 0%nat /\ self = if (kindRecvr stk ipc f =? 1)%nat then vobj stk else o_ipt s.
Proof.
  intros stk ipc f s self. unfold kindRecvr. split.
  - intros [H|N H].
    + apply method_iff in H. rewrite H. split; [discriminate|reflexivity].
    + apply method_iff in H. rewrite <- method_iff in N. destruct (in_class f (snd stk)); [congruence|]. rewrite H. split; [discriminate|reflexivity].
  - destruct (in_class f (snd stk)) eqn:E1; [intros (_ & ->); apply rcv_stk; apply method_iff; exact E1|].
    destruct (in_class f ipc) eqn:E2; [intros (_ & ->)|intros (N & _); congruence]. apply rcv_ipt; [rewrite <- method_iff; congruence|apply method_iff; exact E2].
Qed.
(** The action of a mark that New accepted does exactly this. *)
Theorem C80_action : forall tbl stk ipc mark ts len s r, good_mark go_fn tbl (snd stk) ipc mark ->
  (oact tbl stk ipc mark ts len s = r <-> acts tbl stk ipc mark ts len s r).
Proof.
  intros tbl stk ipc mark ts len s r Hg. unfold QInterp.oact, entry. destruct Hg as [E H|f c0 r0 E V A K Em Hc|v gf E N F V I]; rewrite E.
  - split.
    + intros <-. cbn in H. destruct H as [<-|[<-|[<-|[]]]]; cbn [beq]; [apply act_mute|apply act_unmute|apply act_tr]; auto.
    + intro X. inversion X; try congruence; subst; reflexivity.
  - assert (HL : isLen mark <> None).
    { pose proof (isLen_cases mark) as C. intro Q. rewrite Q in C. subst mark. destruct C as [C|C]; [discriminate C|]. injection C as -> ->. apply Hc; reflexivity. }
    destruct (silenced mark (o_mute s)) eqn:Si.
    { assert (NR : ~ runs mark (o_mute s)) by (rewrite runs_dec; congruence). split; [intros <-; eapply act_silent; eauto|]. intro X; inversion X; try congruence; contradiction. }
    assert (RU : runs mark (o_mute s)) by (apply runs_dec; exact Si).
    cbn [obody]. destruct (kindRecvr stk ipc f =? 0)%nat eqn:K0.
    + assert (NM : ~ is_method f (snd stk) /\ ~ is_method f ipc).
      { apply Nat.eqb_eq in K0. unfold kindRecvr in K0. rewrite <- !method_iff. destruct (in_class f (snd stk)); [discriminate|]. destruct (in_class f ipc); [discriminate|]. split; discriminate. }
      assert (Q : dropped (callVfn fcall elems stk f s) = r <-> applied stk (length (f_args f)) (fcall f) s r).
      { rewrite <- applied_fun. unfold callVfn, throws. destruct (callN stk n_popArgs [VInt (Z.of_nat (length (f_args f)))] s) as [(v, s1)|e]; [|reflexivity]. destruct (elems v s1) as [l|]; [|reflexivity]. destruct (fcall f l s1) as [(x, s2)|e]; reflexivity. }
      rewrite Q. split.
      * intro X. eapply act_function; eauto; apply NM.
      * assert (NR : forall s0, ~ receiver stk ipc f s s0) by (intros s0 [X|_ X]; apply NM in X; exact X).
        intro X. inversion X; try congruence; match goal with HH : receiver _ _ ?ff _ _, HE : find _ _ = Some (VFunc ?ff) |- _ => rewrite E in HE; injection HE as <-; destruct (NR _ HH) end.
    + apply Nat.eqb_neq in K0.
      assert (KL : (length (f_args f) <= 2)%nat).
      { apply K. unfold kindRecvr in K0. rewrite <- !method_iff. destruct (in_class f (snd stk)); [auto|]. destruct (in_class f ipc); [auto|congruence]. }
      assert (L12 : length (f_args f) = 1%nat \/ length (f_args f) = 2%nat) by (destruct (f_args f) as [|? [|? [|? ?]]]; cbn in KL |- *; [congruence|auto|auto|lia]).
      set (self := if (kindRecvr stk ipc f =? 1)%nat then vobj stk else o_ipt s).
      assert (RC : receiver stk ipc f s self) by (apply receiver_fun; auto).
      assert (RF : forall s0, receiver stk ipc f s s0 -> s0 = self) by (intros s0 X; apply receiver_fun in X; apply X).
      assert (IM : is_method f (snd stk) \/ is_method f ipc) by (destruct RC; auto).
      split.
      * intro X. destruct L12 as [L|L]; rewrite L in X; cbn [Nat.eqb] in X.
        { eapply act_method1; eauto. apply done_iff. exact X. }
        destruct (oarg parse_float veng mark ts len) as [a|p] eqn:Oa; apply (oarg_iff _ _ _ _ HL) in Oa.
        { eapply act_method2; eauto. apply done_iff. exact X. }
        subst r. eapply act_noarg; eauto.
      * intro X. destruct X as [E1 _|E1 _|E1 _|v E1 N1|f1 s0 r1 E1 _ R1 L1 D1|f1 s0 a r1 E1 _ R1 L1 S1 D1|f1 s0 p E1 _ R1 L1 S1|f1 r1 E1 _ N1 N2 _|v gf r1 E1 N1 _ _ _]; try congruence; try (rewrite E in E1; injection E1 as <-).
        { rewrite (RF _ R1) in D1. rewrite L1. cbn [Nat.eqb]. apply done_iff. exact D1. }
        { rewrite (RF _ R1) in D1. rewrite L1. cbn [Nat.eqb]. apply (oarg_iff _ _ _ _ HL) in S1. rewrite S1. apply done_iff. exact D1. }
        { rewrite L1. cbn [Nat.eqb]. apply (oarg_iff _ _ _ _ HL) in S1. rewrite S1. reflexivity. }
        { exfalso. tauto. }
  - destruct (silenced mark (o_mute s)) eqn:Si.
    { assert (NR : ~ runs mark (o_mute s)) by (rewrite runs_dec; congruence). split; [intros <-; eapply act_silent; eauto|]. intro X; inversion X; try congruence; contradiction. }
    assert (RU : runs mark (o_mute s)) by (apply runs_dec; exact Si).
    assert (B : obody fcall go_fn elems parse_float veng stk ipc v mark ts len s = dropped (callFn fcall elems stk gf s)).
    { unfold obody. rewrite F. destruct v; try reflexivity. exfalso. apply (N f). reflexivity. }
    assert (Q : dropped (callFn fcall elems stk gf s) = r <-> applied stk (gf_in gf) (go_result gf) s r).
    { rewrite <- applied_fun. unfold callFn, throws, go_result. destruct (callN stk n_popArgs [VInt (Z.of_nat (gf_in gf))] s) as [(x, s1)|e]; [|reflexivity]. destruct (elems x s1) as [l|]; [|reflexivity]. destruct (gf_call gf l s1) as [(x1, s2)|e]; reflexivity. }
    rewrite B, Q. split.
    + intro X. eapply act_go; eauto.
    + intro X. inversion X; congruence.
Qed.
(** ** New *)
Variables isL isD : Z -> bool.
Notation ONew := (ONew fcall go_fn table_of isL isD).
(** what New gives, from some number of steps on *)
Definition makes (tk : tokener) (old : sc) (ip : value) (s : S) (r : nres) : Prop := r <> NewFuel /\ exists F, forall f, (F <= f)%nat -> ONew f tk old ip s = r.
(** what New asks the object for: its stack, function table and grammar *)
Inductive asked (ip : value) (s : S) : nat * class -> class -> list (bytes * value) -> bytes -> S -> Prop :=
| asked_all : forall i c si sc s1 vt s2 tbl gr s3, ip = VObj i c -> calls fcall (i, c) n_stack [] s (inl (VObj si sc, s1)) ->
    calls fcall (i, c) n_fntable [] s1 (inl (vt, s2)) -> table_of vt s2 = Some tbl -> calls fcall (i, c) n_grammar [] s2 (inl (VStr gr, s3)) ->
    asked ip s (si, sc) c tbl gr s3.
Lemma asked_new : forall ip s stk c tbl gr s3, asked ip s stk c tbl gr s3 -> forall f tk old,
  ONew f tk old ip s = match Cl (omarker go_fn tbl stk c) isL isD f tk old tt gr with
    | ClOk root d => NewOk (mkEngine root d tbl stk c) (mkO 0 ip (o_rest s3)) | ClFuel => NewFuel | r => NewErr (NeCompile r) s3 end.
Proof.
  intros ip s stk c tbl gr s3 [i c0 si sc s1 vt s2 tbl0 gr0 s3' -> C1 C2 T C3] f tk old. apply callN_iff in C1, C2, C3. unfold QInterp.ONew. rewrite C1, C2, T, C3. reflexivity.
Qed.
(** all other ways: an error, or a panic that a method of the object did not return from *)
Lemma not_asked : forall ip s tk old, (exists stk c tbl gr s3, asked ip s stk c tbl gr s3) \/
  (exists e s', (forall f, ONew f tk old ip s = NewErr e s') /\ forall p, e = NeOf p -> errorlike p) \/
  (exists p s' i c name s0, (forall f, ONew f tk old ip s = NewPanic p s') /\ ip = VObj i c /\ In name [n_stack; n_fntable; n_grammar] /\ calls fcall (i, c) name [] s0 (inr (p, s')) /\ (~ errorlike p \/ p = PUser PvFuel)).
Proof.
  intros ip s tk old.
  assert (NO : forall e, (forall p, e <> NeOf p) -> forall s', (forall f, ONew f tk old ip s = NewErr e s') -> exists e s', (forall f, ONew f tk old ip s = NewErr e s') /\ forall p, e = NeOf p -> errorlike p).
  { intros e N s' H. exists e, s'. split; [exact H|]. intros p E. destruct (N p E). }
  destruct ip as [| | | | | | | | | | | |i c| | | | | | | | | | | |]; try (right; left; apply (NO NeNotObject ltac:(discriminate) s); reflexivity).
  assert (PN : forall name s0 p s', In name [n_stack; n_fntable; n_grammar] -> callN (i, c) name [] s0 = inr (p, s') -> (forall f, ONew f tk old (VObj i c) s = caught p s') ->
    (exists e s', (forall f, ONew f tk old (VObj i c) s = NewErr e s') /\ forall p, e = NeOf p -> errorlike p) \/
    (exists p s' i0 c0 name s0, (forall f, ONew f tk old (VObj i c) s = NewPanic p s') /\ VObj i c = VObj i0 c0 /\ In name [n_stack; n_fntable; n_grammar] /\ calls fcall (i0, c0) name [] s0 (inr (p, s')) /\ (~ errorlike p \/ p = PUser PvFuel))).
  { intros name s0 p s' Hi Hc Hn. apply callN_iff in Hc. pose proof (errorlike_iff p) as EL. unfold caught in Hn. destruct (uncatchable p) eqn:U.
    - right. exists p, s', i, c, name, s0. repeat split; auto. destruct p as [m| |[]]; try discriminate U; [left; intro X; apply (X x); reflexivity|right; reflexivity].
    - destruct (as_error p) as [p'|].
      + left. exists (NeOf p'), s'. split; [exact Hn|]. destruct EL as (-> & EL). intros q [= <-]. exact EL.
      + right. exists p, s', i, c, name, s0. repeat split; auto. }
  destruct (callN (i, c) n_stack [] s) as [(v, s1)|(p, s1)] eqn:C1; [|right; apply (PN n_stack s p s1); [cbn; auto|exact C1|intro; unfold QInterp.ONew; rewrite C1; reflexivity]].
  destruct v as [| | | | | | | | | | | |si sc| | | | | | | | | | | |]; try (right; left; apply (NO NeStack ltac:(discriminate) s1); intro; unfold QInterp.ONew; rewrite C1; reflexivity).
  destruct (callN (i, c) n_fntable [] s1) as [(vt, s2)|(p, s2)] eqn:C2; [|right; apply (PN n_fntable s1 p s2); [cbn; auto|exact C2|intro; unfold QInterp.ONew; rewrite C1, C2; reflexivity]].
  destruct (table_of vt s2) as [tbl|] eqn:T; [|right; left; apply (NO NeFntable ltac:(discriminate) s2); intro; unfold QInterp.ONew; rewrite C1, C2, T; reflexivity].
  destruct (callN (i, c) n_grammar [] s2) as [(vg, s3)|(p, s3)] eqn:C3; [|right; apply (PN n_grammar s2 p s3); [cbn; auto|exact C3|intro; unfold QInterp.ONew; rewrite C1, C2, T, C3; reflexivity]].
  destruct vg as [| | | | |b| | | | | | | | | | | | | | | | | | |]; try (right; left; apply (NO NeGrammar ltac:(discriminate) s3); intro; unfold QInterp.ONew; rewrite C1, C2, T, C3; reflexivity).
  left. apply callN_iff in C1, C2, C3. exists (si, sc), c, tbl, b, s3. econstructor; eauto.
Qed.
(** New gives an engine exactly when the object has a stack (an object), a table and a grammar that compiles, and every mark of the
    grammar is good; the engine starts with that object as its interpreter. *)
Theorem C80_new : forall tk old ip s e s',
  makes tk old ip s (NewOk e s') <-> exists stk c tbl gr s3 root d rs, asked ip s stk c tbl gr s3 /\
    compiles_to (all_marks (PM := mpan) (fun n => n)) isL isD tk old tt gr (ClOk root d) /\ text_of isL isD tk old gr rs /\ Forall (good_mark go_fn tbl (snd stk) c) (marks_doc rs) /\
    e = mkEngine root d tbl stk c /\ s' = mkO 0 ip (o_rest s3).
Proof.
  intros tk old ip s e s'. split.
  - intros (_ & F & H). destruct (not_asked ip s tk old) as [(stk & c & tbl & gr & s3 & A)|[(e1 & s1 & Q & _)|(p & s1 & i & c & nm & s0 & Q & _)]].
    + pose proof (asked_new _ _ _ _ _ _ _ A) as Q. 
      assert (K : exists root d, e = mkEngine root d tbl stk c /\ s' = mkO 0 ip (o_rest s3) /\ compiles_to (omarker go_fn tbl stk c) isL isD tk old tt gr (ClOk root d)).
      { pose proof (H F (Nat.le_refl _)) as H0. rewrite Q in H0. destruct (Cl (omarker go_fn tbl stk c) isL isD F tk old tt gr) as [root d| | | | | |] eqn:EC; try discriminate H0. injection H0 as <- <-.
        exists root, d. repeat split; [discriminate|]. exists F. intros f Hf. specialize (H f Hf). rewrite Q in H. destruct (Cl (omarker go_fn tbl stk c) isL isD f tk old tt gr); try discriminate H. injection H as -> ->. reflexivity. }
      destruct K as (root & d & -> & -> & K). apply C80_compiles in K. destruct K as (K & rs & Hx & Fg). exists stk, c, tbl, gr, s3, root, d, rs. auto 10.
    + specialize (H F (Nat.le_refl _)). rewrite Q in H. discriminate H.
    + specialize (H F (Nat.le_refl _)). rewrite Q in H. discriminate H.
  - intros (stk & c & tbl & gr & s3 & root & d & rs & A & K & Hx & Fg & -> & ->).
    assert (K1 : compiles_to (omarker go_fn tbl stk c) isL isD tk old tt gr (ClOk root d)) by (apply C80_compiles; split; [exact K|exists rs; auto]).
    destruct K1 as (_ & F & K1). split; [discriminate|]. exists F. intros f Hf. rewrite (asked_new _ _ _ _ _ _ _ A), (K1 f Hf). reflexivity.
Qed.
(** New always ends, and panics only where a method it calls does, with a value that is neither a string nor an error (or ends the process). *)
Theorem C80_new_ends : forall tk old ip s, tk_ok tk -> (forall stk c tbl gr s3, asked ip s stk c tbl gr s3 -> Forall byte gr) ->
  exists r, makes tk old ip s r /\ match r with
    | NewPanic p s' => exists i c name s0, ip = VObj i c /\ In name [n_stack; n_fntable; n_grammar] /\ calls fcall (i, c) name [] s0 (inr (p, s')) /\ (~ errorlike p \/ p = PUser PvFuel)
    | NewErr (NeOf p) _ => errorlike p
    | _ => True end.
Proof.
  intros tk old ip s Hk Hb. destruct (not_asked ip s tk old) as [(stk & c & tbl & gr & s3 & A)|[(e1 & s1 & Q & L)|(p & s1 & i & c & nm & s0 & Q & D)]].
  - destruct (C31_terminates (omarker go_fn tbl stk c) isL isD tk old tt gr (Hb _ _ _ _ _ A) Hk) as (r & Nr & F & H).
    exists (match r with ClOk root d => NewOk (mkEngine root d tbl stk c) (mkO 0 ip (o_rest s3)) | ClFuel => NewFuel | r => NewErr (NeCompile r) s3 end). split.
    + split; [destruct r; try discriminate; congruence|]. exists F. intros f Hf. rewrite (asked_new _ _ _ _ _ _ _ A), (H f Hf). destruct r; reflexivity.
    + destruct r; exact Logic.I.
  - exists (NewErr e1 s1). split; [split; [discriminate|]; exists 0%nat; intros f _; apply Q|]. destruct e1; try exact Logic.I. apply L. reflexivity.
  - exists (NewPanic p s1). split; [split; [discriminate|]; exists 0%nat; intros f _; apply Q|]. exists i, c, nm, s0. exact D.
Qed.

(** ** Exec *)
Notation OExec := (OExec fcall go_fn elems parse_float veng isL isD).
Notation client e := (lift (eclient fcall go_fn elems parse_float veng e)).
Notation Matches e := (MatchExactly (cenv (g_dst e)) (client e) isL isD false).
(** Exec runs the text from the start of the grammar; what it panics with is returned if it is a string or an error, and goes on otherwise. *)
Theorem C80_exec : forall f semis old e src s, match Matches e semis oinit f (g_root e) (d_tk (g_dst e)) old src (mkSt (fun _ => 0) s) with
  | MNil s' => OExec f semis old e src s = inl (None, ust s')
  | MFail er s' => OExec f semis old e src s = inl (Some (inl (PMatch er)), ust s')
  | MTokErr er s' => OExec f semis old e src s = inl (Some (inr er), ust s')
  | MPanic p s' => (errorlike p -> p <> PUser PvFuel -> OExec f semis old e src s = inl (Some (inl p), ust s')) /\ (~ errorlike p -> OExec f semis old e src s = inr (p, ust s'))
  | _ => True end.
Proof.
  intros f semis old e src s. unfold QInterp.OExec. destruct (Matches e semis oinit f (g_root e) (d_tk (g_dst e)) old src (mkSt (fun _ => 0) s)) as [n s'|s'|s'|er s'|er s'|p s'|]; try exact Logic.I; try reflexivity.
  pose proof (errorlike_iff p) as EL. split.
  - intros Hp Nf. assert (U : uncatchable p = false) by (destruct p as [m| |[]]; try reflexivity; [exfalso; apply (Hp x); reflexivity|exfalso; apply Nf; reflexivity]). rewrite U. destruct (as_error p); [|contradiction]. destruct EL as (-> & _). reflexivity.
  - intro Hp. destruct (uncatchable p); [reflexivity|]. destruct (as_error p); [|reflexivity]. destruct EL as (_ & EL). contradiction.
Qed.
Theorem C80_exec_panics : forall f semis old e src s p s', OExec f semis old e src s = inr (p, s') -> ~ errorlike p \/ p = PUser PvFuel.
Proof.
  intros f semis old e src s p s'. unfold QInterp.OExec. destruct (Matches e semis oinit f (g_root e) (d_tk (g_dst e)) old src (mkSt (fun _ => 0) s)) as [n s1|s1|s1|er s1|er s1|q s1|]; try discriminate; [|intros [= <- _]; auto].
  pose proof (errorlike_iff q) as EL. destruct (uncatchable q) eqn:U.
  - intros [= <- _]. destruct q as [m| |[]]; try discriminate U; [left; intro X; apply (X x); reflexivity|auto].
  - destruct (as_error q); [discriminate|]. intros [= <- _]. auto.
Qed.
(** An earlier Exec that left the marks muted (it panicked in between) does not show: every Exec starts unmuted. *)
Theorem C80_exec_unmuted : forall f semis old e src s z, g_root e <> GNil ->
  OExec f semis old e src (set_omute z s) = match OExec f semis old e src s with inl (Some (inr er), s') => inl (Some (inr er), set_omute z s') | inr (PUser PvFuel, s') => OExec f semis old e src (set_omute z s) | r => r end.
Proof.
  intros f semis old e src s z Hr. unfold QInterp.OExec, MatchExactly, Match.
  assert (D : forall (Y : Type) (a b : Y), match g_root e with GNil => a | _ => b end = b) by (destruct (g_root e); congruence). rewrite !D.
  change (oinit (mkSt (fun _ : nat => 0) (set_omute z s))) with (oinit (mkSt (fun _ : nat => 0) s)).
  destruct (Tokenize isL isD false semis (d_tk (g_dst e)) old src) as [ts eof|eof er|]; [|reflexivity|reflexivity].
  destruct (gmatch (cenv (g_dst e)) (client e) f (g_root e) ts (oinit (mkSt (fun _ => 0) s))) as [n [er|] s1|p s1|]; try reflexivity.
  - destruct (skipn n ts); reflexivity.
  - destruct p as [m| |[]]; try reflexivity. destruct x; reflexivity.
Qed.

(** ** Muting *)
(** the marks whose functions run, of a sequence of marks met with mute count [n] *)
Inductive oran (tbl : list (bytes * value)) : Z -> list bytes -> list bytes -> Prop :=
| oran_nil : forall n, oran tbl n [] []
| oran_mute : forall n ms l, oran tbl (n + 1) ms l -> oran tbl n (m_mute :: ms) l
| oran_unmute : forall n ms l, oran tbl (n - 1) ms l -> oran tbl n (m_unmute :: ms) l
| oran_tr : forall n ms l, oran tbl n ms l -> oran tbl n (m_tr :: ms) l
| oran_run : forall n m v ms l, find (36 :: m) tbl = Some v -> runs m n -> oran tbl n ms l -> oran tbl n (m :: ms) (m :: l)
| oran_silent : forall n m v ms l, find (36 :: m) tbl = Some v -> ~ runs m n -> oran tbl n ms l -> oran tbl n (m :: ms) l.
(** A whole evaluation, with actions that record their marks: those run that the mute counts say, from count 0, whatever it was before. *)
Theorem C80_evaluation : forall (record : R -> list bytes) e g src o tr (s : st S) n err s',
  (forall b, In b [m_mute; m_unmute; m_tr] -> find (36 :: b) (g_tbl e) = None) ->
  (forall m v ts l x, find (36 :: m) (g_tbl e) = Some v -> exists x', obody fcall go_fn elems parse_float veng (g_stk e) (g_ipc e) v m ts l x = inl x' /\ o_mute x' = o_mute x /\ record (o_rest x') = record (o_rest x) ++ [m]) ->
  peg (cenv (g_dst e)) g src o tr -> Forall (fun m => find (36 :: m) (g_tbl e) <> None \/ In m [m_mute; m_unmute; m_tr]) (marks tr) ->
  returns (cenv (g_dst e)) (client e) g src (oinit s) n err s' ->
  exists l, oran (g_tbl e) 0 (marks tr) l /\ record (o_rest (ust s')) = record (o_rest (ust s)) ++ l.
Proof.
  intros record e g src o tr s n err s' NB Hrec Hp Hm (f & H).
  destruct (link_ret _ (eclient fcall go_fn elems parse_float veng e) _ _ _ _ _ _ _ _ _ Hp H) as (_ & Hrun). specialize (Hrun []). cbn [oinit ust] in Hrun.
  change 0 with (o_mute (set_omute 0 (ust s))). change (o_rest (ust s)) with (o_rest (set_omute 0 (ust s))).
  revert Hrun Hm. generalize (set_omute 0 (ust s)) as x. generalize (@nil unit) as vs. clear - NB Hrec.
  induction tr as [|[m ts l|[]|[]] tr IH]; intros vs x Hrun Hm.
  - cbn in Hrun. injection Hrun as HE. exists []. rewrite <- HE, app_nil_r. split; [constructor|reflexivity].
  - cbn [PegSpec.run u_act eclient oclient marks] in *. inversion Hm as [|? ? Hm1 Hm2]; subst. unfold QInterp.oact, entry in Hrun. destruct (find (36 :: m) (g_tbl e)) as [v|] eqn:Ef.
    + destruct (silenced m (o_mute x)) eqn:Si.
      * destruct (IH vs x Hrun Hm2) as (l' & Q1 & Q2). exists l'. split; [eapply oran_silent; eauto; rewrite runs_dec; congruence|exact Q2].
      * destruct (Hrec m v ts l x Ef) as (x' & Ex & Em & Er). rewrite Ex in Hrun.
        destruct (IH vs x' Hrun Hm2) as (l' & Q1 & Q2). exists (m :: l'). rewrite Em in Q1. split; [eapply oran_run; eauto; apply runs_dec; exact Si|].
        rewrite Q2, Er, <- app_assoc. reflexivity.
    + destruct Hm1 as [Hm1|[<-|[<-|[<-|[]]]]]; [congruence| | |].
      * destruct (IH _ _ Hrun Hm2) as (l' & Q1 & Q2). exists l'. split; [apply oran_mute; exact Q1|exact Q2].
      * destruct (IH _ _ Hrun Hm2) as (l' & Q1 & Q2). exists l'. split; [apply oran_unmute; exact Q1|exact Q2].
      * destruct (IH _ _ Hrun Hm2) as (l' & Q1 & Q2). exists l'. split; [apply oran_tr; exact Q1|exact Q2].
Qed.

(** ** EvalCode *)
Notation OEval := (OEvalCode fcall go_fn elems parse_float veng).
(** nil, an error or a panic: the interpreter and the mute count are those of before *)
Theorem C80_restored : forall f e fn name doc (s s' : st S), final_state (OEval f e fn name doc s) = Some s' -> o_ipt (ust s') = o_ipt (ust s) /\ o_mute (ust s') = o_mute (ust s).
Proof.
  intros f e fn name doc s s' H. unfold OEvalCode in H. destruct (EvalSubTokens _ _ _ _ _ _ _); cbn in H; inversion H; subst; split; reflexivity.
Qed.
(** During EvalCode, the receiver of every method of the interpreter that an action calls is the given object.  [seen] records the
    first arguments of these methods; functions leave the current interpreter as it is, as nested EvalCode calls do. *)
Section Current.
Variable seen : R -> list value.
Variable e : engine.
Definition ip_method (f : func) : bool := negb (in_class f (snd (g_stk e))) && in_class f (g_ipc e).
Hypothesis Hcall : forall f args x, match fcall f args x with
  | inl (_, x') => o_ipt x' = o_ipt x /\ seen (o_rest x') = seen (o_rest x) ++ (if ip_method f then firstn 1 args else [])
  | inr (_, x') => seen (o_rest x') = seen (o_rest x) ++ (if ip_method f then firstn 1 args else []) end.
Hypothesis Hgo : forall v gf l x, go_fn v = Some gf -> match gf_call gf l x with inl (_, x') => o_ipt x' = o_ipt x /\ seen (o_rest x') = seen (o_rest x) | inr (_, x') => seen (o_rest x') = seen (o_rest x) end.
Variable i : value.
Variable l0 : list value.
Definition cur_p (x : S) : Prop := exists l, seen (o_rest x) = l0 ++ l /\ Forall (fun v => v = i) l.
Definition cur (x : S) : Prop := o_ipt x = i /\ cur_p x.
Lemma cur_call : forall f args x, cur x -> (ip_method f = true -> firstn 1 args = [i]) -> match fcall f args x with inl (_, x') => cur x' | inr (_, x') => cur_p x' end.
Proof.
  intros f args x (Hi & l & E & Fl) Ha. specialize (Hcall f args x).
  assert (X : exists l2, l0 ++ l2 = seen (o_rest x) ++ (if ip_method f then firstn 1 args else []) /\ Forall (fun v => v = i) l2).
  { destruct (ip_method f); [rewrite (Ha eq_refl)|]; rewrite E; [exists (l ++ [i])|exists l]; [rewrite app_assoc|rewrite app_nil_r]; (split; [reflexivity|]); [apply Forall_app; auto|exact Fl]. }
  destruct X as (l2 & E2 & F2). rewrite <- E2 in Hcall. destruct (fcall f args x) as [(v, x')|(p, x')]; [|exists l2; auto]. destruct Hcall as (Q1 & Q2). split; [congruence|exists l2; auto].
Qed.
Lemma cur_meth : forall name args x, cur x -> match callN (g_stk e) name args x with inl (_, x') => cur x' | inr (_, x') => cur_p x' end.
Proof.
  intros name args x Hx. unfold QInterp.callN. destruct (find name (c_fns (snd (g_stk e)))) as [f|] eqn:Ef; [|apply Hx].
  apply cur_call; [exact Hx|]. unfold ip_method. assert (M : in_class f (snd (g_stk e)) = true).
  { apply method_iff. exists name, f. split; [apply find_in; exact Ef|reflexivity]. }
  rewrite M. discriminate.
Qed.
Lemma cur_act : forall m ts l x, cur x -> match oact (g_tbl e) (g_stk e) (g_ipc e) m ts l x with inl x' => cur x' | inr (_, x') => cur_p x' end.
Proof.
  assert (DR : forall r : res value, match r with inl (_, x') => cur x' | inr (_, x') => cur_p x' end -> match dropped r with inl x' => cur x' | inr (_, x') => cur_p x' end) by (intros [(v, x)|(p, x)] Q; exact Q).
  intros m ts l x Hx. unfold QInterp.oact. destruct (entry (g_tbl e) m) as [v|]; [|destruct (beq m m_mute); [exact Hx|]; destruct (beq m m_unmute); exact Hx].
  destruct (silenced m (o_mute x)); [exact Hx|].
  assert (GO : match match go_fn v with Some gf => dropped (callFn fcall elems (g_stk e) gf x) | None => inl x end with inl x' => cur x' | inr (_, x') => cur_p x' end).
  { destruct (go_fn v) as [gf|] eqn:Eg; [|exact Hx]. apply DR. unfold callFn, throws. pose proof (cur_meth n_popArgs [VInt (Z.of_nat (gf_in gf))] x Hx) as Q. destruct (callN (g_stk e) n_popArgs [VInt (Z.of_nat (gf_in gf))] x) as [(w, x1)|(p, x1)]; [|exact Q].
    destruct (elems w x1) as [a|]; [|apply Q]. pose proof (Hgo v gf a x1 Eg) as Q2. destruct Q as (Qi & lq & Qe & Qf). destruct (gf_call gf a x1) as [(o, x2)|(p, x2)].
    - apply cur_meth. destruct Q2 as (Q2 & Q3). split; [congruence|]. exists lq. rewrite Q3. auto.
    - exists lq. rewrite Q2. auto. }
  destruct v; try exact GO. clear GO. cbn [obody]. unfold kindRecvr. destruct (in_class f (snd (g_stk e))) eqn:M1; [|destruct (in_class f (g_ipc e)) eqn:M2]; cbn [Nat.eqb].
  - assert (NI : ip_method f = true -> forall a : list value, firstn 1 a = [i]) by (unfold ip_method; rewrite M1; discriminate).
    destruct (length (f_args f) =? 2)%nat; [|apply DR, cur_call; auto]. destruct (oarg parse_float veng m ts l); [apply DR, cur_call; auto|apply Hx].
  - assert (FI : forall a, firstn 1 (o_ipt x :: a) = [i]) by (intro a; cbn; destruct Hx as (-> & _); reflexivity).
    destruct (length (f_args f) =? 2)%nat; [|apply DR, cur_call; auto]. destruct (oarg parse_float veng m ts l); [apply DR, cur_call; auto|apply Hx].
  - apply DR. unfold callVfn, throws. pose proof (cur_meth n_popArgs [VInt (Z.of_nat (length (f_args f)))] x Hx) as Q. destruct (callN (g_stk e) n_popArgs [VInt (Z.of_nat (length (f_args f)))] x) as [(w, x1)|(p, x1)]; [|exact Q].
    destruct (elems w x1) as [a|]; [|apply Q]. assert (NI : ip_method f = true -> firstn 1 a = [i]) by (unfold ip_method; rewrite M1, M2; discriminate).
    pose proof (cur_call f a x1 Q NI) as Q2. destruct (fcall f a x1) as [(r, x2)|(p, x2)]; [|exact Q2]. apply cur_meth. exact Q2.
Qed.
End Current.
Theorem C80_current : forall (seen : R -> list value) e f i name doc (s s' : st S),
  (forall f args x, match fcall f args x with
    | inl (_, x') => o_ipt x' = o_ipt x /\ seen (o_rest x') = seen (o_rest x) ++ (if ip_method e f then firstn 1 args else [])
    | inr (_, x') => seen (o_rest x') = seen (o_rest x) ++ (if ip_method e f then firstn 1 args else []) end) ->
  (forall v gf l x, go_fn v = Some gf -> match gf_call gf l x with inl (_, x') => o_ipt x' = o_ipt x /\ seen (o_rest x') = seen (o_rest x) | inr (_, x') => seen (o_rest x') = seen (o_rest x) end) ->
  final_state (OEval f e i name doc s) = Some s' ->
  exists l, seen (o_rest (ust s')) = seen (o_rest (ust s)) ++ l /\ Forall (fun v => v = i) l.
Proof.
  intros seen e f i name doc s s' Hc Hg H. unfold OEvalCode, EvalSubTokens in H.
  destruct (find name (d_grams (g_dst e))) as [g|]; [|cbn in H; inversion H; subst; exists []; rewrite app_nil_r; auto].
  pose proof (gm_inv (cenv (g_dst e)) (client e) (fun x => cur seen i (seen (o_rest (ust s))) (ust x)) (fun p x => cur_p seen i (seen (o_rest (ust s))) (ust x))
    ltac:(intros id v x Q; exact Q)
    ltac:(intros a ts l x Q; cbn [lift c_act u_act eclient oclient]; pose proof (cur_act seen e Hc Hg i (seen (o_rest (ust s))) a ts l (ust x) Q) as Q'; destruct (oact (g_tbl e) (g_stk e) (g_ipc e) a ts l (ust x)) as [x'|(p, x')]; exact Q')
    ltac:(intros [])  ltac:(intros []) ltac:(intros x Q; destruct Q as (_ & Q); exact Q) ltac:(intros er x Q; destruct Q as (_ & Q); exact Q)
    f g doc (oinit (mkSt (lens s) (set_oipt i (ust s))))) as Q.
  assert (Q0 : cur seen i (seen (o_rest (ust s))) (ust (oinit (mkSt (lens s) (set_oipt i (ust s)))))) by (split; [reflexivity|]; exists []; cbn; rewrite app_nil_r; auto).
  specialize (Q Q0). destruct (gmatch (cenv (g_dst e)) (client e) f g doc (oinit (mkSt (lens s) (set_oipt i (ust s))))) as [n [er|] s1|p s1|]; cbn in H, Q; [| | |discriminate].
  - inversion H; subst. destruct Q as (_ & l & Q1 & Q2). exists l. cbn. auto.
  - destruct Q as (_ & l & Q1 & Q2). exists l. destruct (length doc =? n)%nat; cbn in H; inversion H; subst; cbn; auto.
  - inversion H; subst. destruct Q as (l & Q1 & Q2). exists l. cbn. auto.
Qed.
End Obj.

(** ** C81: the marks interpreter.New accepts *)
Section GoMarks.
Context {F X I E R : Type}.
Variable fntable : bytes -> option (gofn F X I E R).
Variables tstk tipt : rtype.
(** a function that takes the stack or the interpreter first has at most three parameters and no result but an error; others
    take their arguments from the stack *)
Definition takes (fn : gofn F X I E R) (t : rtype) : Prop := exists t0 l, fn_in fn = t0 :: l /\ t_id t0 = t_id t.
Inductive fit_mark (mark : bytes) : Prop :=
| fit_builtin : fntable (36 :: mark) = None -> In mark [m_mute; m_unmute; m_tr] -> fit_mark mark
| fit_func : forall fn c r, fntable (36 :: mark) = Some fn -> fn_func fn = true -> fn_variadic fn = false -> fn_in fn <> [] ->
    (takes fn tstk \/ takes fn tipt -> (length (fn_in fn) <= 3)%nat /\ (fn_out fn = [] \/ exists t, fn_out fn = [t] /\ t_id t = t_id typeError)) ->
    mark = c :: r -> (c = 95 -> r <> []) -> fit_mark mark.
Notation imarker := (imarker fntable tstk tipt).
Definition iokm (mark : bytes) : bool := match imarker GNil mark tt with inl _ => true | inr _ => false end.
Lemma imarker_ok : forall (M : Type) g mark (m : M), iokm mark = true -> imarker g mark m = inl (GAct g mark, m).
Proof.
  intros M g mark m. unfold iokm, Interp.imarker. destruct (fn_of fntable mark) as [fn|]; [|destruct (beq mark m_mute || beq mark m_unmute || beq mark m_tr); [reflexivity|discriminate]].
  destruct (negb (fn_func fn)); [discriminate|]. destruct (fn_variadic fn); [discriminate|]. destruct (fn_in fn) eqn:Ei; [discriminate|].
  destruct (if (recvr tstk tipt fn =? 0)%nat then _ else _); [discriminate|]. destruct (isLen mark); [reflexivity|discriminate].
Qed.
Lemma imarker_no : forall (M : Type) g mark (m : M), iokm mark = false -> exists p, imarker g mark m = inr (p, m).
Proof.
  intros M g mark m. unfold iokm, Interp.imarker. destruct (fn_of fntable mark) as [fn|]; [|destruct (beq mark m_mute || beq mark m_unmute || beq mark m_tr); [discriminate|eauto]].
  destruct (negb (fn_func fn)); [eauto|]. destruct (fn_variadic fn); [eauto|]. destruct (fn_in fn) eqn:Ei; [eauto|].
  destruct (if (recvr tstk tipt fn =? 0)%nat then _ else _); [eauto|]. destruct (isLen mark); [discriminate|eauto].
Qed.
Lemma recvr_iff : forall fn, (recvr tstk tipt fn =? 0)%nat = false <-> takes fn tstk \/ takes fn tipt.
Proof.
  intro fn. unfold recvr, takes, teq. destruct (fn_in fn) as [|t l].
  - split; [discriminate|]. intros [(t & l & D & _)|(t & l & D & _)]; discriminate D.
  - destruct (Nat.eqb_spec (t_id t) (t_id tstk)) as [E1|N1]; [split; [left; eauto|reflexivity]|]. destruct (Nat.eqb_spec (t_id t) (t_id tipt)) as [E2|N2]; [split; [right; eauto|reflexivity]|].
    split; [discriminate|]. intros [(t0 & l0 & D & E0)|(t0 & l0 & D & E0)]; injection D as <- <-; contradiction.
Qed.
Lemma iokm_fit : forall mark, iokm mark = true <-> fit_mark mark.
Proof.
  intro mark. unfold iokm, Interp.imarker, fn_of. split.
  - destruct (fntable (36 :: mark)) as [fn|] eqn:Ef.
    + destruct (fn_func fn) eqn:Fu; cbn [negb]; [|discriminate]. destruct (fn_variadic fn) eqn:V; [discriminate|]. destruct (fn_in fn) as [|t0 ins] eqn:Ei; [discriminate|]. rewrite <- Ei.
      destruct (if (recvr tstk tipt fn =? 0)%nat then _ else _) eqn:Ek; [discriminate|]. pose proof (isLen_cases mark) as C. destruct (isLen mark) as [b|]; [|discriminate]. intros _.
      assert (XX : exists c r, mark = c :: r /\ (c = 95 -> r <> [])).
      { destruct b; [|apply C]. destruct C as (c & r & [(-> & Nc)| ->] & _); [exists c, r; split; [reflexivity|congruence]|exists 95, (c :: r); split; [reflexivity|discriminate]]. }
      destruct XX as (c & r & Em & Hc). eapply fit_func; eauto; [congruence|]. intro T. apply recvr_iff in T. rewrite T in Ek. destruct (Nat.ltb_spec 3 (length (fn_in fn))); [discriminate|].
      split; [assumption|]. destruct (fn_out fn) as [|t [|? ?]]; [auto| |discriminate]. right. exists t. split; [reflexivity|]. unfold teq in Ek. destruct (Nat.eqb_spec (t_id t) (t_id typeError)); [assumption|discriminate].
    + destruct (beq mark m_mute) eqn:B1; [apply beq_eq in B1; intros _; apply fit_builtin; [exact Ef|subst; cbn; auto]|].
      destruct (beq mark m_unmute) eqn:B2; [apply beq_eq in B2; intros _; apply fit_builtin; [exact Ef|subst; cbn; auto]|].
      destruct (beq mark m_tr) eqn:B3; [apply beq_eq in B3; intros _; apply fit_builtin; [exact Ef|subst; cbn; auto]|]. discriminate.
  - intros [Ef H|fn c r Ef Fu V Ni K Em Hc]; rewrite Ef.
    + cbn in H. destruct H as [<-|[<-|[<-|[]]]]; reflexivity.
    + rewrite Fu, V. cbn [negb]. destruct (fn_in fn) as [|t0 ins] eqn:Ei; [congruence|]. rewrite <- Ei.
      assert (Ek : (if (recvr tstk tipt fn =? 0)%nat then None else if (3 <? length (fn_in fn))%nat then Some (MPTooManyParams mark) else
         match fn_out fn with [] => None | [t] => if teq t typeError then None else Some (MPRetType mark) | _ => Some (MPTooManyRets mark) end) = None).
      { destruct (recvr tstk tipt fn =? 0)%nat eqn:Er; [reflexivity|]. apply recvr_iff in Er. rewrite <- Ei in K. destruct (K Er) as (L3 & O). destruct (Nat.ltb_spec 3 (length (fn_in fn))); [lia|].
        destruct O as [-> |(t & -> & Et)]; [reflexivity|]. unfold teq. rewrite (proj2 (Nat.eqb_eq _ _) Et). reflexivity. }
      rewrite Ek. pose proof (isLen_cases mark) as C. destruct (isLen mark); [reflexivity|]. exfalso. subst mark. destruct C as [C|C]; [discriminate C|]. injection C as -> ->. apply Hc; reflexivity.
Qed.
(** interpreter.New's marker attaches the action of a fitting mark and rejects any other; *)
Theorem C81_marks : forall (M : Type) g mark (m : M), (fit_mark mark -> imarker g mark m = inl (GAct g mark, m)) /\ (~ fit_mark mark -> exists p, imarker g mark m = inr (p, m)).
Proof.
  intros M g mark m. rewrite <- iokm_fit. split; [apply imarker_ok|]. intro N. apply imarker_no. destruct (iokm mark); [exfalso; apply N; reflexivity|reflexivity].
Qed.
(** so a grammar compiles exactly when it would if all marks were accepted, and all its marks fit, with the same result. *)
Theorem C81_compiles : forall isL isD tk old src root d,
  compiles_to imarker isL isD tk old tt src (ClOk root d) <->
  compiles_to (all_marks (PM := mpan) (fun n => n)) isL isD tk old tt src (ClOk root d) /\ exists rs, text_of isL isD tk old src rs /\ Forall fit_mark (marks_doc rs).
Proof.
  intros isL isD tk old src root d. rewrite (checked (fun n => n) imarker iokm).
  - split; intros (H & rs & Hx & Fm); (split; [exact H|]; exists rs; split; [exact Hx|]; eapply Forall_impl; [|exact Fm]; intros n Hn; apply iokm_fit; exact Hn).
  - intros g n m H. apply imarker_ok. exact H.
  - intros g n m H. destruct (imarker_no _ g n m H) as (p & Ep). eauto.
Qed.
End GoMarks.

(** ** An interpreter written in qlang *)
(** maps are kept in the library's state, as lists of keys and values *)
Definition WM : Type := list (list (bytes * value)).
Fixpoint pairs (l : list value) : list (bytes * value) := match l with VStr k :: v :: l' => (k, v) :: pairs l' | _ => [] end.
Definition L2 : qlib WM := mkLib WM (fun n => if beq n (s2b "set") then Some (VGo n) else l_fnval L0 n) (fun _ => None) (l_same L0) (fun _ _ w => (inr PvFuel, w))
  (fun l w => (inl (VOther (length w)), w ++ [pairs l])) (fun _ _ w => (inr PvFuel, w)) (fun _ _ _ w => (inr PvFuel, w)) (l_unquote L0) (l_unquote_char L0) (l_parse_float L0).
Notation qst2 := (est nat value (@rest WM)).
Definition q_fcall (f : func) (args : list value) (s : ost qst2) : (value * ost qst2) + (panicq * ost qst2) :=
  match FnCall (ev L2 100) f args (o_rest s) with
  | inl (v, q) => inl (v, mkO (o_mute s) (o_ipt s) q)
  | inr (p, q) => inr (p, mkO (o_mute s) (o_ipt s) q)
  end.
Definition q_table (v : value) (s : ost qst2) : option (list (bytes * value)) := match v with VOther i => nth_error (r_world (e_rest (o_rest s))) i | _ => None end.
(** a Go function of one argument, println say *)
Definition q_go (v : value) : option (gofun qst2) := match v with VGo _ => Some (mkGofun 1 false (fun _ s => inl (None, s))) | _ => None end.
Local Open Scope string_scope.
(** a calculator with +, on a stack of linked nodes; its numbers are the results of the mark pushInt; brackets mute *)
Definition calc_text (grammar table : string) : string :=
  "Node = class { fn x() { } }; Stack = class { fn _init() { set(this, ""top"", nil) }
   fn push(v) { n = new Node; set(n, ""v"", v, ""next"", this.top); set(this, ""top"", n) }
   fn pop() { n = this.top; set(this, ""top"", n.next); return n.v }
   fn popArgs(k) { b = this.pop(); if k == 1 { return [b] }; a = this.pop(); return [a, b] }
   fn pushInt(v) { this.push(v) } fn count(n) { this.push(n) } };
   Calc = class { fn _init() { set(this, ""stk"", new Stack, ""name"", ""first"") } fn stack() { return this.stk }
     fn grammar() { return """ ++ grammar ++ """ } fn fntable() { return " ++ table ++ " } fn who() { this.stk.push(this.name) } };
   c = new Calc; d = new Calc; set(d, ""name"", ""second"", ""stk"", c.stk)".
Definition calc_grammar : string := "num = INT/pushInt *('+' INT/pushInt/add); doc = num ?('('/_mute num ')'/_unmute) | IDENT/who".
Definition calc_table : string := "{""$pushInt"": Stack.pushInt, ""$add"": fn(a, b) { return a + b }, ""$who"": Calc.who}".
Definition no_class (_ : Z) : bool := false.
Definition after (t : string) : qst2 := match Exec L2 no_class no_class 200 false PropScan.fresh (s2b t) (q_start []) with inl (_, s) => s | inr (_, s) => s end.
Definition var (n : string) (s : qst2) : value := match find (s2b n) (fr_vars (getf 0 s)) with Some v => v | None => VUndefined end.
Definition new2 (g t : string) : nres := let q := after (calc_text g t) in
  ONew q_fcall q_go q_table no_class no_class 300 (AutoKw new_akw) PropScan.fresh (var "c" q) (mkO 0 VNil q).
(** what popArgs(1) gives after the text has been run *)
Definition eval2 (g t src : string) : option (option (panicq + (nat * smsg)) * value) :=
  match new2 g t with
  | NewOk e s =>
      match OExec q_fcall q_go (fun v _ => elems_of v) (fun _ => inr NSyntax) (VOther 999) no_class no_class 300 false PropScan.fresh e (s2b src) s with
      | inl (r, s') => Some (r, match callN q_fcall (g_stk e) n_popArgs [VInt 1] s' with inl (v, _) => v | inr _ => VUndefined end)
      | inr _ => None
      end
  | _ => None
  end.
Example C80_runs : eval2 calc_grammar calc_table "1+2+39" = Some (None, VSlice TInt [VInt 42]).
Proof. vm_compute. reflexivity. Qed.
(** what is in brackets is muted *)
Example C80_muted : eval2 calc_grammar calc_table "1+2 (5+6)" = Some (None, VSlice TInt [VInt 3]).
Proof. vm_compute. reflexivity. Qed.
Example C80_who : eval2 calc_grammar calc_table "x" = Some (None, VSlice TString [VStr (s2b "first")]).
Proof. vm_compute. reflexivity. Qed.
(** a mark without a function in the table, and one whose function takes no arguments, are rejected; the table must be a map *)
Example C80_rejects : match new2 "doc = INT/add" "{""$sub"": fn(a, b) { return a - b }}" with NewErr (NeCompile _) _ => True | _ => False end /\
  match new2 "doc = INT/pop3" "{""$pop3"": fn() { }}" with NewErr (NeCompile _) _ => True | _ => False end /\
  match new2 calc_grammar "7" with NewErr NeFntable _ => True | _ => False end.
Proof. vm_compute. repeat split. Qed.
(** no object; an object without the method stack: the panic of the missing method is New's error *)
Example C80_no_object : match ONew q_fcall q_go q_table no_class no_class 10 Plain PropScan.fresh (VInt 1) (mkO 0 VNil (after "x = 1")) with NewErr NeNotObject _ => True | _ => False end /\
  match (let q := after "C = class { fn f() { } }; c = new C" in ONew q_fcall q_go q_table no_class no_class 10 Plain PropScan.fresh (var "c" q) (mkO 0 VNil q)) with
  | NewErr (NeOf (PUser p)) _ => p = msg m_nomethod [VStr n_stack] | _ => False end.
Proof. vm_compute. repeat split. Qed.
(** EvalCode with another object: its own name is pushed, and the first object is the interpreter again *)
Example C80_evalcode : match new2 calc_grammar calc_table with
  | NewOk e s =>
      match OEvalCode q_fcall q_go (fun v _ => elems_of v) (fun _ => inr NSyntax) (VOther 999) 300 e (var "d" (o_rest s)) (s2b "doc") [mkTok IDENT 1 (s2b "x")] (mkSt (fun _ => 0) s) with
      | MNil s' | MNext _ s' => match callN q_fcall (g_stk e) n_popArgs [VInt 1] (ust s') with inl (v, _) => v = VSlice TString [VStr (s2b "second")] | inr _ => False end /\ o_ipt (ust s') = o_ipt s
      | _ => False
      end
  | _ => False
  end.
Proof. vm_compute. repeat split. Qed.
Local Open Scope list_scope.
Local Open Scope Z_scope.
(** the hypotheses of C80_current and C80_evaluation: methods of the interpreter that record their receivers or their marks *)
Definition rec_f (id : nat) : func := mkFunc id [n_this] None 0 false.
Definition rec_ipc : class := mkClass 5 [(s2b "fa", rec_f 1); (s2b "fb", rec_f 2)].
Definition rec_tbl : list (bytes * value) := [(s2b "$a", VFunc (rec_f 1)); (s2b "$b", VFunc (rec_f 2))].
Definition rec_dst : dst bytes Empty_set unit := mkD [(s2b "doc", GTrue)] [] Plain 0 tt.
Definition rec_eng : engine := mkEngine (GAct (GAct GTrue (s2b "a")) (s2b "b")) rec_dst rec_tbl (7%nat, mkClass 6 []) rec_ipc.
Definition rec_call (f : func) (args : list value) (x : ost (list value)) : (value * ost (list value)) + (panicq * ost (list value)) :=
  inl (VNil, mkO (o_mute x) (o_ipt x) (o_rest x ++ (if ip_method rec_eng f then firstn 1 args else []))).
Example C80_current_hyp : (forall f args x, match rec_call f args x with
    | inl (_, x') => o_ipt x' = o_ipt x /\ o_rest x' = o_rest x ++ (if ip_method rec_eng f then firstn 1 args else [])
    | inr (_, x') => o_rest x' = o_rest x ++ (if ip_method rec_eng f then firstn 1 args else []) end) /\ ip_method rec_eng (rec_f 1) = true.
Proof. split; [intros f args x; split; reflexivity|reflexivity]. Qed.
Definition rec_mark (f : func) (args : list value) (x : ost (list bytes)) : (value * ost (list bytes)) + (panicq * ost (list bytes)) :=
  inl (VNil, mkO (o_mute x) (o_ipt x) (o_rest x ++ [if (f_id f =? 1)%nat then s2b "a" else s2b "b"])).
Example C80_evaluation_hyp :
  (forall b, In b [m_mute; m_unmute; m_tr] -> find (36 :: b) rec_tbl = None) /\
  (forall m v ts l x, find (36 :: m) rec_tbl = Some v -> exists x', obody rec_mark (fun _ => None) (fun _ _ => None) (fun _ => inr NSyntax) VNil (7%nat, mkClass 6 []) rec_ipc v m ts l x = inl x' /\
     o_mute x' = o_mute x /\ o_rest x' = o_rest x ++ [m]) /\
  peg (cenv rec_dst) (g_root rec_eng) [] (OOk 0 (-1)) [EvAct (s2b "a") [] (-1); EvAct (s2b "b") [] (-1)].
Proof.
  split; [|split].
  - intros b [<-|[<-|[<-|[]]]]; reflexivity.
  - intros m v ts l x H. unfold rec_tbl in H. cbn [find] in H. destruct (beq (36 :: m) (s2b "$a")) eqn:B1.
    + apply beq_eq in B1. injection B1 as ->. injection H as <-. eexists. split; [reflexivity|]. split; reflexivity.
    + destruct (beq (36 :: m) (s2b "$b")) eqn:B2; [|discriminate]. apply beq_eq in B2. injection B2 as ->. injection H as <-. eexists. split; [reflexivity|]. split; reflexivity.
  - exact (P_Act _ _ _ _ _ _ _ (P_Act _ _ _ _ _ _ _ (P_True _ _))).
Qed.
(** ** The marks …Int: not as ParseInt *)
(** They read the literal as strconv.Atoi does: decimal digits only; *)
Theorem C80_int : forall parse_float veng mark t r len, ~ capital mark -> last_word mark n_Int -> int_token t ->
  forall x, second parse_float veng mark (t :: r) len x <->
    x = match tlit t with
        | 48 :: c :: _ => if (c =? 120) || (c =? 88) then inr (PUser (msg m_parse [VStr mark])) else if ScannerSpec.value 10 (tlit t) <? 2 ^ 63 then inl (VInt (ScannerSpec.value 10 (tlit t))) else inr (PUser (msg m_parse [VStr mark]))
        | _ => if go_int (tlit t) <? 2 ^ 63 then inl (VInt (go_int (tlit t))) else inr (PUser (msg m_parse [VStr mark]))
        end.
Proof.
  intros parse_float veng mark t r len Nc Lw Ht x.
  assert (HL : isLen mark <> None).
  { pose proof (isLen_cases mark) as C. destruct (isLen mark); [discriminate|]. exfalso. apply last_word_fun in Lw. destruct C as [-> | ->]; discriminate Lw. }
  rewrite <- (@oarg_iff unit (fun _ => None) (fun _ _ => None) (fun _ _ => None) parse_float veng mark (t :: r) len x HL).
  assert (OE : oarg parse_float veng mark (t :: r) len = match StrInt 10 (tlit t) with inl v => inl (VInt v) | inr _ => inr (PUser (msg m_parse [VStr mark])) end).
  { unfold oarg. pose proof (isLen_cases mark) as C. destruct (isLen mark) as [[|]|]; [contradiction| |congruence]. rewrite (last_word_fun _ _ Lw). reflexivity. }
  rewrite OE. destruct (int_spelling t Ht) as (Hn & Hw). destruct (int_cases _ Hn Hw) as [E | [(c & l & E & Hx & Hr & Hd) | [(c & l & E & Hx1 & Hx2 & Hd) | (c & l & E & Hc & Hd)]]]; rewrite E in *.
  - cbn. split; congruence.
  - assert (B : (c =? 120) || (c =? 88) = true) by (destruct Hx as [-> | ->]; reflexivity). rewrite B.
    assert (SE : exists e, StrInt 10 (48 :: c :: l) = inr e) by (destruct Hx as [-> | ->]; cbn; eauto). destruct SE as (e & ->). split; congruence.
  - assert (B : (c =? 120) || (c =? 88) = false) by (apply orb_false_iff; split; apply Z.eqb_neq; assumption). 
    assert (Fd : Forall (fun b => digval b = Some (ScannerSpec.hexval b) /\ 0 <= ScannerSpec.hexval b < 10) (48 :: c :: l)).
    { constructor; [split; [reflexivity|cbn; lia]|]. eapply Forall_impl; [|exact Hd]. cbn. intros a Ha. split; [apply Ha|lia]. }
    rewrite B, strint_value by (try lia; try discriminate; exact Fd).
    destruct (ScannerSpec.value 10 (48 :: c :: l) <? 2 ^ 63); split; congruence.
  - assert (G : go_int (c :: l) = ScannerSpec.value 10 (c :: l) /\ forall (Y : Type) (a : Z -> Y) b, match c :: l with 48 :: c0 :: _ => a c0 | _ => b end = b).
    { clear - Hc. destruct c as [|p|p]; try (split; reflexivity). do 6 (destruct p as [p|p|]; try (split; reflexivity)). congruence. }
    destruct G as (G1 & G2). rewrite G2, G1, strint_value by (try lia; try discriminate; assumption).
    destruct (ScannerSpec.value 10 (c :: l) <? 2 ^ 63); split; congruence.
Qed.
(** so octal literals have other values than those of ParseInt (C43), and hexadecimal ones are errors. *)
Theorem C80_int_refuted : exists t mark, int_token t /\ go_int (tlit t) = 8 /\ forall parse_float veng len, second parse_float veng mark [t] len (inl (VInt 10)).
Proof.
  exists (mkTok INT 1 (s2b "010")), (s2b "pushInt"). split; [|split; [reflexivity|]].
  - exists (fun _ => false), (fun _ => false), false, false, Plain, PropScan.fresh, (s2b "010"). eexists _, _.
    split; [|split; [exact Logic.I|]]; [vm_compute; repeat constructor; discriminate|]. split; [vm_compute; reflexivity|]. split; [left; reflexivity|reflexivity].
  - intros parse_float veng len. apply (@oarg_iff unit (fun _ => None) (fun _ _ => None) (fun _ _ => None)); [discriminate|reflexivity].
Qed.
(** C81: a method of the stack fits, a function of four parameters that takes the interpreter first does not *)
Definition fit_tbl (n : bytes) : option (gofn unit unit Z unit unit) :=
  if beq n (s2b "$push") then Some (mkFn true [mkTy KPtr 20; typeStr] false [typeError] (fun _ x => inl ([], x)))
  else if beq n (s2b "$sum") then Some (mkFn true [typeInt; typeInt; typeInt; typeInt] false [typeInt; typeInt] (fun _ x => inl ([], x)))
  else if beq n (s2b "$big") then Some (mkFn true [mkTy KPtr 21; typeInt; typeInt; typeInt] false [] (fun _ x => inl ([], x)))
  else None.
Example C81_instance : let ok m := fit_mark fit_tbl (mkTy KPtr 20) (mkTy KPtr 21) (s2b m) in ok "push"%string /\ ok "sum"%string /\ ok "_mute"%string /\ ~ ok "big"%string /\ ~ ok "none"%string.
Proof. cbn zeta. rewrite <- !iokm_fit. repeat split; try discriminate; reflexivity. Qed.

Print Assumptions C80_marks.
Print Assumptions C80_compiles.
Print Assumptions C80_action.
Print Assumptions C80_new.
Print Assumptions C80_new_ends.
Print Assumptions C80_exec.
Print Assumptions C80_exec_panics.
Print Assumptions C80_exec_unmuted.
Print Assumptions C80_evaluation.
Print Assumptions C80_restored.
Print Assumptions C80_current.
Print Assumptions C80_int.
Print Assumptions C80_int_refuted.
Print Assumptions C81_marks.
Print Assumptions C81_compiles.
