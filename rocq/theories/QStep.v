(** What the actions of the qlang grammar do to the state: runs of traces, unmuted, muted and between _mute and _unmute. *)
From Coq Require Import String SpecFloat.
From Verif Require Import Base Token Grammar Matcher PegSpec MatchProofs Compiler Interp QValue Qlang QlangSpec QlangTop QText QTidy.
Local Open Scope Z_scope.

Section Steps.
Context {W : Type}.
Variable L : qlib W.
Notation St := (est nat value (@rest W)).
Notation qval := (rval float value nat value).
Notation Qfn := (gofn float value nat value (@rest W)).
Notation trace := (list (@PegSpec.ev bytes Empty_set)).
Notation run := (@PegSpec.run bytes Empty_set (pv value) St unit).
Notation qrun := (Qlang.run).
Notation sem := (@sem W).
Infix ">>" := seq (at level 60, right associativity).

Definition done (r : @qres W unit) (vs : list unit) : (list unit * St) + (panicq * St) :=
  match r with inl (_, x') => inl (vs, x') | inr r => inr r end.
(** unmuted, the trace does [c] *)
Definition does (tr : trace) (c : sem) : Prop := forall ev k, tidy ev ->
  (forall x vs, e_mute x = 0 -> run (q_client L ev k) tr vs x = done (c ev k (e_ipt x) x) vs) /\ forall p, tq (c ev k p).
(** muted, it does nothing *)
Definition hush (tr : trace) : Prop := forall ev k x vs, 1 <= e_mute x -> run (q_client L ev k) tr vs x = inl (vs, x).
Definition both (tr : trace) (c : sem) : Prop := does tr c /\ hush tr.
(** muted once, it pushes the values [l] (first pushed first); muted more it does nothing *)
Definition pushes (tr : trace) (l : list value) : Prop := forall ev k x vs,
  (e_mute x = 1 -> run (q_client L ev k) tr vs x = inl (vs, set_stk (rev l ++ e_stk x) x)) /\
  (2 <= e_mute x -> run (q_client L ev k) tr vs x = inl (vs, x)).
Fixpoint put_all (l : list value) : sem := match l with [] => nop | v :: l' => puts v >> put_all l' end.

Lemma run_nil : forall u vs x, run u [] vs x = inl (vs, x).
Proof. reflexivity. Qed.
Lemma run_app' : forall u tr1 tr2 vs x, run u (tr1 ++ tr2) vs x = match run u tr1 vs x with inl (vs1, x1) => run u tr2 vs1 x1 | inr r => inr r end.
Proof. intros. apply run_app. Qed.
Lemma does_nil : does [] nop.
Proof. intros ev k H. split; [reflexivity|]. intro p. apply tq_ret. Qed.
Lemma does_app : forall tr1 tr2 c1 c2, does tr1 c1 -> does tr2 c2 -> does (tr1 ++ tr2) (c1 >> c2).
Proof.
  intros tr1 tr2 c1 c2 H1 H2 ev k Hev. destruct (H1 ev k Hev) as (A1 & B1). destruct (H2 ev k Hev) as (A2 & B2). split.
  - intros x vs Hx. rewrite run_app', (A1 x vs Hx). unfold done, seq, bind. pose proof (B1 (e_ipt x) x) as T. destruct (c1 ev k (e_ipt x) x) as [(y, x')|(e, x')]; [|reflexivity].
    cbn in T. destruct T as (T1 & T2). rewrite (A2 x' vs) by congruence. rewrite T2. reflexivity.
  - intro p. unfold seq. apply tq_bind; [apply B1|intro; apply B2].
Qed.
Lemma does_ext : forall tr c c', does tr c -> (forall ev k p x, c' ev k p x = c ev k p x) -> does tr c'.
Proof. intros tr c c' H E ev k Hev. destruct (H ev k Hev) as (A & B). split; [intros x vs Hx; rewrite E; apply A; exact Hx|]. intros p x. rewrite E. apply B. Qed.
Lemma hush_nil : hush [].
Proof. intros ev k x vs _. reflexivity. Qed.
Lemma hush_app : forall tr1 tr2, hush tr1 -> hush tr2 -> hush (tr1 ++ tr2).
Proof. intros tr1 tr2 H1 H2 ev k x vs Hx. rewrite run_app', H1 by exact Hx. apply H2. exact Hx. Qed.
Lemma both_nil : both [] nop.
Proof. split; [apply does_nil|apply hush_nil]. Qed.
Lemma both_app : forall tr1 tr2 c1 c2, both tr1 c1 -> both tr2 c2 -> both (tr1 ++ tr2) (c1 >> c2).
Proof. intros tr1 tr2 c1 c2 (A & B) (C & D). split; [apply does_app; assumption|apply hush_app; assumption]. Qed.
Lemma both_ext : forall tr c c', both tr c -> (forall ev k p x, c' ev k p x = c ev k p x) -> both tr c'.
Proof. intros tr c c' (A & B) E. split; [eapply does_ext; eassumption|exact B]. Qed.
Lemma seq_assoc : forall (a b c : sem) ev k p x, ((a >> b) >> c) ev k p x = (a >> b >> c) ev k p x.
Proof. intros. unfold seq, bind. destruct (a ev k p x) as [(y, x')|r]; reflexivity. Qed.
Lemma nop_seq : forall (a : sem) ev k p x, (nop >> a) ev k p x = a ev k p x.
Proof. reflexivity. Qed.
Lemma seq_nop : forall (a : sem) ev k p x, (a >> nop) ev k p x = a ev k p x.
Proof. intros. unfold seq, bind, nop, ret. destruct (a ev k p x) as [([], x')|r]; reflexivity. Qed.

Lemma set_stk_id : forall x : St, set_stk (e_stk x) x = x.
Proof. intros []. reflexivity. Qed.
Lemma pushes_hush : forall tr, hush tr -> pushes tr [].
Proof. intros tr H ev k x vs. split; intro Hx; [rewrite H by lia; cbn; rewrite set_stk_id; reflexivity|apply H; lia]. Qed.
Lemma pushes_nil : pushes [] [].
Proof. apply pushes_hush. apply hush_nil. Qed.
Lemma pushes_app : forall tr1 tr2 l1 l2, pushes tr1 l1 -> pushes tr2 l2 -> pushes (tr1 ++ tr2) (l1 ++ l2).
Proof.
  intros tr1 tr2 l1 l2 H1 H2 ev k x vs. split; intro Hx; rewrite run_app'.
  - rewrite (proj1 (H1 ev k x vs) Hx). rewrite (proj1 (H2 ev k (set_stk (rev l1 ++ e_stk x) x) vs)) by exact Hx. rewrite rev_app_distr, <- app_assoc. reflexivity.
  - rewrite (proj2 (H1 ev k x vs) Hx). apply (H2 ev k x vs). exact Hx.
Qed.
Lemma put_all_eq : forall l ev k p x, put_all l ev k p x = inl (tt, set_stk (rev l ++ e_stk x) x).
Proof.
  induction l as [|v l IH]; intros; cbn [put_all]; [unfold nop, ret; cbn; rewrite set_stk_id; reflexivity|]. unfold seq, bind, puts, push, modify. rewrite IH. cbn. rewrite <- app_assoc. reflexivity.
Qed.
Lemma tq_put_all : forall l ev k p, tq (put_all l ev k p).
Proof. intros l ev k p x. rewrite put_all_eq. split; reflexivity. Qed.
(** _mute ... _unmute *)
Lemma act_mute : forall ev k ts l (x : St), u_act (q_client L ev k) m_mute ts l x = inl (set_mute (e_mute x + 1) x).
Proof. reflexivity. Qed.
Lemma act_unmute : forall ev k ts l (x : St), u_act (q_client L ev k) m_unmute ts l x = inl (set_mute (e_mute x - 1) x).
Proof. reflexivity. Qed.
Lemma both_muted : forall tr l ts1 n1 ts2 n2, pushes tr l -> both (EvAct m_mute ts1 n1 :: tr ++ [EvAct m_unmute ts2 n2]) (put_all l).
Proof.
  intros tr l ts1 n1 ts2 n2 H. split.
  - intros ev k Hev. split; [|intro p; apply tq_put_all]. intros x vs Hx. cbn [PegSpec.run]. rewrite act_mute, run_app'. rewrite (proj1 (H ev k (set_mute (e_mute x + 1) x) vs)) by (cbn; lia).
    cbn [PegSpec.run]. rewrite act_unmute, put_all_eq. cbn. destruct x as [m i st r]. cbn in *. subst m. reflexivity.
  - intros ev k x vs Hx. cbn [PegSpec.run]. rewrite act_mute, run_app'. rewrite (proj2 (H ev k (set_mute (e_mute x + 1) x) vs)) by (cbn; lia).
    cbn [PegSpec.run]. rewrite act_unmute. destruct x as [m i st r]. cbn. replace (m + 1 - 1) with m by lia. reflexivity.
Qed.
Lemma pushes_act : forall a ts l v, (forall ev k (x : St), e_mute x = 1 -> u_act (q_client L ev k) a ts l x = inl (set_stk (v :: e_stk x) x)) ->
  (forall ev k (x : St), 2 <= e_mute x -> u_act (q_client L ev k) a ts l x = inl x) -> pushes [EvAct a ts l] [v].
Proof. intros a ts l v H1 H2 ev k x vs. split; intro Hx; cbn [PegSpec.run]; [rewrite H1 by exact Hx|rewrite H2 by exact Hx]; reflexivity. Qed.
Lemma silent2 : forall a fn ev k ts l (x : St), fntable L ev k (36 :: a) = Some fn -> 2 <= e_mute x -> u_act (q_client L ev k) a ts l x = inl x.
Proof.
  intros a fn ev k ts l x E Hx. cbn [u_act q_client iclient]. unfold iact, fn_of. rewrite E. assert (silenced a (e_mute x) = true) as ->; [|reflexivity].
  unfold silenced. destruct (Z.ltb_spec 0 (e_mute x)); [|lia]. destruct (Z.ltb_spec 1 (e_mute x)); [|lia]. rewrite orb_true_r. reflexivity.
Qed.
Lemma loud1 : forall m a fn ev k ts l (x : St), fntable L ev k (36 :: 95 :: a) = Some fn -> e_mute x = m -> m <= 1 ->
  u_act (q_client L ev k) (95 :: a) ts l x =
  match Interp.body emb q_pushret q_to_float f_of_int (l_parse_float L) t_stack t_ipt None (95 :: a) fn ts l x with inl s' => inl s' | inr (p, s') => inr (wrap ts p, s') end.
Proof.
  intros m a fn ev k ts l x E Hx Hm. cbn [u_act q_client iclient]. unfold iact, fn_of. rewrite E. assert (silenced (95 :: a) (e_mute x) = false) as ->; [|reflexivity].
  unfold silenced. rewrite Hx. destruct (Z.ltb_spec 1 m); [lia|]. cbn. apply andb_false_r.
Qed.
Lemma code_unemb : forall ts, unemb (match ts with [] => Some (mkVal typeIntf DNil) | _ => Some (mkVal typeIntf (DTokens ts)) end : qval) = code ts.
Proof. intros [|t ts]; reflexivity. Qed.
Lemma pushes_code : forall ts l, pushes [EvAct k__code ts l] [code ts].
Proof.
  intros ts l. apply pushes_act; intros ev k x Hx.
  - unfold k__code. erewrite loud1; [|reflexivity|exact Hx|lia]. destruct ts as [|t ts]; reflexivity.
  - apply (silent2 k__code (stk1 typeIntf push)); [reflexivity|exact Hx].
Qed.
Lemma pushes_arity : forall ts l, pushes [EvAct k__ARITY ts l] [VInt l].
Proof.
  intros ts l. apply pushes_act; intros ev k x Hx.
  - unfold k__ARITY. erewrite loud1; [|reflexivity|exact Hx|lia]. reflexivity.
  - apply (silent2 k__ARITY (stk1 typeInt push)); [reflexivity|exact Hx].
Qed.

(** ** The other actions *)
Notation qbody := (Interp.body emb q_pushret q_to_float f_of_int (l_parse_float L) t_stack t_ipt None).
Definition und (a : bytes) : bool := match a with c :: _ => c =? 95 | [] => false end.
Definition ended (r : @qres W unit) : St + (panicq * St) := match r with inl (_, x') => inl x' | inr r => inr r end.
Lemma act_both : forall a ts l (fn : @evaluator W -> nat -> Qfn) (m : sem), und a = false ->
  (forall ev k, fntable L ev k (36 :: a) = Some (fn ev k)) ->
  (forall ev k x, qbody a (fn ev k) ts l x = ended (m ev k (e_ipt x) x)) ->
  (forall ev k p, tidy ev -> tq (m ev k p)) -> both [EvAct a ts l] (fun ev k p => blame ts (m ev k p)).
Proof.
  intros a ts l fn m Hu Hf Hb Ht. split.
  - intros ev k Hev. split.
    + intros x vs Hx. cbn [PegSpec.run u_act q_client iclient]. unfold iact, fn_of. rewrite Hf. assert (silenced a (e_mute x) = false) as -> by (rewrite Hx; reflexivity).
      rewrite Hb. unfold blame. destruct (m ev k (e_ipt x) x) as [(y, x')|(e, x')]; reflexivity.
    + intros p x. unfold blame. pose proof (Ht ev k p Hev x) as T. destruct (m ev k p x) as [(y, x')|(e, x')]; exact T.
  - intros ev k x vs Hx. cbn [PegSpec.run u_act q_client iclient]. unfold iact, fn_of. rewrite Hf. assert (silenced a (e_mute x) = true) as ->; [|reflexivity].
    unfold silenced. destruct (Z.ltb_spec 0 (e_mute x)); [|lia]. unfold und in Hu. destruct a as [|c a]; [reflexivity|]. rewrite Hu. reflexivity.
Qed.
Lemma ended_run : forall (m : @Q W unit) x, raise_ret (qrun m no_out x) = ended (m x).
Proof. intros m x. unfold qrun. destruct (m x) as [(y, x')|(e, x')]; reflexivity. Qed.
Lemma ended_raise : forall (m : @Q W (option qerr)) x, raise_ret (qrun m err_out x) = ended (raise m x).
Proof. intros m x. unfold qrun, raise, bind. destruct (m x) as [([e|], x')|(e, x')]; reflexivity. Qed.
Lemma raise_tq : forall (m : @Q W (option qerr)), tq m -> tq (raise m).
Proof. intros m H. unfold raise. apply tq_bind; [exact H|]. intros [e|]; [apply tq_throw|apply tq_ret]. Qed.

(** by the shape of the function in the table *)
Lemma b_stk0 : forall a ts l m, und a = false -> (forall ev k, fntable L ev k (36 :: a) = Some (stk0 m)) -> tq m -> both [EvAct a ts l] (fun _ _ _ => blame ts m).
Proof. intros a ts l m Hu Hf Ht. apply (act_both a ts l (fun _ _ => stk0 m) (fun _ _ _ => m) Hu Hf); [|auto]. intros ev k x. apply ended_run. Qed.
Lemma b_ipt0 : forall a ts l m, und a = false -> (forall ev k, fntable L ev k (36 :: a) = Some (ipt0 m)) -> (forall p, tq (m p)) -> both [EvAct a ts l] (fun _ _ p => blame ts (m p)).
Proof. intros a ts l m Hu Hf Ht. apply (act_both a ts l (fun _ _ => ipt0 m) (fun _ _ p => m p) Hu Hf); [|auto]. intros ev k x. apply ended_run. Qed.
Lemma b_ipt0e : forall a ts l (m : @evaluator W -> nat -> nat -> @Q W (option qerr)), und a = false -> (forall ev k, fntable L ev k (36 :: a) = Some (ipt0e (m ev k))) ->
  (forall ev k p, tidy ev -> tq (m ev k p)) -> both [EvAct a ts l] (fun ev k p => blame ts (raise (m ev k p))).
Proof.
  intros a ts l m Hu Hf Ht. apply (act_both a ts l (fun ev k => ipt0e (m ev k)) (fun ev k p => raise (m ev k p)) Hu Hf); [|intros; apply raise_tq; auto]. intros ev k x. apply ended_raise.
Qed.
Lemma arg1_eng : forall a ts l, isLen a = Some false -> arg1 f_of_int (l_parse_float L) a ts l typeEng = inl (Some (mkVal typeEng DEng) : qval).
Proof. intros a ts l H. unfold arg1. rewrite H. reflexivity. Qed.
Lemma arg1_str : forall a t ts l, isLen a = Some false -> arg1 f_of_int (l_parse_float L) a (t :: ts) l typeStr = inl (Some (mkVal typeStr (DStr (tlit t))) : qval).
Proof. intros a t ts l H. unfold arg1. rewrite H. reflexivity. Qed.
Lemma b_ipt_eng : forall a ts l (m : sem), und a = false -> isLen a = Some false -> (forall ev k, fntable L ev k (36 :: a) = Some (ipt_eng (m ev k))) ->
  (forall ev k p, tidy ev -> tq (m ev k p)) -> both [EvAct a ts l] (fun ev k p => blame ts (m ev k p)).
Proof.
  intros a ts l m Hu Hl Hf Ht. apply (act_both a ts l (fun ev k => ipt_eng (m ev k)) m Hu Hf); [|auto]. intros ev k x.
  unfold Interp.body. change (recvr t_stack t_ipt (ipt_eng (m ev k))) with 2%nat. cbn [Nat.eqb ipt_eng fn_in fn_call]. rewrite arg1_eng by exact Hl. apply ended_run.
Qed.
Lemma b_ipt_enge : forall a ts l (m : @evaluator W -> nat -> nat -> @Q W (option qerr)), und a = false -> isLen a = Some false -> (forall ev k, fntable L ev k (36 :: a) = Some (ipt_enge (m ev k))) ->
  (forall ev k p, tidy ev -> tq (m ev k p)) -> both [EvAct a ts l] (fun ev k p => blame ts (raise (m ev k p))).
Proof.
  intros a ts l m Hu Hl Hf Ht. apply (act_both a ts l (fun ev k => ipt_enge (m ev k)) (fun ev k p => raise (m ev k p)) Hu Hf); [|intros; apply raise_tq; auto]. intros ev k x.
  unfold Interp.body. change (recvr t_stack t_ipt (ipt_enge (m ev k))) with 2%nat. cbn [Nat.eqb ipt_enge fn_in fn_call]. rewrite arg1_eng by exact Hl. apply ended_raise.
Qed.
Lemma b_ipt_str : forall a t ts l m, und a = false -> isLen a = Some false -> (forall ev k, fntable L ev k (36 :: a) = Some (ipt_str m)) ->
  (forall p n, tq (m p n)) -> both [EvAct a (t :: ts) l] (fun _ _ p => blame (t :: ts) (m p (tlit t))).
Proof.
  intros a t ts l m Hu Hl Hf Ht. apply (act_both a (t :: ts) l (fun _ _ => ipt_str m) (fun _ _ p => m p (tlit t)) Hu Hf); [|auto]. intros ev k x.
  unfold Interp.body. change (recvr t_stack t_ipt (ipt_str m)) with 2%nat. cbn [Nat.eqb ipt_str fn_in fn_call]. rewrite arg1_str by exact Hl. apply ended_run.
Qed.
Lemma b_ipt_stre : forall a t ts l m, und a = false -> isLen a = Some false -> (forall ev k, fntable L ev k (36 :: a) = Some (ipt_stre m)) ->
  (forall p n, tq (m p n)) -> both [EvAct a (t :: ts) l] (fun _ _ p => blame (t :: ts) (raise (m p (tlit t)))).
Proof.
  intros a t ts l m Hu Hl Hf Ht. apply (act_both a (t :: ts) l (fun _ _ => ipt_stre m) (fun _ _ p => raise (m p (tlit t))) Hu Hf); [|intros; apply raise_tq; auto]. intros ev k x.
  unfold Interp.body. change (recvr t_stack t_ipt (ipt_stre m)) with 2%nat. cbn [Nat.eqb ipt_stre fn_in fn_call]. rewrite arg1_str by exact Hl. apply ended_raise.
Qed.
Lemma b_stk_str : forall a t ts l m, und a = false -> isLen a = Some false -> (forall ev k, fntable L ev k (36 :: a) = Some (stk_str m)) ->
  (forall n, tq (m n)) -> both [EvAct a (t :: ts) l] (fun _ _ _ => blame (t :: ts) (m (tlit t))).
Proof.
  intros a t ts l m Hu Hl Hf Ht. apply (act_both a (t :: ts) l (fun _ _ => stk_str m) (fun _ _ _ => m (tlit t)) Hu Hf); [|auto]. intros ev k x.
  unfold Interp.body. change (recvr t_stack t_ipt (stk_str m)) with 1%nat. cbn [Nat.eqb stk_str fn_in fn_call]. rewrite arg1_str by exact Hl. apply ended_run.
Qed.
Lemma b_if : forall ts l, (ts = [] \/ exists r t, ts = r ++ [t] /\ tkind t = RBRACE) -> both [EvAct k_if ts l] (fun ev k p => blame ts (If ev p)).
Proof.
  intros ts l Hts. apply (act_both k_if ts l (fun ev k => ipt_ctx (If ev)) (fun ev k p => If ev p)); [reflexivity|reflexivity| |intros; apply tq_If; assumption]. intros ev k x.
  unfold Interp.body. change (recvr t_stack t_ipt (ipt_ctx (If ev))) with 2%nat. cbn [Nat.eqb ipt_ctx fn_in fn_call].
  assert (exists v, arg1 f_of_int (l_parse_float L) k_if ts l typeCtx = inl (v : qval)) as (v & ->); [|apply ended_run].
  unfold arg1. cbn [isLen k_if upperc]. change (teq typeCtx typeCtx) with true. cbv iota.
  destruct Hts as [->|(r & t & -> & Ht)]; [eexists; reflexivity|]. unfold ctxValue. destruct (r ++ [t]) as [|t0 r0] eqn:E; [destruct r; discriminate|]. rewrite <- E, last_last.
  unfold tok_End. rewrite Ht. cbn. eexists. reflexivity.
Qed.
(** pushes *)
Lemma blame_push : forall ts v, (fun s => blame ts (push v : @Q W unit) s) = push v.
Proof. reflexivity. Qed.
Lemma b_arity : forall ts l, both [EvAct k_ARITY ts l] (puts (VInt l)).
Proof.
  intros ts l. eapply both_ext; [apply (act_both k_ARITY ts l (fun _ _ => stk1 typeInt push) (fun _ _ _ => push (VInt l)))|]; try reflexivity. intros. apply tq_push.
Qed.
Lemma b_count : forall ts l n, l = Z.of_nat n -> both [EvAct k_ARITY ts l] (count n).
Proof. intros ts l n ->. apply b_arity. Qed.
Lemma b_name : forall t ts l, both [EvAct k_name (t :: ts) l] (puts (VStr (tlit t))).
Proof. intros. eapply both_ext; [apply (b_stk_str k_name t ts l (fun n => push (VStr n)))|]; try reflexivity. intros. apply tq_push. Qed.
Lemma b_pushn : forall ts l, both [EvAct k_pushn ts l] (puts VNil).
Proof. intros. eapply both_ext; [apply (b_stk0 k_pushn ts l (push VNil))|]; try reflexivity. apply tq_push. Qed.
(** literals *)
Lemma b_pushi : forall t l, both [EvAct k_pushi [t] l] (fun _ _ _ => blame [t] (int_lit t)).
Proof.
  intros t l. apply (act_both k_pushi [t] l (fun _ _ => stk1 typeInt push) (fun _ _ _ => int_lit t)); try reflexivity.
  - intros ev k x. unfold Interp.body. change (recvr t_stack t_ipt (stk1 typeInt push : Qfn)) with 1%nat. cbn [Nat.eqb stk1 fn_in fn_call].
    unfold arg1. cbn [isLen k_pushi upperc]. unfold GetValue, int_lit. cbn. destruct (ParseInt (tlit t)) as [[z|e]|]; reflexivity.
  - intros ev k p _. unfold int_lit. destruct (ParseInt (tlit t)) as [[z|e]|]; [apply tq_push|apply tq_throw|apply tq_crash].
Qed.
Lemma b_pushf : forall t l, both [EvAct k_pushf [t] l] (fun _ _ _ => blame [t] (float_lit L t)).
Proof.
  intros t l. apply (act_both k_pushf [t] l (fun _ _ => stk1 typeFloat64 push) (fun _ _ _ => float_lit L t)); try reflexivity.
  - intros ev k x. unfold Interp.body. change (recvr t_stack t_ipt (stk1 typeFloat64 push : Qfn)) with 1%nat. cbn [Nat.eqb stk1 fn_in fn_call].
    unfold arg1. cbn [isLen k_pushf upperc]. unfold GetValue, float_lit. cbn [t_kind typeFloat64 teq]. cbv iota. destruct (ParseFloat f_of_int (l_parse_float L) (tlit t)) as [[z|e]|]; reflexivity.
  - intros ev k p _. unfold float_lit. destruct (ParseFloat f_of_int (l_parse_float L) (tlit t)) as [[z|e]|]; [apply tq_push|apply tq_throw|apply tq_crash].
Qed.
(** operators *)
Lemma any_push : forall v (x : St), set_stk (fst (q_pushret (any_out v) (e_stk x))) x = set_stk (v :: e_stk x) x.
Proof. intros v x. destruct v; reflexivity. Qed.
Lemma b_op1 : forall a f ts l, und a = false -> (forall ev k, fntable L ev k (36 :: a) = Some (op1 f)) -> both [EvAct a ts l] (fun _ _ _ => blame ts (unary a f)).
Proof.
  intros a f ts l Hu Hf. apply (act_both a ts l (fun _ _ => op1 f) (fun _ _ _ => unary a f) Hu Hf).
  - intros ev k x. unfold Interp.body. change (recvr t_stack t_ipt (op1 f : Qfn) =? 0)%nat with true. cbv iota. unfold DoCall, unary. cbn [op1 fn_in length Z.of_nat Z.ltb Z.compare Pos.of_succ_nat].
    unfold PopArgs. destruct (e_stk x) as [|v st]; [reflexivity|]. cbn [length]. destruct (Z.leb_spec 1 (Z.of_nat (S (length st)))); [|lia].
    change (1 <? 0) with false. cbv iota. change (Z.to_nat 1) with 1%nat. cbn [firstn skipn map rev app].
    assert (E : exists v', validateArgs q_to_float [typeAny] false [emb v] = Val (inl [v']) /\ unemb v' = v) by (destruct v; eexists; split; reflexivity). destruct E as (v' & -> & Ev).
    unfold apply_fn, op1, op2. cbn [fn_call]. unfold qrun, arg_at. cbn [nth]. rewrite Ev. unfold bind, of_op. destruct (f v) as [r|e]; cbn; [destruct r; reflexivity|reflexivity].
  - intros ev k p _ x. unfold unary. destruct (e_stk x) as [|v st]; [apply se_refl|]. apply (se_trans _ (set_stk st x)); [split; reflexivity|]. apply tq_bind; [apply tq_of_op|intro; apply tq_push].
Qed.
Lemma b_op2 : forall a f ts l, und a = false -> (forall ev k, fntable L ev k (36 :: a) = Some (op2 f)) -> both [EvAct a ts l] (fun _ _ _ => blame ts (binary a f)).
Proof.
  intros a f ts l Hu Hf. apply (act_both a ts l (fun _ _ => op2 f) (fun _ _ _ => binary a f) Hu Hf).
  - intros ev k x. unfold Interp.body. change (recvr t_stack t_ipt (op2 f : Qfn) =? 0)%nat with true. cbv iota. unfold DoCall, binary. cbn [op2 fn_in length Z.of_nat Z.ltb Z.compare Pos.of_succ_nat Pos.succ].
    unfold PopArgs. destruct (e_stk x) as [|w [|v st]]; [reflexivity..|]. cbn [length]. destruct (Z.leb_spec 2 (Z.of_nat (S (S (length st))))); [|lia].
    change (2 <? 0) with false. cbv iota. change (Z.to_nat 2) with 2%nat. cbn [firstn skipn map rev app].
    assert (E : exists v' w', validateArgs q_to_float [typeAny; typeAny] false [emb v; emb w] = Val (inl [v'; w']) /\ unemb v' = v /\ unemb w' = w).
    { unfold validateArgs. cbn [combine validate]. assert (X : forall u, exists u', validateType q_to_float (emb u) typeAny = Val (inl u') /\ unemb u' = u) by (intro u; destruct u; eexists; split; reflexivity).
      destruct (X v) as (v' & -> & Ev). destruct (X w) as (w' & -> & Ew). exists v', w'. auto. }
    destruct E as (v' & w' & -> & Ev & Ew). unfold apply_fn, op1, op2. cbn [fn_call]. unfold qrun, arg_at. cbn [nth]. rewrite Ev, Ew. unfold bind, of_op. destruct (f v w) as [r|e]; cbn; [destruct r; reflexivity|reflexivity].
  - intros ev k p _ x. unfold binary. destruct (e_stk x) as [|w [|v st]]; [apply se_refl..|]. apply (se_trans _ (set_stk st x)); [split; reflexivity|]. apply tq_bind; [apply tq_of_op|intro; apply tq_push].
Qed.
End Steps.
