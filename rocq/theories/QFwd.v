(** The texts of QText are matched, and do what QText says: by induction on their structure. *)
From Coq Require Import String SpecFloat.
From Verif Require Import Base Token Grammar Matcher PegSpec MatchProofs MatchProofs2 PegTools Compiler Interp QValue Qlang QlangSpec QlangTop QText QTidy QStep QGlue PegRel QParse.
Local Open Scope Z_scope.

Section Fwd.
Context {W : Type}.
Variable L : qlib W.
Notation St := (est nat value (@rest W)).
Notation env := (cenv q_dst).
Notation sem := (@sem W).
Infix ">>" := seq (at level 60, right associativity).
Notation B := (ok env (both L)).
Notation BS := (okS env (both L)).
Notation BR := (okR env (both L)).
Notation M := (ok env (pushes L)).
Notation MS := (okS env (pushes L)).
Notation MR := (okR env (pushes L)).
Notation ME := (ME L).
Notation both := (both L).

Ltac semeq := let ev := fresh "ev" in let k := fresh "k" in let p := fresh "p" in let x := fresh "x" in intros ev k p x; unfold seq, nop, bind, ret;
  repeat match goal with |- context [match ?m with inl _ => _ | inr _ => _ end] => destruct m as [([], ?)|?] end; reflexivity.

(** ** The actions *)
Lemma a_ref : forall t ts l, both [EvAct k_ref (t :: ts) l] (fun _ _ p => blame (t :: ts) (Ref L p (tlit t))).
Proof. intros. apply (b_ipt_str L k_ref t ts l (Ref L)); try reflexivity. apply tq_Ref. Qed.
Lemma a_pushs : forall t ts l, both [EvAct k_pushs (t :: ts) l] (fun _ _ _ => blame (t :: ts) (PushString L (tlit t))).
Proof. intros. apply (b_stk_str L k_pushs t ts l (PushString L)); try reflexivity. apply tq_PushString. Qed.
Lemma a_pushc : forall t ts l, both [EvAct k_pushc (t :: ts) l] (fun _ _ _ => blame (t :: ts) (PushByte L (tlit t))).
Proof. intros. apply (b_stk_str L k_pushc t ts l (PushByte L)); try reflexivity. apply tq_PushByte. Qed.
Lemma a_fn : forall ts l, both [EvAct k_fn ts l] (fun _ _ p => blame ts (raise (Function p))).
Proof. intros. apply (b_ipt_enge L k_fn ts l (fun _ _ => Function)); try reflexivity. intros. apply tq_Function. Qed.
Lemma a_slice : forall ts l, both [EvAct k_slice ts l] (fun _ _ _ => blame ts (raise VSliceLit)).
Proof. intros. apply (b_ipt0e L k_slice ts l (fun _ _ _ => VSliceLit)); try reflexivity. intros. apply tq_VSliceLit. Qed.
Lemma a_map : forall ts l, both [EvAct k_map ts l] (fun _ _ _ => blame ts (raise (VMap L))).
Proof. intros. apply (b_ipt0e L k_map ts l (fun _ _ _ => VMap L)); try reflexivity. intros. apply tq_VMap. Qed.
Lemma a_call : forall ts l, both [EvAct k_call ts l] (fun ev _ _ => blame ts (raise (QVCall L ev))).
Proof. intros. apply (b_ipt0e L k_call ts l (fun ev _ _ => QVCall L ev)); try reflexivity. intros. apply tq_QVCall. assumption. Qed.
Lemma a_mref : forall t ts l, both [EvAct k_mref (t :: ts) l] (fun _ _ _ => blame (t :: ts) (raise (MemberRef L (tlit t)))).
Proof. intros. apply (b_ipt_stre L k_mref t ts l (fun _ => MemberRef L)); try reflexivity. intros. apply tq_MemberRef. Qed.
Lemma a_index : forall ts l, both [EvAct k_index ts l] (fun _ _ _ => blame ts (Index L)).
Proof. intros. apply (b_stk0 L k_index ts l (Index L)); try reflexivity. apply tq_Index. Qed.
Lemma a_assign : forall t ts l, both [EvAct k_assign (t :: ts) l] (fun _ _ p => blame (t :: ts) (raise (Assign p (tlit t)))).
Proof. intros. apply (b_ipt_stre L k_assign t ts l Assign); try reflexivity. intros. apply tq_Assign. Qed.
Lemma a_massign : forall ts l, both [EvAct k_massign ts l] (fun _ _ p => blame ts (raise (MultiAssign p))).
Proof. intros. apply (b_ipt0e L k_massign ts l (fun _ _ => MultiAssign)); try reflexivity. intros. apply tq_MultiAssign. Qed.
Lemma a_return : forall ts l, both [EvAct k_return ts l] (fun ev _ p => blame ts (Return ev p)).
Proof. intros. apply (b_ipt_eng L k_return ts l (fun ev _ => Return ev)); try reflexivity. intros. apply tq_Return. assumption. Qed.
Lemma a_defer : forall ts l, both [EvAct k_defer ts l] (fun _ _ p => blame ts (Defer p)).
Proof. intros. apply (b_ipt0 L k_defer ts l Defer); try reflexivity. intros. apply tq_Defer. Qed.
Lemma a_recover : forall ts l, both [EvAct k_recover ts l] (fun _ _ p => blame ts (Recover p)).
Proof. intros. apply (b_ipt0 L k_recover ts l Recover); try reflexivity. intros. apply tq_Recover. Qed.
Lemma a_clear : forall ts l, both [EvAct k_clear ts l] (fun _ _ p => blame ts (Clear p)).
Proof. intros. apply (b_ipt0 L k_clear ts l Clear); try reflexivity. intros. apply tq_Clear. Qed.
Lemma a_main : forall ts l, both [EvAct k_main ts l] (fun ev _ p => blame ts (Main ev p)).
Proof. intros. apply (b_ipt_eng L k_main ts l (fun ev _ => Main ev)); try reflexivity. intros. apply tq_Main. assumption. Qed.
Lemma a_mfn : forall ts l, both [EvAct k_mfn ts l] (fun _ _ p => blame ts (raise (MemberFuncDecl p))).
Proof. intros. apply (b_ipt0e L k_mfn ts l (fun _ _ => MemberFuncDecl)); try reflexivity. intros. apply tq_MemberFuncDecl. Qed.
Lemma a_class : forall ts l, both [EvAct k_class ts l] (fun _ _ p => blame ts (Class p)).
Proof. intros. apply (b_ipt_eng L k_class ts l (fun _ _ => Class)); try reflexivity. intros. apply tq_Class. Qed.
Lemma a_new : forall ts l, both [EvAct k_new ts l] (fun ev _ p => blame ts (raise (New ev p))).
Proof. intros. apply (b_ipt0e L k_new ts l (fun ev _ => New ev)); try reflexivity. intros. apply tq_New. assumption. Qed.
Lemma a_switch : forall ts l, both [EvAct k_switch ts l] (fun ev _ p => blame ts (Switch L ev p)).
Proof. intros. apply (b_ipt_eng L k_switch ts l (fun ev _ => Switch L ev)); try reflexivity. intros. apply tq_Switch. assumption. Qed.
Lemma a_for : forall ts l, both [EvAct k_for ts l] (fun ev k p => blame ts (For ev k p)).
Proof. intros. apply (b_ipt_eng L k_for ts l (fun ev k => For ev k)); try reflexivity. intros. apply tq_For. assumption. Qed.
Lemma a_and : forall ts l, both [EvAct k_and ts l] (fun ev _ p => blame ts (AndOr ev false n_term3 m_and p)).
Proof. intros. apply (b_ipt_eng L k_and ts l (fun ev _ => And ev)); try reflexivity. intros. apply tq_AndOr. assumption. Qed.
Lemma a_or : forall ts l, both [EvAct k_or ts l] (fun ev _ p => blame ts (AndOr ev true n_term4 m_or p)).
Proof. intros. apply (b_ipt_eng L k_or ts l (fun ev _ => Or ev)); try reflexivity. intros. apply tq_AndOr. assumption. Qed.
Lemma a_not : forall ts l, both [EvAct k_not ts l] (fun _ _ _ => blame ts (unary k_not Not)).
Proof. intros. apply b_op1; reflexivity. Qed.
Lemma a_neg : forall ts l, both [EvAct k_neg ts l] (fun _ _ _ => blame ts (unary k_neg Neg)).
Proof. intros. apply b_op1; reflexivity. Qed.
Lemma a_incdec : forall t t1 f l, In (tkind t1, f) incdec_ops -> exists m, In (tkind t1, m) [(146, k_inc); (147, k_dec)] /\ both [EvAct m [t; t1] l] (fun _ _ p => blame [t; t1] (raise (IncDec f p (tlit t)))).
Proof.
  intros t t1 f l [H|[H|[]]]; injection H as Hk <-; [exists k_inc|exists k_dec]; (split; [rewrite <- Hk; simpl; auto|]).
  - apply (b_ipt_stre L k_inc t [t1] l (IncDec Inc)); try reflexivity. intros. apply tq_IncDec.
  - apply (b_ipt_stre L k_dec t [t1] l (IncDec Dec)); try reflexivity. intros. apply tq_IncDec.
Qed.

(** ** Pieces *)
Lemma b_arityact : forall g ts rest n c, B g ts rest (Z.of_nat n) c -> B (GAct g k_ARITY) ts rest (Z.of_nat n) (c >> count n).
Proof. intros g ts rest n c H. apply b_act; [exact H|apply b_count; reflexivity]. Qed.
Lemma b_opttok : forall k ts n id rest, opt_tok k ts n -> peg env (GTok k) rest OFail [] -> B (GRep01 id (GTok k)) ts rest (Z.of_nat n) nop.
Proof.
  intros k ts n id rest H Hr. destruct H as [|t Ht]; [apply b_optno; exact Hr|]. apply (b_opt L id (GTok k) [t] rest (-1) nop). apply b_tok1. exact Ht.
Qed.
Lemma tok_no : forall k t rest k', tkind t = k' -> rej env 0 (GTok k) (Some k') = true -> peg env (GTok k) (t :: rest) OFail [].
Proof. intros. eapply rej_tok; eassumption. Qed.
Notation gname := (GAct (GTok IDENT) k_name : G).
Lemma names_more : forall ts ns, name_list ts ns -> exists t ts' ns', ts = t :: ts' /\ ns = tlit t :: ns' /\ tkind t = IDENT /\
  forall rest, peg env (GTok 44) rest OFail [] -> BR (GAnd [GTok 44; gname]) (Z.of_nat (length ns')) ts' rest (put_names ns').
Proof.
  intros ts ns H. induction H as [t Ht|t1 t2 ts ns H1 H2 H (t & ts' & ns' & -> & -> & Ht & IH)].
  - exists t, [], []. repeat split; auto. intros rest Hr. apply b_end. apply (P_And env [GTok 44; gname] rest OFail []). apply S_fail; [discriminate|exact Hr].
  - exists t1, (t2 :: t :: ts'), (tlit t :: ns'). repeat split; auto. intros rest Hr.
    cbn [length put_names]. rewrite Nat2Z.inj_succ. apply (b_more L (GAnd [GTok 44; gname]) [t2; t] ts' rest 2 (Z.of_nat (length ns')) (puts (VStr (tlit t)))); [|apply IH; exact Hr].
    apply (b_and L [GTok 44; gname]). apply b_tok; [exact H2|]. apply (b_last L gname [t] _ (-1)); [discriminate|]. apply b_acttok; [exact Ht|apply b_name].
Qed.
Lemma names_ok : forall ts ns id l0 rest, name_list ts ns -> peg env (GTok 44) rest OFail [] -> B (GList id gname (GTok 44) l0) ts rest (Z.of_nat (length ns)) (put_names ns).
Proof.
  intros ts ns id l0 rest H Hr. destruct (names_more ts ns H) as (t & ts' & ns' & -> & -> & Ht & IH). cbn [length put_names]. rewrite Nat2Z.inj_succ.
  apply (b_list L id gname (GTok 44) l0 [t] ts' rest (-1) (Z.of_nat (length ns')) (puts (VStr (tlit t)))); [|apply IH; exact Hr]. apply b_acttok; [exact Ht|apply b_name].
Qed.

(** ** What is proved of each kind of text *)
Definition lvl (g : G) (F : list (option Z)) (ts : list token) (c : sem) : Prop := headok ts /\ forall rest, hin F rest -> B g ts rest (-1) c.
Definition opsl (g : G) (F F' : list (option Z)) (r : list token) (c : sem) : Prop :=
  nasg r /\ (forall rest, hin F rest -> hin F' (r ++ rest)) /\ forall rest, hin F rest -> exists n, BR g n r rest c.
Definition Pbase (ts : list token) (c : sem) : Prop := headok ts /\ (exists k, hdk ts = Some k /\ In k [IDENT; LPAREN; FN; LBRACK]) /\ forall rest, B g_base ts rest 4 c.
Definition Patoms (r : list token) (c : sem) : Prop := nasg r /\ forall rest, hin F1 rest -> exists n, BR gatom n r rest c.
Definition Poexpr (ts : list token) (c : sem) : Prop := ts = [] \/ lvl gexpr FE ts c.
Definition Povalue (ts : list token) (n : nat) (c : sem) : Prop := forall id rest, hin FO rest -> B (GRep01 id gexpr) ts rest (Z.of_nat n) c.
(** the end of a list: a closing bracket, maybe behind a comma, or ... *)
Definition closers : list (option Z) := [Some RPAREN; Some RBRACK; Some RBRACE].
Definition lend (rest : list token) : Prop := hin (closers ++ [Some ELLIPSIS]) rest \/ exists t r, rest = t :: r /\ tkind t = COMMA /\ hin closers r.
Definition Pexprs (ts : list token) (n : nat) (c : sem) : Prop := forall id rest, lend rest -> B (GList id gexpr (GTok 44) true) ts rest (Z.of_nat n) c.
Definition Pmore (ts : list token) (n : nat) (c : sem) : Prop := (forall rest, lend rest -> hin FE (ts ++ rest)) /\ forall rest, lend rest -> BR (GAnd [GTok 44; gexpr]) (Z.of_nat n) ts rest c.
Notation gentry := (GAnd [gexpr; GTok 58; gexpr]).
Definition Pentries (ts : list token) (n : nat) (c : sem) : Prop := forall id rest, lend rest -> B (GList id gentry (GTok 44) true) ts rest (Z.of_nat n) c.
Definition Pmentries (ts : list token) (n : nat) (c : sem) : Prop := (forall rest, lend rest -> hin FE (ts ++ rest)) /\ forall rest, lend rest -> BR (GAnd [GTok 44; gentry]) (Z.of_nat n) ts rest c.
Definition Pbody (ts bs : list token) (c : sem) : Prop := (exists t r t2, ts = t :: r ++ [t2] /\ tkind t = LBRACE /\ tkind t2 = RBRACE) /\ forall rest, M gifbody ts rest (-1) [code bs].
Definition Pelifs (ts : list token) (br : list (list token * list token)) : Prop := forall rest, hin (F1 ++ [Some ELSE]) rest -> MR g_elif (Z.of_nat (length br)) ts rest (flatc br).
Definition Pelse (ts ec : list token) : Prop := (ts = [] \/ exists r t, ts = r ++ [t] /\ tkind t = RBRACE) /\ (forall rest, hin F1 rest -> hin (F1 ++ [Some ELSE]) (ts ++ rest)) /\
  exists l vs, last_vals ec (vs ++ [VInt l]) /\ forall rest, hin F1 rest -> M (GRep01 29 (GAnd [GTok ELSE; gifbody])) ts rest l vs.
Definition Pcases (ts : list token) (br : list (list token * list token)) : Prop :=
  (forall rest, hin [Some DEFAULT; Some RBRACE] rest -> hin FD (ts ++ rest)) /\ forall rest, hin [Some DEFAULT; Some RBRACE] rest -> MR g_case (Z.of_nat (length br)) ts rest (flatc br).
Definition Pdefault (ts ec : list token) : Prop := (forall rest, hin [Some RBRACE] rest -> hin [Some DEFAULT; Some RBRACE] (ts ++ rest)) /\
  exists l vs, last_vals ec (vs ++ [VInt l]) /\ forall rest, hin [Some RBRACE] rest -> M (GRep01 12 g_default) ts rest l vs.
Notation gpiece := (GAct (GAnd [GNot (GTok 123); gs]) k__code : G).
Definition Pheader (ts : list token) (hs : list (list token)) : Prop := forall rest, hin [Some LBRACE] rest -> M (GList 31 gpiece (GTok 59) true) ts rest (Z.of_nat (length hs)) (map code hs).
Definition Pmheader (ts : list token) (hs : list (list token)) : Prop :=
  (forall rest, hin [Some LBRACE] rest -> hin FS (ts ++ rest)) /\ forall rest, hin [Some LBRACE] rest -> MR (GAnd [GTok 59; gpiece]) (Z.of_nat (length hs)) ts rest (map code hs).
Definition Pfnbody (ts : list token) (c : sem) : Prop := forall rest, B gfnbody ts rest (-1) c.
Definition Pclsname (ts : list token) (c : sem) : Prop := forall rest, B gclsname ts rest (-1) c.
Definition Pnewargs (ts : list token) (c : sem) : Prop := forall rest, hin F1 rest -> B gnewargs ts rest (-1) c.
Definition Pmethods (ts : list token) (n : nat) (c : sem) : Prop := (forall rest, hin [Some RBRACE] rest -> hin [Some RBRACE; Some FN] (ts ++ rest)) /\
  forall rest, hin [Some RBRACE] rest -> BR gclassb (Z.of_nat n) ts rest c.
Definition Pstmt (ts : list token) (c : sem) : Prop := ts <> [] /\ (forall rest, hin FX rest -> B gs ts rest (-1) c) /\
  (hd_error (map tkind ts) <> Some RETURN -> forall rest, hin FS rest -> B gs ts rest (-1) c).
Notation gnext := (GOr [GAnd [GAct (GTok 59) k_clear; gs]; GAct (GTok 59) k_pushn] : G).
Definition Prest (ts : list token) (c : sem) : Prop := (forall rest, hin FD rest -> hin FX (ts ++ rest)) /\ forall rest, hin FD rest -> exists n, BR gnext n ts rest c.
Definition Pdoc (ts : list token) (c : sem) : Prop := forall rest, hin FD rest -> B gdoc ts rest (-1) c.
Definition Podoc (ts : list token) (c : sem) : Prop := forall id rest, hin FD rest -> exists l, M (g_code id) ts rest l [code ts].

(** ** Levels of operators *)
Lemma ops_nil : forall g F F', forallb (rej env 1 g) F = true -> forallb (fun x => existsb (oeqb x) F') F = true -> opsl g F F' [] nop.
Proof.
  intros g F F' Hr Hs. split; [exact Logic.I|]. split; [intros rest H; eapply hin_sub; eassumption|]. intros rest H. exists 0. apply b_end. eapply rej_hin; eassumption.
Qed.
Lemma ops_cons : forall g F F' k t r rc ts c l, tkind t = k -> existsb (Z.eqb k) after_name = false -> existsb (oeqb (Some k)) F' = true ->
  (forall rest, hin F' rest -> B g (t :: ts) rest l c) -> opsl g F F' r rc -> opsl g F F' ((t :: ts) ++ r) (c >> rc).
Proof.
  intros g F F' k t r rc ts c l Ht Ha Hk H (R1 & R2 & R3). split; [|split].
  - eapply nasg_tok; eassumption.
  - intros rest _. cbn [app]. eapply hin_tok; eassumption.
  - intros rest Hr. destruct (R3 rest Hr) as (n & R). exists (n + 1). apply (b_more L g (t :: ts) r rest l n c rc); [|exact R]. apply H. apply R2. exact Hr.
Qed.
Lemma lvl_term : forall v g gop id F F' ts c r rc, lvl g F' ts c -> opsl gop F F' r rc -> g <> GNil -> lvl (GNamed v (GAnd [g; GRep0 id gop])) F (ts ++ r) (c >> rc).
Proof.
  intros v g gop id F F' ts c r rc (H1 & H2) (R1 & R2 & R3) Hg. split; [apply headok_app; assumption|]. intros rest Hr. destruct (R3 rest Hr) as (n & R).
  eapply b_named. apply b_and. eapply b_cons; [exact Hg|apply H2; apply R2; exact Hr|]. eapply b_last; [discriminate|]. apply b_rep0. exact R.
Qed.
Lemma op_ok : forall ops g i k m ts rest c f t l, nth_error ops i = Some (k, m) -> g <> GNil -> tkind t = k -> forallb (fun o => rej env 1 (op_alt g o) (Some k)) (firstn i ops) = true ->
  B g ts rest l c -> und m = false -> (forall ev n, fntable L ev n (36 :: m) = Some (op2 f)) ->
  B (GOr (map (op_alt g) ops)) (t :: ts) rest (Z.of_nat (length (map (op_alt g) ops))) (c >> (fun _ _ _ => blame ts (binary m f))).
Proof.
  intros ops g i k m ts rest c f t l Hn Hg Ht Hr H Hu Hf. apply (alt_sel L (map (op_alt g) ops) i (op_alt g (k, m)) (t :: ts) rest k 2).
  - rewrite nth_error_map, Hn. reflexivity.
  - cbn [hdk]. rewrite Ht. reflexivity.
  - rewrite firstn_map. clear -Hr. induction (firstn i ops) as [|o l IH]; [reflexivity|]. cbn [map forallb] in *. apply andb_true_iff in Hr. destruct Hr as (-> & Hr). apply IH. exact Hr.
  - apply b_and. apply b_tok; [exact Ht|]. eapply b_last; [discriminate|]. apply b_act; [exact H|]. apply b_op2; assumption.
Qed.

(** ** Statements that start with a name *)
Definition s_alts : list G := match d_s with GOr l => l | _ => [] end.
Definition s_keys : list Z := [61; 44; 146; 147; 132; 133; 134; 135; 136].
Lemma second_fail : forall k gs t r, tkind t = IDENT -> rej env 0 (GTok k) (hdk r) = true -> peg env (GAnd (GTok IDENT :: GTok k :: gs)) (t :: r) OFail [].
Proof.
  intros k gs t r Ht Hr. apply (P_And env _ _ OFail []). apply (S_ok env _ _ (GTok IDENT) (GTok k :: gs) false (t :: r) 1 (-1) OFail [] []); [discriminate|apply P_Tok; left; exact Ht|].
  apply S_fail; [discriminate|]. apply (rej_sound env 0). exact Hr.
Qed.
Lemma name_alts : forall i t r, (i <= 9)%nat -> tkind t = IDENT -> forallb (fun k => rej env 0 (GTok k) (hdk r)) (firstn i s_keys) = true ->
  Forall (fun g => peg env g (t :: r) OFail []) (firstn i s_alts).
Proof.
  intros i t r Hi Ht Hr.
  assert (A : forall k gs a, rej env 0 (GTok k) (hdk r) = true -> peg env (GAct (GAnd (GTok IDENT :: GTok k :: gs)) a) (t :: r) OFail []).
  { intros k gs a H. apply P_Act_no; [apply second_fail; assumption|cbn; tauto]. }
  assert (X : Forall (fun gk => rej env 0 (GTok (snd gk)) (hdk r) = true -> peg env (fst gk) (t :: r) OFail []) (combine (firstn 9 s_alts) s_keys)).
  { repeat (apply Forall_cons; [|]); [..|apply Forall_nil]; cbn [fst snd]; intro H; try (apply A; exact H).
    apply (P_And env _ _ OFail []). apply S_fail; [discriminate|]. apply A. exact H. }
  do 10 (destruct i as [|i]; [clear Hi; cbn in X, Hr |- *; rewrite ?andb_true_iff in Hr; repeat match goal with H : _ /\ _ |- _ => destruct H end;
    repeat match goal with H : Forall _ (_ :: _) |- _ => let a := fresh in let b := fresh in apply Forall_cons_iff in H; destruct H as (a & b) end; cbn [fst snd] in *; auto 20|]). lia.
Qed.
Lemma s_sel : forall i g ts rest l c, nth_error s_alts i = Some g -> Forall (fun g => peg env g (ts ++ rest) OFail []) (firstn i s_alts) -> B g ts rest l c -> B QlangTop.gs ts rest (-1) c.
Proof.
  intros i g ts rest l c Hn HF H. apply (b_named L r_s d_s ts rest (Z.of_nat (length s_alts))). change d_s with (GOr s_alts). destruct (nth_error_split _ _ Hn) as (g1 & g2 & E & El). rewrite E in *. subst i.
  rewrite firstn_app, Nat.sub_diag, firstn_all in HF. cbn in HF. rewrite app_nil_r in HF. eapply b_or; eassumption.
Qed.
Lemma s_name : forall i g t r rest l c, nth_error s_alts i = Some g -> (i <= 9)%nat -> tkind t = IDENT -> forallb (fun k => rej env 0 (GTok k) (hdk (r ++ rest))) (firstn i s_keys) = true ->
  B g (t :: r) rest l c -> B QlangTop.gs (t :: r) rest (-1) c.
Proof. intros i g t r rest l c Hn Hi Ht Hr H. eapply s_sel; [exact Hn| |exact H]. apply (name_alts i t (r ++ rest)); assumption. Qed.
Lemma s_kind : forall i g t r rest l c k, nth_error s_alts i = Some g -> tkind t = k -> forallb (fun g => rej env 1 g (Some k)) (firstn i s_alts) = true -> B g (t :: r) rest l c -> B QlangTop.gs (t :: r) rest (-1) c.
Proof.
  intros i g t r rest l c k Hn Ht Hr H. eapply s_sel; [exact Hn| |exact H]. apply Forall_forall. intros x Hx. rewrite forallb_forall in Hr. apply (rej_sound env 1). cbn [app hdk]. rewrite Ht. apply Hr. exact Hx.
Qed.
Lemma s_expr : forall ts c rest l, headok ts -> (hin FS rest) -> B gexpr ts rest l c -> B QlangTop.gs ts rest (-1) c.
Proof.
  intros ts c rest l Hh Hr H. eapply (s_sel 11); [reflexivity| |exact H]. destruct ts as [|t r]; [destruct Hh|]. destruct Hh as (H1 & H2).
  assert (D : tkind t = IDENT \/ forallb (fun g => rej env 1 g (Some (tkind t))) (firstn 11 s_alts) = true).
  { assert (F : forallb (fun k => (k =? IDENT) || forallb (fun g => rej env 1 g (Some k)) (firstn 11 s_alts)) first_kinds = true) by reflexivity.
    rewrite forallb_forall in F. specialize (F _ H1). apply orb_true_iff in F. destruct F as [F|F]; [left; apply Z.eqb_eq; exact F|right; exact F]. }
  destruct D as [D|D].
  - assert (A9 : Forall (fun g => peg env g (t :: r ++ rest) OFail []) (firstn 9 s_alts)).
    { apply name_alts; [lia|exact D|]. specialize (H2 D). assert (E : firstn 9 s_keys = s_keys) by reflexivity. rewrite E.
      assert (N : forall k, hdk (r ++ rest) = Some k -> ~ In k after_name).
      { intros k Hk. destruct r as [|t2 r]; [|cbn in Hk; injection Hk as <-; exact H2]. cbn [app] in Hk. unfold hin in Hr. rewrite Hk in Hr. intro Hi.
        assert (F : forallb (fun k => negb (existsb (oeqb (Some k)) FS)) after_name = true) by reflexivity. rewrite forallb_forall in F. specialize (F _ Hi). rewrite Hr in F. discriminate F. }
      destruct (hdk (r ++ rest)) as [k|]; [|reflexivity]. specialize (N k eq_refl). apply forallb_forall. intros x Hx. cbn [rej]. apply negb_true_iff. apply orb_false_iff. split.
      - apply Z.eqb_neq. intros ->. apply N. clear -Hx. cbn in Hx |- *. tauto.
      - apply andb_false_iff. right. clear -Hx. repeat (destruct Hx as [<-|Hx]; [reflexivity|]). destruct Hx. }
    assert (E : firstn 11 s_alts = firstn 9 s_alts ++ [g_return; g_defer]) by reflexivity. rewrite E. apply Forall_app. split; [exact A9|].
    repeat (apply Forall_cons; [apply (rej_tok 1 _ _ _ _ D); reflexivity|]). apply Forall_nil.
  - apply Forall_forall. intros x Hx. rewrite forallb_forall in D. apply (rej_sound env 1). cbn [app hdk]. apply D. exact Hx.
Qed.
(** the end of a list *)
Lemma lend_stop : forall g rest, forallb (rej env 1 g) closers = true -> g <> GNil -> lend rest -> peg env (GAnd [GTok 44; g]) rest OFail [].
Proof.
  intros g rest Hg Hn [H|(t & r & -> & Ht & H)].
  - apply (rej_hin 1 _ (closers ++ [Some ELLIPSIS])); [reflexivity|exact H].
  - apply (P_And env _ _ OFail []). apply (S_ok env _ _ (GTok 44) [g] false (t :: r) 1 (-1) OFail [] []); [discriminate|apply P_Tok; left; exact Ht|].
    apply S_fail; [exact Hn|]. eapply (rej_hin 1); [exact Hg|exact H].
Qed.
Lemma lend_expr : forall rest, lend rest -> hin FE rest.
Proof. intros rest [H|(t & r & -> & Ht & H)]; [|eapply hin_tok; [exact Ht|reflexivity]]. eapply hin_sub; [|exact H]. reflexivity. Qed.
Lemma lend_no : forall g rest, forallb (rej env 1 g) (closers ++ [Some ELLIPSIS; Some COMMA]) = true -> lend rest -> peg env g rest OFail [].
Proof.
  intros g rest Hg H. eapply (rej_hin 1); [exact Hg|]. destruct H as [H|(t & r & -> & Ht & H)]; [|eapply hin_tok; [exact Ht|reflexivity]]. eapply hin_sub; [|exact H]. reflexivity.
Qed.
Lemma lend_comma : forall cm m r, opt_tok COMMA cm m -> hin closers r -> lend (cm ++ r).
Proof. intros cm m r [|t Ht] H; [left; eapply hin_sub; [|exact H]; reflexivity|]. right. exists t, r. auto. Qed.
Lemma lend_dots : forall ds d r, opt_tok ELLIPSIS ds d -> lend r -> lend (ds ++ r).
Proof. intros ds d r [|t Ht] H; [exact H|]. left. eapply hin_tok; [exact Ht|reflexivity]. Qed.
End Fwd.
