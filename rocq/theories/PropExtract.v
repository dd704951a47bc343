(** Properties C47-C51, C71 and C95: the extractor. *)
From Coq Require Import String.
From Verif Require Import Base Token Utf8 Utf8Proofs Grammar PegSpec MatchProofs MatchProofs2 MatchProofs3 Wf MatchProofs4 MatchObs.
From Verif Require Import Scanner ScannerSpec ScannerProofs ScanRun ScanInit ScanObs Tokenize TokenizeProofs PropScan Matcher MatcherProofs PropMatcher.
From Verif Require Import MatchInv PegTools Compiler CompilerBack Interp PropInterp Extractor ExtractSpec ExtractProofs.

Section Parsing.
Context {X PV M : Type}.
Variable getValue : bytes -> bytes -> X + PV.
Variables isL isD : Z -> bool.
Variables mC mS : bool.
Variable root : gr leafmark nodemark.
Variable d : dst leafmark nodemark M.
Notation Parse := (Parse getValue isL isD mC mS root d).
Notation client := (lift (xclient getValue)).
Notation tokens old code ts eof := (Tokenize isL isD mC mS (d_tk d) old code = TzOk ts eof).

(** The states of an engine: new, or left by a Parse (whatever its outcome), with any options. *)
Definition after (r : @pout X PV) : option (st (xst X)) := match r with PDoc _ s | PError _ s | PPanic _ s => Some s | _ => None end.
Inductive engine_state : st (xst X) -> Prop :=
| ES_new : forall l, engine_state (mkSt l new_xst)
| ES_parse : forall f old code s s', engine_state s -> after (Parse f old code s) = Some s' -> engine_state s'.

(** Result of the matching part *)
Lemma mx_cases : forall f old code s, exists r, MatchExactly (cenv d) client isL isD mC mS xinit f root (d_tk d) old code s = r /\
  (r = MNoGrammar s \/ (exists e, r = MTokErr e s) \/ r = MFuel \/
   exists ts eof, tokens old code ts eof /\
     match gmatch (cenv d) client f root ts (xinit s) with
     | Ret n None s' => r = (match skipn n ts with [] => MNil s' | next => MFail (MErr GEOF next None 0) s' end)
     | Ret _ (Some e) s' => r = MFail e s'
     | Panic p s' => r = MPanic p s'
     | OutOfFuel => r = MFuel
     end).
Proof.
  intros f old code s. eexists. split; [reflexivity|]. assert (D : root = GNil \/ root <> GNil) by (destruct root; auto; right; discriminate).
  destruct D as [-> |G]; [left; reflexivity|]. unfold MatchExactly. rewrite match_unfold by exact G.
  destruct (Tokenize isL isD mC mS (d_tk d) old code) as [ts eof|ts e|] eqn:E; [|right; left; eauto|right; right; left; reflexivity].
  right. right. right. exists ts, eof. split; [reflexivity|]. destruct (gmatch (cenv d) client f root ts (xinit s)) as [n [e|] s1|p s1|]; try reflexivity. destruct (skipn n ts); reflexivity.
Qed.
Definition nonempty (s : st (xst X)) : Prop := x_heap (ust s) <> [].
Lemma set_nonempty : forall (h : heap X) id l, h <> [] -> set_hd h id l <> [].
Proof. intros [|x h] [|id] l H; cbn; congruence. Qed.
Lemma match_nonempty : forall f g src s, nonempty s -> match gmatch (cenv d) client f g src s with Ret _ _ s' | Panic _ s' => nonempty s' | OutOfFuel => True end.
Proof.
  intros f g src s H. assert (Q : rinv nonempty (fun _ => nonempty) (gmatch (cenv d) client f g src s)).
  { apply gm_inv; auto.
    - intros a ts l s0 H0. cbn [c_act lift u_act xclient]. unfold xact. destruct ts as [|t ts]; [exact H0|]. destruct (getValue (lf_typ a) (tlit t)); [|exact H0].
      apply set_nonempty. exact H0.
    - intros t s0 H0. cbn. unfold nonempty. cbn. intro Q. apply app_eq_nil in Q. destruct Q as (_ & Q). discriminate.
    - intros t v ok s0 H0. cbn. unfold nonempty. cbn. destruct ok; [exact H0|apply set_nonempty; exact H0]. }
  destruct (gmatch (cenv d) client f g src s); exact Q.
Qed.
Lemma init_nonempty : forall s, nonempty s -> nonempty (xinit s).
Proof. intros s H. apply set_nonempty. exact H. Qed.
Lemma engine_nonempty : forall s, engine_state s -> nonempty s.
Proof.
  intros s H. induction H as [l|f old code s s' H IH E]; [discriminate|]. unfold Extractor.Parse in E. destruct (mx_cases f old code s) as (r & Er & C). rewrite Er in E.
  destruct C as [-> |[(e & ->)|[-> |(ts & eof & _ & C)]]]; cbn [after] in E; try (injection E as <-; exact IH); [discriminate|].
  pose proof (match_nonempty f root ts (xinit s) (init_nonempty s IH)) as Q.
  destruct (gmatch (cenv d) client f root ts (xinit s)) as [n [e|] s1|p s1|]; rewrite C in E; cbn [after] in E; try (injection E as <-; exact Q); [|discriminate].
  destruct (skipn n ts); [|injection E as <-; exact Q]. destruct (Result s1); cbn [after] in E; [injection E as <-; exact Q|discriminate].
Qed.
(** the state at the start of a match *)
Lemma init_state : forall s, nonempty s -> x_stk (ust (xinit s)) = 0%nat /\ hd_of (x_heap (ust (xinit s))) 0 = [] /\ (0 < length (x_heap (ust (xinit s))))%nat.
Proof.
  intros s H. cbn. rewrite set_len. assert (L : (0 < length (x_heap (ust s)))%nat) by (unfold nonempty in H; destruct (x_heap (ust s)); [congruence|cbn; lia]).
  split; [reflexivity|]. split; [apply hd_set; exact L|exact L].
Qed.
Lemma result_of : forall s tr its s', nonempty s -> inserted getValue tr its -> run_ok (xclient getValue) tr (xinit s) s' -> Result s' = Some (doc_of its).
Proof.
  intros s tr its s' H Hi Hr. destruct (init_state s H) as (I1 & I2 & I3).
  destruct (run_inserted getValue tr its Hi [] (ust (xinit s))) as (x' & E & (G1 & G2 & G3) & new & N1 & N2); [rewrite I1; exact I3|].
  specialize (Hr []). rewrite E in Hr. injection Hr as ->. unfold Result. apply (toMap_doc _ 0 (length (x_heap (ust s')))); [|lia].
  rewrite I1, I2, app_nil_r in N1. rewrite N1. apply (rep_frame _ _ _ _ _ N2); [lia|lia|auto].
Qed.

(** ** C47 *)
(** Parse returns the document [m] exactly when the text is one of tokens, all of which the grammar matches by a derivation whose values and
    sub-documents, in order, are [its], and [m] is the document of [its]. *)
Theorem C47_document : forall old code s m, engine_state s ->
  (exists f s', Parse f old code s = PDoc m s') <->
  root <> GNil /\ exists ts eof l tr its, tokens old code ts eof /\ peg (cenv d) root ts (OOk (length ts) l) tr /\ inserted getValue tr its /\ m = doc_of its.
Proof.
  intros old code s m Hs. apply engine_nonempty in Hs. split.
  - intros (f & s' & H). unfold Extractor.Parse in H. destruct (MatchExactly (cenv d) client isL isD mC mS xinit f root (d_tk d) old code s) as [| s1 | | | | |] eqn:E; try discriminate.
    destruct (proj1 (C28_exactly_iff (cenv d) client isL isD mC mS xinit root (d_tk d) old code s s1) (ex_intro _ f E)) as (G & ts & eof & Et & (f' & Hf)).
    split; [exact G|]. destruct (ret_sound (cenv d) (xclient getValue) f' root ts (xinit s) (length ts) None s1 Hf) as (tr & Hp & Hr).
    destruct (run_bal getValue tr) with (vs := @nil (@transCtx X)) (x := ust (xinit s)) (r := (@nil (@transCtx X), ust s1)) as (its & Hi).
    + apply (proj1 (peg_balanced (cenv d)) _ _ _ _ Hp). exact I.
    + apply (Hr []).
    + exists ts, eof, (glen s1 root), tr, its. split; [exact Et|]. split; [exact Hp|]. split; [exact Hi|].
      rewrite (result_of s tr its s1 Hs Hi Hr) in H. congruence.
  - intros (G & ts & eof & l & tr & its & Et & Hp & Hi & ->).
    destruct (proj1 (sim_all (cenv d) (xclient getValue)) _ _ _ _ Hp) as (F & HF). specialize (HF F (Nat.le_refl _) (xinit s)).
    destruct HF as [(p & s' & _ & Hr)|(s' & E & _ & Hr)].
    { exfalso. destruct (init_state s Hs) as (I1 & I2 & I3). destruct (run_inserted getValue tr its Hi [] (ust (xinit s))) as (x' & E & _); [rewrite I1; exact I3|].
      specialize (Hr []). rewrite E in Hr. discriminate. }
    destruct (proj2 (C28_exactly_iff (cenv d) client isL isD mC mS xinit root (d_tk d) old code s s')) as (f & Hf).
    { split; [exact G|]. exists ts, eof. split; [exact Et|]. exists F. exact E. }
    exists f, s'. unfold Extractor.Parse. rewrite Hf, (result_of s tr its s' Hs Hi Hr). reflexivity.
Qed.
(** building the result never breaks *)
Theorem C47_never_broken : forall f old code s, engine_state s -> Parse f old code s <> PBroken.
Proof.
  intros f old code s Hs H. apply engine_nonempty in Hs. unfold Extractor.Parse in H.
  destruct (MatchExactly (cenv d) client isL isD mC mS xinit f root (d_tk d) old code s) as [| s1 | | | | |] eqn:E; try discriminate.
  destruct (proj1 (C28_exactly_iff (cenv d) client isL isD mC mS xinit root (d_tk d) old code s s1) (ex_intro _ f E)) as (G & ts & eof & Et & (f' & Hf)).
  destruct (ret_sound (cenv d) (xclient getValue) f' root ts (xinit s) (length ts) None s1 Hf) as (tr & Hp & Hr).
  destruct (run_bal getValue tr) with (vs := @nil (@transCtx X)) (x := ust (xinit s)) (r := (@nil (@transCtx X), ust s1)) as (its & Hi).
  - apply (proj1 (peg_balanced (cenv d)) _ _ _ _ Hp). exact I.
  - apply (Hr []).
  - rewrite (result_of s tr its s1 Hs Hi Hr) in H. discriminate.
Qed.

(** ** C49: a node whose rule fails leaves every node there was as it was, and the current node too. *)
Theorem C49_failed_node : forall f g m src (s s' : st (xst X)) n e, (x_stk (ust s) < length (x_heap (ust s)))%nat ->
  gmatch (cenv d) client f (GTrans g m) src s = Ret n (Some e) s' ->
  x_stk (ust s') = x_stk (ust s) /\ exists garbage, x_heap (ust s') = x_heap (ust s) ++ garbage.
Proof.
  intros f g m src s s' n e Hx H. destruct (ret_sound (cenv d) (xclient getValue) _ _ _ _ _ _ _ H) as (tr & Hp & Hr).
  assert (Hb : balanced tr) by (apply (proj1 (peg_balanced (cenv d)) _ _ _ _ Hp); exact I).
  destruct (run_bal getValue tr Hb [] (ust s) ([], ust s') (Hr [])) as (its & Hi).
  inversion Hp; subst. match goal with H : peg _ g src OFail ?t |- _ => rename H into H1; rename t into tr0 end. cbn [end_of] in *.
  assert (Hi0 : exists sub, inserted getValue tr0 sub).
  { specialize (Hr []). cbn [run u_begin xclient] in Hr. destruct (xbegin m (ust s)) as (v, x1). rewrite run_app in Hr. destruct (run (xclient getValue) tr0 [v] x1) eqn:E1; [|discriminate].
    eapply (run_bal getValue tr0); [|exact E1]. apply (proj1 (peg_balanced (cenv d)) _ _ _ _ H1). exact I. }
  destruct Hi0 as (sub & Hsub).
  assert (Hi' : inserted getValue (EvBegin m :: tr0 ++ EvEnd m false :: []) []) by (eapply In_failed; [exact Hsub|constructor]).
  destruct (run_inserted getValue _ _ Hi' [] (ust s) Hx) as (x' & E & (G1 & G2 & G3) & new & N1 & N2).
  specialize (Hr []). rewrite E in Hr. injection Hr as ->. split; [exact G1|].
  inversion N2; subst. cbn [app] in N1. exists (skipn (length (x_heap (ust s))) (x_heap (ust s'))).
  rewrite <- (firstn_skipn (length (x_heap (ust s))) (x_heap (ust s'))) at 1. f_equal.
  apply (nth_ext _ _ [] []); [rewrite firstn_length; lia|]. intros i Hi0. rewrite firstn_length in Hi0. 
  transitivity (hd_of (x_heap (ust s')) i).
  - unfold hd_of. rewrite <- (firstn_skipn (length (x_heap (ust s))) (x_heap (ust s'))) at 2. rewrite app_nth1; [reflexivity|]. rewrite firstn_length. lia.
  - destruct (Nat.eq_dec i (x_stk (ust s))) as [-> |Hne]; [exact N1|]. apply G3; [lia|exact Hne].
Qed.

(** ** C51 *)
(** outcomes, but for the engine's internal state *)
Definition same_out (r1 r2 : @pout X PV) : Prop :=
  match r1, r2 with
  | PDoc m1 _, PDoc m2 _ => m1 = m2
  | PError (PErr (MNoGrammar _)) _, PError (PErr (MNoGrammar _)) _ => True
  | PError (PErr (MTokErr e1 _)) _, PError (PErr (MTokErr e2 _)) _ => e1 = e2
  | PError (PErr (MFail e1 _)) _, PError (PErr (MFail e2 _)) _ => e1 = e2
  | PError (PRecovered p1) _, PError (PRecovered p2) _ => p1 = p2
  | PPanic p1 _, PPanic p2 _ => p1 = p2
  | PFuel, PFuel => True
  | _, _ => False
  end.
Theorem C51_history : forall f old1 old2 code s1 s2, engine_state s1 -> engine_state s2 -> same_out (Parse f old1 code s1) (Parse f old2 code s2).
Proof.
  intros f old1 old2 code s1 s2 H1 H2. pose proof (C47_never_broken f old1 code s1 H1) as B1. pose proof (C47_never_broken f old2 code s2 H2) as B2.
  apply engine_nonempty in H1, H2. unfold Extractor.Parse in *.
  assert (D : root = GNil \/ root <> GNil) by (destruct root; auto; right; discriminate). destruct D as [-> |G]; [cbn; exact I|].
  unfold MatchExactly in *. rewrite !match_unfold by exact G. rewrite match_unfold in B1, B2 by exact G. change (Tokenize isL isD mC mS (d_tk d) old2 code) with (Tokenize isL isD mC mS (d_tk d) old1 code) in *.
  destruct (Tokenize isL isD mC mS (d_tk d) old1 code) as [ts eof|ts e|]; [|exact (eq_refl e)|exact I].
  assert (A : alike (gmatch (cenv d) client f root ts (xinit s1)) (gmatch (cenv d) client f root ts (xinit s2))).
  { apply gm_alike. intros a us l1 l2 x1 x2. cbn [c_act lift u_act xclient]. unfold xact. destruct us as [|t us]; [reflexivity|]. destruct (getValue (lf_typ a) (tlit t)); [exact I|reflexivity]. }
  destruct (gmatch (cenv d) client f root ts (xinit s1)) as [n1 [e1|] x1|p1 x1|] eqn:F1, (gmatch (cenv d) client f root ts (xinit s2)) as [n2 [e2|] x2|p2 x2|] eqn:F2;
    cbn in A; try contradiction; try (destruct A as (-> & A); try discriminate A); try (injection A as ->; exact eq_refl); try (subst; exact eq_refl); try exact I.
  destruct (skipn n2 ts); [|exact eq_refl].
  destruct (ret_sound (cenv d) (xclient getValue) _ _ _ _ _ _ _ F1) as (tr & Hp & Hr). destruct (ret_sound (cenv d) (xclient getValue) _ _ _ _ _ _ _ F2) as (tr' & Hp' & Hr').
  destruct (peg_det (cenv d) _ _ _ _ _ _ Hp Hp') as (_ & <-).
  destruct (run_bal getValue tr) with (vs := @nil (@transCtx X)) (x := ust (xinit s1)) (r := (@nil (@transCtx X), ust x1)) as (its & Hi); [apply (proj1 (peg_balanced (cenv d)) _ _ _ _ Hp); exact I|apply (Hr [])|].
  rewrite (result_of s1 tr its x1 H1 Hi Hr), (result_of s2 tr its x2 H2 Hi Hr'). exact eq_refl.
Qed.
Theorem C51_safe_history : forall recoverable f old1 old2 code s1 s2, engine_state s1 -> engine_state s2 ->
  same_out (SafeParse getValue isL isD mC mS recoverable root d f old1 code s1) (SafeParse getValue isL isD mC mS recoverable root d f old2 code s2).
Proof.
  intros rc f old1 old2 code s1 s2 H1 H2. pose proof (C51_history f old1 old2 code s1 s2 H1 H2) as H. unfold SafeParse.
  destruct (Parse f old1 code s1) as [m1 x1|[o1|q1] x1|p1 x1| |], (Parse f old2 code s2) as [m2 x2|[o2|q2] x2|p2 x2| |]; cbn in H |- *; try contradiction; auto; try (destruct o1; contradiction).
  subst p2. destruct p1 as [| |[|v]]; try reflexivity. destruct (rc v); reflexivity.
Qed.
(** ** C95 *)
(** A panic value that is neither a string nor an error: one of the host's GetValue. *)
Definition foreign (recoverable : PV -> bool) (p : pan leafmark nodemark xpan) : Prop := exists v, p = PUser (XValue v) /\ recoverable v = false.
Notation SafeParse rc := (SafeParse getValue isL isD mC mS rc root d).
(** Documents and errors of Parse are those of SafeParse; a panic of Parse is its error, unless it is foreign: then it is passed on.
    The engine is left as by Parse. *)
Theorem C95_outcome : forall rc f old code s,
  (forall m s', SafeParse rc f old code s = PDoc m s' <-> Parse f old code s = PDoc m s') /\
  (forall o s', SafeParse rc f old code s = PError (PErr o) s' <-> Parse f old code s = PError (PErr o) s') /\
  (forall p s', SafeParse rc f old code s = PError (PRecovered p) s' <-> Parse f old code s = PPanic p s' /\ ~ foreign rc p) /\
  (forall p s', SafeParse rc f old code s = PPanic p s' <-> Parse f old code s = PPanic p s' /\ foreign rc p).
Proof.
  intros rc f old code s. assert (N : forall p s', Parse f old code s <> PError (PRecovered p) s').
  { intros p s'. unfold Extractor.Parse. destruct (MatchExactly (cenv d) client isL isD mC mS xinit f root (d_tk d) old code s); try discriminate. destruct (Result s0); discriminate. }
  unfold Extractor.SafeParse. destruct (Parse f old code s) as [m1 x1|[o1|q1] x1|p1 x1| |]; try (exfalso; exact (N _ _ eq_refl)).
  1,2,4,5: split; [|split; [|split]]; intros ? ?; split; intros Q; first [discriminate Q | exact Q | destruct Q as (Q & _); discriminate Q].
  assert (D : foreign rc p1 \/ ~ foreign rc p1 /\ (forall v, p1 = PUser (XValue v) -> rc v = true)).
  { destruct p1 as [e| |[|v]]; try (right; split; [intros (w & Q & _); discriminate Q|intros w Q; discriminate Q]).
    destruct (rc v) eqn:E; [right|left; exists v; auto]. split; [intros (w & Q & R); injection Q as <-; congruence|intros w Q; injection Q as <-; exact E]. }
  destruct D as [F | (F & R)].
  - destruct F as (v & -> & E). rewrite E. split; [|split; [|split]]; intros ? ?; split; intros Q; try discriminate Q.
    + destruct Q as (Q & K). injection Q as <- <-. exfalso. apply K. exists v. auto.
    + injection Q as <- <-. split; [reflexivity|]. exists v. auto.
    + exact (proj1 Q).
  - assert (Q : match p1 with PUser (XValue v) => if rc v then PError (PRecovered p1) x1 else PPanic p1 x1 | _ => PError (PRecovered p1) x1 end = PError (PRecovered p1) x1).
    { destruct p1 as [e| |[|v]]; try reflexivity. rewrite (R v eq_refl). reflexivity. }
    rewrite Q. clear Q. split; [|split; [|split]]; intros ? ?; split; intros Q; try discriminate Q.
    + injection Q as <- <-. split; [reflexivity|exact F].
    + destruct Q as (Q & _). injection Q as <- <-. reflexivity.
    + destruct Q as (Q & K). injection Q as <- <-. contradiction.
Qed.
(** A panic of GetValue that Parse or SafeParse lets through is one that GetValue made for a mark's type and a literal. *)
Theorem C95_origin : forall f old code s v s', Parse f old code s = PPanic (PUser (XValue v)) s' -> exists typ lit, getValue typ lit = inr v.
Proof.
  intros f old code s v s' H. unfold Extractor.Parse in H.
  assert (D : root = GNil \/ root <> GNil) by (destruct root; auto; right; discriminate). destruct D as [E|G]; [rewrite E in H; discriminate H|].
  unfold MatchExactly in H. rewrite match_unfold in H by exact G. destruct (Tokenize isL isD mC mS (d_tk d) old code) as [ts eof|ts e|]; try discriminate H.
  assert (K : rinv (fun _ => True) (fun p _ => forall w, p = PUser (XValue w) -> exists typ lit, getValue typ lit = inr w) (gmatch (cenv d) client f root ts (xinit s))).
  { apply gm_inv; try exact I; try (intros; exact I); try (intros; discriminate).
    intros a us l x _. cbn [c_act lift u_act xclient]. unfold xact. destruct us as [|t us]; [intros w Q; discriminate Q|].
    destruct (getValue (lf_typ a) (tlit t)) as [y|q] eqn:E; [exact I|]. intros w Q. injection Q as <-. eauto. }
  destruct (gmatch (cenv d) client f root ts (xinit s)) as [n [e|] x|p x|]; try discriminate H.
  - destruct (skipn n ts); [destruct (Result x); discriminate H|discriminate H].
  - injection H as -> _. exact (K v eq_refl).
Qed.
(** So SafeParse does not panic if GetValue panics only with strings and errors. *)
Theorem C95_never_panics : forall rc, (forall typ lit v, getValue typ lit = inr v -> rc v = true) -> forall f old code s p s', SafeParse rc f old code s <> PPanic p s'.
Proof.
  intros rc Hrc f old code s p s' H. apply (proj2 (proj2 (proj2 (C95_outcome rc f old code s)))) in H. destruct H as (H & v & -> & E).
  destruct (C95_origin _ _ _ _ _ _ H) as (typ & lit & Q). rewrite (Hrc _ _ _ Q) in E. discriminate E.
Qed.
End Parsing.

(** ** C48 *)
Section Arrays.
Context {X : Type}.
Definition tag_of (i : item X) : bytes := match i with Leaf t _ _ => t | Sub t _ _ => t end.
(** the values inserted under the array mark [t], in order *)
Fixpoint vals (t : bytes) (its : list (item X)) : list X :=
  match its with
  | Leaf t' v true :: its' => if beq t' t then v :: vals t its' else vals t its'
  | _ :: its' => vals t its'
  | [] => []
  end.
Definition array_leaf (i : item X) : Prop := match i with Leaf _ _ true => True | _ => False end.
Lemma vals_app : forall t a b, vals t (a ++ b) = vals t a ++ vals t b.
Proof. intros t a b. induction a as [|[t' v [|]|t' ar sub] a IH]; cbn; auto. destruct (beq t' t); cbn; rewrite IH; reflexivity. Qed.
Lemma vals_none : forall t b, Forall (fun i => tag_of i = t -> array_leaf i) b -> (vals t b = [] <-> Forall (fun i => tag_of i <> t) b).
Proof.
  intros t b H. induction H as [|[t' v [|]|t' ar sub] b Hi H IH]; cbn in *.
  - split; [constructor|reflexivity].
  - destruct (beq t' t) eqn:E.
    + apply beq_eq in E. split; [discriminate|]. intro Q. inversion Q; subst. cbn in *. congruence.
    + rewrite IH. split; [intro Q; constructor; [apply beq_neq; exact E|exact Q]|intro Q; inversion Q; assumption].
  - rewrite IH. split; [intro Q; constructor; [exact Hi|exact Q]|intro Q; inversion Q; assumption].
  - rewrite IH. split; [intro Q; constructor; [exact Hi|exact Q]|intro Q; inversion Q; assumption].
Qed.
Lemma from_split : forall t its, exists a b, its = a ++ b /\ Forall (fun i => tag_of i <> t) a /\ from t (map entry_of its) = map entry_of b /\
  match b with i :: _ => tag_of i = t | [] => True end.
Proof.
  intros t its. induction its as [|i its IH]; [exists [], []; repeat split; constructor|]. destruct (beq (tag_of i) t) eqn:E.
  - exists [], (i :: its). split; [reflexivity|]. split; [constructor|]. split; [|apply beq_eq; exact E]. cbn. destruct i; cbn in *; rewrite E; reflexivity.
  - destruct IH as (a & b & -> & Ha & Hf & Hb). exists (i :: a), b. split; [reflexivity|]. split; [constructor; [apply beq_neq; exact E|exact Ha]|]. split; [|exact Hb]. cbn. destruct i; cbn in *; rewrite E; exact Hf.
Qed.
Lemma run_split : forall t its, Forall (fun i => tag_of i = t -> array_leaf i) its -> exists g b, its = g ++ b /\ Forall (fun i => tag_of i = t) g /\
  leaf_run t (map entry_of its) = vals t g /\ match b with i :: _ => tag_of i <> t | [] => True end.
Proof.
  intros t its H. induction H as [|i its Hi H IH]; [exists [], []; repeat split; constructor|]. destruct (beq (tag_of i) t) eqn:E.
  - apply beq_eq in E. destruct IH as (g & b & -> & Hg & Hr & Hb). exists (i :: g), b. split; [reflexivity|]. split; [constructor; [exact E|exact Hg]|]. split; [|exact Hb].
    specialize (Hi E). destruct i as [t' v [|]|t' ar sub]; try contradiction. cbn in *. subst t'. rewrite beq_refl. f_equal. exact Hr.
  - exists [], (i :: its). split; [reflexivity|]. split; [constructor|]. split; [|apply beq_neq; exact E]. destruct i as [t' v [|]|t' [|] sub]; cbn in *; rewrite ?E; reflexivity.
Qed.
(** What the document has for an array mark: every value inserted under it, exactly when no other insertion came between them. *)
Theorem C48_every_element_iff : forall t its m, Forall (fun i => tag_of i = t -> array_leaf i) its -> (exists i, In i its /\ tag_of i = t) -> doc_of its = Some m ->
  (find t m = Some (JVals (vals t its)) <->
   exists a g b, its = a ++ g ++ b /\ Forall (fun i => tag_of i <> t) a /\ Forall (fun i => tag_of i = t) g /\ Forall (fun i => tag_of i <> t) b).
Proof.
  intros t its m Ha He Hm. assert (Em : m = bindings (map entry_of its)).
  { unfold doc_of, document in Hm. destruct its; [discriminate|]. cbn [map] in *. congruence. }
  subst m. rewrite find_bindings. clear Hm. unfold value.
  destruct (from_split t its) as (a & r & -> & Na & Hf & Hh). rewrite Hf. apply Forall_app in Ha. destruct Ha as (Ha & Hr).
  destruct (run_split t r Hr) as (g & b & Er & Hg & Hl & Hb).
  assert (Nr : r <> []).
  { intros ->. destruct He as (i & Hi & Ei). rewrite app_nil_r in Hi. rewrite Forall_forall in Na. exact (Na i Hi Ei). }
  assert (Va : vals t a = []) by (apply vals_none; assumption).
  assert (Q : match map entry_of r with
    | [] => None
    | {| en_arr := true; en_val := inl _ |} :: _ => Some (JVals (leaf_run t (map entry_of r)))
    | {| en_arr := true; en_val := inr _ |} :: _ => Some (JMaps (node_run t (map entry_of r)))
    | {| en_arr := false; en_val := inl x |} :: _ => Some (JVal x)
    | {| en_arr := false; en_val := inr m |} :: _ => Some (JMap m) end = Some (JVals (leaf_run t (map entry_of r)))).
  { destruct r as [|i r]; [congruence|]. pose proof (Forall_inv Hr) as Hi. specialize (Hi Hh). destruct i as [t' v [|]|t' ar sub]; try contradiction. reflexivity. }
  rewrite Q, Hl, vals_app, Va. cbn [app]. subst r. rewrite vals_app. clear Q. apply Forall_app in Hr. destruct Hr as (_ & Hrb). split.
  - intro E. injection E as E. exists a, g, b. split; [reflexivity|]. split; [exact Na|]. split; [exact Hg|]. apply vals_none; [exact Hrb|].
    assert (L : length (vals t g) = length (vals t g ++ vals t b)) by (rewrite <- E; reflexivity). rewrite app_length in L. destruct (vals t b); [reflexivity|cbn in L; lia].
  - intros (a' & g' & b' & E & Na' & Hg' & Nb'). f_equal. f_equal. rewrite (proj2 (vals_none t b Hrb)), app_nil_r; [reflexivity|].
    (* the part from the first [t] on is the same in both splits *)
    assert (E2 : g ++ b = g' ++ b').
    { clear - E Na Na' Hh Hg' Nr Nb'. revert a' E Na'. induction a as [|i a IH]; intros a' E Na'.
      - destruct a' as [|i' a']; [exact E|]. exfalso. cbn [app] in E. rewrite E in Hh. inversion Na'; subst. congruence.
      - inversion Na as [|? ? N1 N2]; subst. destruct a' as [|i' a'].
        + exfalso. cbn [app] in E. destruct g' as [|j g'].
          * cbn [app] in E. subst b'. inversion Nb' as [|? ? _ M]; subst. apply Forall_app in M. destruct M as (_ & M). destruct (g ++ b) as [|z zs]; [congruence|]. inversion M; congruence.
          * cbn [app] in E. injection E as <- _. inversion Hg'; congruence.
        + cbn [app] in E. injection E as <- E. inversion Na'; subst. apply (IH N2 a' E). assumption. }
    clear - E2 Hg Hg' Nb' Hb. revert g' E2 Hg'. induction g as [|i g IH]; intros g' E2 Hg'.
    + destruct g' as [|j g']; [cbn [app] in E2; subst; exact Nb'|]. cbn [app] in E2. subst b. inversion Hg'. congruence.
    + inversion Hg as [|? ? G1 G2]; subst. destruct g' as [|j g']; cbn [app] in E2.
      * subst b'. inversion Nb'. congruence.
      * injection E2 as _ E2. inversion Hg'; subst. apply (IH G2 g' E2). assumption.
Qed.
End Arrays.

(** ** C50 *)
(** the tag, type and kind [mark] names *)
Definition reads (mark tag typ : bytes) (arr : bool) : Prop :=
  ~ In 95 typ /\
  ((arr = true /\ (mark = tag ++ s2b "_" ++ typ ++ s2b "s" \/ mark = tag ++ s2b "_" ++ typ ++ s2b "Array")) \/
   (arr = false /\ mark = tag ++ s2b "_" ++ typ /\ (forall b, mark <> b ++ s2b "s") /\ forall b, mark <> b ++ s2b "Array")).
Lemma suffix_spec : forall s suf, has_suffix s suf = true <-> exists b, s = b ++ suf.
Proof.
  intros s suf. unfold has_suffix. rewrite andb_true_iff, Nat.leb_le. split.
  - intros (L & E). apply beq_eq in E. exists (firstn (length s - length suf) s). rewrite <- E at 2. symmetry. apply firstn_skipn.
  - intros (b & ->). rewrite app_length. split; [lia|]. replace (length b + length suf - length suf)%nat with (length b) by lia. rewrite skipn_app, skipn_all, Nat.sub_diag. cbn. apply beq_refl.
Qed.
Lemma suffix_cut : forall b suf : bytes, firstn (length (b ++ suf) - length suf) (b ++ suf) = b.
Proof. intros b suf. rewrite app_length. replace (length b + length suf - length suf)%nat with (length b) by lia. rewrite firstn_app, firstn_all, Nat.sub_diag. cbn. apply app_nil_r. Qed.
Lemma last_index_none : forall s b, last_index s b = None <-> ~ In b s.
Proof.
  intros s b. induction s as [|c s IH]; cbn; [tauto|]. destruct (last_index s b) eqn:E.
  - split; [discriminate|]. intro Q. exfalso. apply Q. right. destruct (in_dec Z.eq_dec b s) as [H|H]; [exact H|]. apply IH in H. discriminate.
  - destruct (Z.eqb_spec c b) as [-> |Hn].
    + split; [discriminate|]. intro Q. exfalso. apply Q. left. reflexivity.
    + split; [|reflexivity]. intros _ [Q|Q]; [congruence|]. apply (proj1 IH); [reflexivity|exact Q].
Qed.
Lemma last_index_some : forall s b i, last_index s b = Some i <-> exists x y, s = x ++ b :: y /\ ~ In b y /\ i = length x.
Proof.
  intros s b. induction s as [|c s IH]; intro i; cbn.
  - split; [discriminate|]. intros ([|? ?] & y & E & _); discriminate.
  - destruct (last_index s b) as [j|] eqn:E.
    + split.
      * intro Q. injection Q as <-. destruct (proj1 (IH j) eq_refl) as (x & y & -> & Hy & ->). exists (c :: x), y. split; [reflexivity|]. split; [exact Hy|reflexivity].
      * intros ([|c' x] & y & Es & Hy & ->); cbn in Es; injection Es as -> Es.
        -- exfalso. subst s. apply last_index_none in Hy. congruence.
        -- assert (Q : Some j = Some (length x)) by (apply IH; exists x, y; auto). injection Q as ->. reflexivity.
    + split.
      * destruct (Z.eqb_spec c b) as [-> |Hn]; [|discriminate]. intro Q. injection Q as <-. exists [], s. split; [reflexivity|]. split; [apply last_index_none; exact E|reflexivity].
      * intros ([|c' x] & y & Es & Hy & ->); cbn in Es; injection Es as -> Es.
        -- rewrite Z.eqb_refl. reflexivity.
        -- exfalso. apply last_index_none in E. apply E. rewrite Es. apply in_or_app. right. left. reflexivity.
Qed.
Lemma no_both : forall b c, b ++ s2b "s" <> c ++ s2b "Array".
Proof. intros b c E. assert (Q : last (b ++ s2b "s") 0 = last (c ++ s2b "Array") 0) by (rewrite E; reflexivity). change (s2b "Array") with (s2b "Arra" ++ s2b "y") in Q. rewrite app_assoc in Q. change (s2b "s") with [115] in Q. change (s2b "y") with [121] in Q. rewrite !last_last in Q. discriminate. Qed.
Lemma xmarker_base : forall (M : Type) g mark (m : M), exists base arr, xmarker g mark m =
  match last_index base 95 with
  | None => inr (mark, m)
  | Some pos => if negb (beq (skipn (pos + 1) base) b_Node) then inl (GAct g (mkLeaf (firstn pos base) (skipn (pos + 1) base) arr), m) else inl (GTrans g (mkNode (firstn pos base) arr), m)
  end /\
  ((arr = true /\ (mark = base ++ s2b "s" \/ mark = base ++ s2b "Array")) \/ (arr = false /\ mark = base /\ (forall b, mark <> b ++ s2b "s") /\ forall b, mark <> b ++ s2b "Array")).
Proof.
  intros M g mark m. unfold xmarker. destruct (has_suffix mark [115]) eqn:E1; [|destruct (has_suffix mark b_Array) eqn:E2].
  - apply suffix_spec in E1. destruct E1 as (b & ->). change 1%nat with (length [115]). rewrite suffix_cut. exists b, true. split; [reflexivity|]. left. auto.
  - apply suffix_spec in E2. destruct E2 as (b & ->). change 5%nat with (length b_Array). rewrite suffix_cut. exists b, true. split; [reflexivity|]. left. auto.
  - exists mark, false. split; [reflexivity|]. right. split; [reflexivity|]. split; [reflexivity|]. split; intros b ->.
    + rewrite (proj2 (suffix_spec _ _)) in E1 by (exists b; reflexivity). discriminate.
    + rewrite (proj2 (suffix_spec _ _)) in E2 by (exists b; reflexivity). discriminate.
Qed.
Lemma base_cut : forall (x y : bytes), skipn (length x + 1) (x ++ 95 :: y) = y /\ firstn (length x) (x ++ 95 :: y) = x.
Proof.
  intros x y. split; [rewrite skipn_app, skipn_all2 by lia; replace (length x + 1 - length x)%nat with 1%nat by lia; reflexivity|].
  rewrite firstn_app, firstn_all, Nat.sub_diag. cbn. apply app_nil_r.
Qed.
Lemma split_unique : forall (x y x' y' : bytes), x ++ 95 :: y = x' ++ 95 :: y' -> ~ In 95 y -> ~ In 95 y' -> x = x' /\ y = y'.
Proof.
  intros x y x' y' E H H'. assert (Q : last_index (x ++ 95 :: y) 95 = Some (length x)) by (apply last_index_some; exists x, y; auto).
  assert (Q' : last_index (x ++ 95 :: y) 95 = Some (length x')) by (apply last_index_some; exists x', y'; auto). rewrite Q in Q'. injection Q' as L.
  destruct (base_cut x y) as (B1 & B2), (base_cut x' y') as (B3 & B4). rewrite E, L in *. split; congruence.
Qed.
(** The marked grammar becomes a value of type [typ] under [tag], or a sub-document if [typ] is Node, exactly if the mark so reads; ... *)
Theorem C50_leaf : forall (M : Type) g mark (m : M) tag typ arr, typ <> s2b "Node" ->
  (xmarker g mark m = inl (GAct g (mkLeaf tag typ arr), m) <-> reads mark tag typ arr).
Proof.
  intros M g mark m tag typ arr Hn. destruct (xmarker_base M g mark m) as (base & a & -> & C). split.
  - destruct (last_index base 95) as [pos|] eqn:E; [|discriminate]. apply last_index_some in E. destruct E as (x & y & -> & Hy & ->). destruct (base_cut x y) as (B1 & B2). rewrite B1, B2.
    destruct (beq y b_Node); cbn [negb]; [discriminate|]. intro Q. injection Q as -> -> ->. split; [exact Hy|].
    destruct C as [(-> & [-> | ->])|(-> & -> & C1 & C2)]; [left|left|right]; (split; [reflexivity|]); rewrite <- ?app_assoc; auto.
  - intros (Ht & R). assert (Q : a = arr /\ base = tag ++ 95 :: typ).
    { destruct R as [(-> & R)|(-> & R1 & R2 & R3)], C as [(-> & C)|(-> & -> & C1 & C2)]; (split; [try reflexivity|]).
      - change (tag ++ s2b "_" ++ typ ++ s2b "s") with (tag ++ (95 :: typ) ++ s2b "s") in R. change (tag ++ s2b "_" ++ typ ++ s2b "Array") with (tag ++ (95 :: typ) ++ s2b "Array") in R. rewrite !app_assoc in R.
        destruct R as [-> | ->], C as [C|C]; try (apply app_inv_tail in C; congruence); exfalso; [|symmetry in C]; exact (no_both _ _ C).
      - exfalso. destruct R as [R|R]; [apply (C1 (tag ++ s2b "_" ++ typ))|apply (C2 (tag ++ s2b "_" ++ typ))]; rewrite <- !app_assoc; exact R.
      - exfalso. destruct R as [R|R]; [apply (C1 (tag ++ s2b "_" ++ typ))|apply (C2 (tag ++ s2b "_" ++ typ))]; rewrite <- !app_assoc; exact R.
      - exfalso. destruct C as [C|C]; [exact (R2 _ C)|exact (R3 _ C)].
      - exfalso. destruct C as [C|C]; [exact (R2 _ C)|exact (R3 _ C)].
      - exact R1. }
    destruct Q as (-> & ->). assert (L : last_index (tag ++ 95 :: typ) 95 = Some (length tag)) by (apply last_index_some; exists tag, typ; auto). rewrite L.
    destruct (base_cut tag typ) as (B1 & B2). rewrite B1, B2. destruct (beq typ b_Node) eqn:E; [apply beq_eq in E; contradiction|reflexivity].
Qed.
Theorem C50_node : forall (M : Type) g mark (m : M) tag arr, xmarker g mark m = inl (GTrans g (mkNode tag arr), m) <-> reads mark tag (s2b "Node") arr.
Proof.
  intros M g mark m tag arr. destruct (xmarker_base M g mark m) as (base & a & -> & C). split.
  - destruct (last_index base 95) as [pos|] eqn:E; [|discriminate]. apply last_index_some in E. destruct E as (x & y & -> & Hy & ->). destruct (base_cut x y) as (B1 & B2). rewrite B1, B2.
    destruct (beq y b_Node) eqn:Eb; cbn [negb]; [|discriminate]. apply beq_eq in Eb. subst y. intro Q. injection Q as -> ->. split; [exact Hy|].
    destruct C as [(-> & [-> | ->])|(-> & -> & C1 & C2)]; [left|left|right]; (split; [reflexivity|]); rewrite <- ?app_assoc; auto.
  - intros (Ht & R). assert (Q : a = arr /\ base = tag ++ 95 :: b_Node).
    { destruct R as [(-> & R)|(-> & R1 & R2 & R3)], C as [(-> & C)|(-> & -> & C1 & C2)]; (split; [try reflexivity|]).
      - change (tag ++ s2b "_" ++ s2b "Node" ++ s2b "s") with (tag ++ (95 :: b_Node) ++ s2b "s") in R. change (tag ++ s2b "_" ++ s2b "Node" ++ s2b "Array") with (tag ++ (95 :: b_Node) ++ s2b "Array") in R. rewrite !app_assoc in R.
        destruct R as [-> | ->], C as [C|C]; try (apply app_inv_tail in C; congruence); exfalso; [|symmetry in C]; exact (no_both _ _ C).
      - exfalso. destruct R as [R|R]; [apply (C1 (tag ++ s2b "_" ++ s2b "Node"))|apply (C2 (tag ++ s2b "_" ++ s2b "Node"))]; rewrite <- !app_assoc; exact R.
      - exfalso. destruct R as [R|R]; [apply (C1 (tag ++ s2b "_" ++ s2b "Node"))|apply (C2 (tag ++ s2b "_" ++ s2b "Node"))]; rewrite <- !app_assoc; exact R.
      - exfalso. destruct C as [C|C]; [exact (R2 _ C)|exact (R3 _ C)].
      - exfalso. destruct C as [C|C]; [exact (R2 _ C)|exact (R3 _ C)].
      - exact R1. }
    destruct Q as (-> & ->). assert (L : last_index (tag ++ 95 :: b_Node) 95 = Some (length tag)) by (apply last_index_some; exists tag, b_Node; auto). rewrite L.
    destruct (base_cut tag b_Node) as (B1 & B2). rewrite B1, B2. reflexivity.
Qed.
(** ... and the mark is rejected exactly if it has no underscore; nothing else happens. *)
Theorem C50_rejected : forall (M : Type) g mark (m : M), xmarker g mark m = inr (mark, m) <-> ~ In 95 mark.
Proof.
  intros M g mark m. destruct (xmarker_base M g mark m) as (base & a & -> & C).
  assert (B : In 95 mark <-> In 95 base).
  { assert (S : forall suf : bytes, ~ In 95 suf -> (In 95 (base ++ suf) <-> In 95 base)) by (intros suf H; rewrite in_app_iff; tauto).
    destruct C as [(_ & [-> | ->])|(_ & -> & _)]; [apply S|apply S|reflexivity]; vm_compute; intuition congruence. }
  rewrite B, <- last_index_none. destruct (last_index base 95); [|split; reflexivity]. destruct (negb _); split; discriminate.
Qed.
(** the reading is unique *)
Theorem C50_one_reading : forall mark tag typ arr tag' typ' arr', reads mark tag typ arr -> reads mark tag' typ' arr' -> tag = tag' /\ typ = typ' /\ arr = arr'.
Proof.
  intros mark tag typ arr tag' typ' arr' R R'. pose (m := tt). pose (g := @GNil leafmark nodemark).
  assert (F : forall tag typ arr, reads mark tag typ arr -> xmarker g mark m = inl ((if beq typ (s2b "Node") then GTrans g (mkNode tag arr) else GAct g (mkLeaf tag typ arr)), m)).
  { intros t ty ar H. destruct (beq ty (s2b "Node")) eqn:E; [apply beq_eq in E; subst ty; apply C50_node; exact H|apply C50_leaf; [apply beq_neq; exact E|exact H]]. }
  pose proof (F _ _ _ R) as F1. rewrite (F _ _ _ R') in F1. destruct (beq typ (s2b "Node")) eqn:E, (beq typ' (s2b "Node")) eqn:E'; try discriminate; injection F1 as <- <-; auto.
  - apply beq_eq in E, E'. subst. auto.
Qed.

(** ** C71: the default reading of a value marked Int *)
Definition gv := @GetValue Empty_set (fun _ => None) (fun _ => None) (fun _ => None).
Section Ints.
Context {F : Type}.
Variable unquote : bytes -> option bytes.
Variable parse_float : bytes -> option F.
Variable unquote_char : bytes -> option (Z * bool * bytes).
Notation GetValue := (GetValue unquote parse_float unquote_char).
(** a decimal literal has its value if it fits an int64, and so has an octal one, but read as decimal; a hexadecimal one panics *)
Theorem C71_int : forall t, int_token t ->
  (~ leading_zero (tlit t) -> GetValue (s2b "Int") (tlit t) = if go_int (tlit t) <? 2 ^ 63 then inl (XInt (go_int (tlit t))) else inr (VSyntax (s2b "Int") (tlit t))) /\
  (leading_zero (tlit t) -> ~ hex_lit (tlit t) -> GetValue (s2b "Int") (tlit t) = if ScannerSpec.value 10 (tlit t) <? 2 ^ 63 then inl (XInt (ScannerSpec.value 10 (tlit t))) else inr (VSyntax (s2b "Int") (tlit t))) /\
  (hex_lit (tlit t) -> GetValue (s2b "Int") (tlit t) = inr (VSyntax (s2b "Int") (tlit t))).
Proof.
  intros t Ht. destruct (int_spelling t Ht) as (Hn & Hw).
  assert (Di : forall l, l <> [] -> Forall (fun b => digval b = Some (hexval b) /\ 0 <= hexval b < 10) l ->
    GetValue (s2b "Int") l = if ScannerSpec.value 10 l <? 2 ^ 63 then inl (XInt (ScannerSpec.value 10 l)) else inr (VSyntax (s2b "Int") l)).
  { intros l Hl H. unfold Extractor.GetValue. change (beq (s2b "Int") (s2b "String")) with false. change (beq (s2b "Int") (s2b "Int")) with true. cbn match.
    rewrite (strint_value 10 l) by (try lia; assumption). destruct (ScannerSpec.value 10 l <? 2 ^ 63); reflexivity. }
  destruct (int_cases _ Hn Hw) as [E | [(x & r & E & Hx & Hr & Hd) | [(x & r & E & Hx1 & Hx2 & Hd) | (c & r & E & Hc & Hd)]]]; rewrite E in *.
  - split; [intros _; reflexivity|]. split; [intros (x & r & Q); discriminate|intros (x & r & Q & _); discriminate].
  - split; [intro Q; exfalso; apply Q; exists x, r; reflexivity|]. split; [intros _ Q; exfalso; apply Q; exists x, r; auto|]. intros _. destruct Hx as [-> | ->]; reflexivity.
  - split; [intro Q; exfalso; apply Q; exists x, r; reflexivity|]. split.
    + intros _ _. apply Di; [discriminate|]. constructor; [vm_compute; intuition congruence|]. eapply Forall_impl; [|exact Hd]. cbn. intros b (B1 & B2). split; [exact B1|lia].
    + intros (x' & r' & Q & Hh). injection Q as <- <-. destruct Hh; congruence.
  - split.
    + intros _. rewrite Di by (try discriminate; assumption). assert (Eg : go_int (c :: r) = ScannerSpec.value 10 (c :: r)).
      { unfold go_int. destruct (Z.eq_dec c 48) as [-> |]; [congruence|]. destruct c as [|c|c]; try reflexivity. do 6 (destruct c; try reflexivity). all: destruct r; try reflexivity; congruence. }
      rewrite Eg. reflexivity.
    + split; intros (x' & r' & Q); [|destruct Q as (Q & _)]; injection Q as -> ->; congruence.
Qed.
(** ... so the value of a literal is not what Go's literal has: octal and hexadecimal *)
Theorem C71_go_value_refuted : exists t1 t2, int_token t1 /\ int_token t2 /\
  go_int (tlit t1) = 8 /\ GetValue (s2b "Int") (tlit t1) = inl (XInt 10) /\ go_int (tlit t2) = 16 /\ GetValue (s2b "Int") (tlit t2) = inr (VSyntax (s2b "Int") (tlit t2)).
Proof.
  exists (mkTok INT 1 (s2b "010")), (mkTok INT 1 (s2b "0x10")). split; [|split; [|repeat split; vm_compute; reflexivity]].
  - exists (fun _ => false), (fun _ => false), false, false, Plain, PropScan.fresh, (s2b "010"). eexists _, _.
    split; [|split; [exact I|]]; [vm_compute; repeat constructor; discriminate|]. split; [vm_compute; reflexivity|]. split; [left; reflexivity|reflexivity].
  - exists (fun _ => false), (fun _ => false), false, false, Plain, PropScan.fresh, (s2b "0x10"). eexists _, _.
    split; [|split; [exact I|]]; [vm_compute; repeat constructor; discriminate|]. split; [vm_compute; reflexivity|]. split; [left; reflexivity|reflexivity].
Qed.
(** the other types: a string or character literal has the value Go's strconv gives it, of a character only if it is one byte; a text is taken as it is; other types are refused *)
Theorem C71_others : forall lit,
  GetValue (s2b "Text") lit = inl (XStr lit) /\
  (forall v, unquote lit = Some v -> GetValue (s2b "String") lit = inl (XStr v)) /\
  (unquote lit = None -> GetValue (s2b "String") lit = inr (VSyntax (s2b "String") lit)) /\
  (forall v, parse_float lit = Some v -> GetValue (s2b "Float") lit = inl (XFloat v)) /\
  (parse_float lit = None -> GetValue (s2b "Float") lit = inr (VSyntax (s2b "Float") lit)) /\
  (forall q body q', lit = q :: body ++ [q'] ->
    (unquote_char body = None -> GetValue (s2b "Char") lit = inr (VSyntax (s2b "Char") lit)) /\
    (forall v multibyte tail, unquote_char body = Some (v, multibyte, tail) ->
      (tail = [] -> multibyte = false -> 0 <= v < 256 -> GetValue (s2b "Char") lit = inl (XByte v)) /\
      (tail <> [] \/ multibyte = true -> GetValue (s2b "Char") lit = inr (VChar lit)))) /\
  ((length lit < 2)%nat -> GetValue (s2b "Char") lit = inr VBounds) /\
  (forall typ, ~ In typ [s2b "String"; s2b "Int"; s2b "Float"; s2b "Char"; s2b "Text"] -> GetValue typ lit = inr (VUnsupported typ)).
Proof.
  intros lit. unfold Extractor.GetValue.
  repeat match goal with |- context [beq (s2b ?a) (s2b ?b)] => let r := eval vm_compute in (beq (s2b a) (s2b b)) in change (beq (s2b a) (s2b b)) with r end. cbn match.
  split; [reflexivity|]. split; [intros v ->; reflexivity|]. split; [intros ->; reflexivity|]. split; [intros v ->; reflexivity|]. split; [intros ->; reflexivity|]. split; [|split].
  - intros q body q' ->. assert (B : exists x l, body ++ [q'] = x :: l) by (destruct body; cbn; eauto). destruct B as (x & l & B). rewrite B. cbv iota.
    replace (removelast (x :: l)) with body by (rewrite <- B; symmetry; apply removelast_last). split; [intros ->; reflexivity|].
    intros v mb tail ->. split.
    + intros -> -> Hv. cbn. rewrite Z.mod_small by exact Hv. reflexivity.
    + intros [H| ->]; [|rewrite orb_true_r; reflexivity]. destruct tail; [congruence|]. reflexivity.
  - destruct lit as [|a [|b l]]; cbn [length]; intros H; try reflexivity. lia.
  - intros typ H. cbn [In] in H. repeat (rewrite (proj2 (beq_neq _ _)) by (intros ->; apply H; auto 7)). reflexivity.
Qed.
End Ints.

(** ** Instances *)
Definition no_runes (_ : Z) : bool := false.
Definition ex_cl (gram : string) := Cl (xmarker (M := unit)) no_runes no_runes 300 (AutoKw new_akw) PropScan.fresh tt (s2b gram).
(** Parse of [code] by a new engine of [gram] *)
Definition ex_parse (s : st (xst (@xval Empty_set))) (gram code : string) : option (@pout (@xval Empty_set) xverr) :=
  match ex_cl gram with ClOk root d => Some (Parse gv no_runes no_runes false false root d 300 PropScan.fresh (s2b code) s) | _ => None end.
Definition ex_new : st (xst (@xval Empty_set)) := mkSt (fun _ => 0) new_xst.
Definition ex_doc (gram code : string) : option (jmap (@xval Empty_set)) := match ex_parse ex_new gram code with Some (PDoc m _) => Some m | _ => None end.
(** lists of named numbers, nested: values, an array, sub-documents; the alternative tried first fails inside a node *)
Definition ex_gram : string := "pair = IDENT/k_Text ':' INT/v_Int; dup = pair/p_Node ';' INT/v_Int; doc = '{' +(dup | pair/p_Node | '[' *(INT/n_Ints) ']') '}';".
Example C47_instance : ex_doc ex_gram "{ a : 1 [ 7 8 ] }" =
  Some (Some [(s2b "n", JVals [XInt 7; XInt 8]); (s2b "p", JMap (Some [(s2b "v", JVal (XInt 1)); (s2b "k", JVal (XStr (s2b "a")))]))]).
Proof. vm_compute. reflexivity. Qed.
(** the oldest value of a tag wins *)
Example C47_oldest_wins : ex_doc "doc = +(IDENT/k_Text ':' INT/v_Int);" "a : 1 b : 2" = Some (Some [(s2b "v", JVal (XInt 1)); (s2b "k", JVal (XStr (s2b "a")))]).
Proof. vm_compute. reflexivity. Qed.
(** C48 is false of interleaved arrays: of a 1 b 2 the document keeps a and 1 only *)
Theorem C48_every_element_refuted : ex_doc "doc = +(IDENT/id_Texts INT/num_Ints);" "a 1 b 2" = Some (Some [(s2b "num", JVals [XInt 1]); (s2b "id", JVals [XStr (s2b "a")])]).
Proof. vm_compute. reflexivity. Qed.
Example C48_instance : Forall (fun i => tag_of i = s2b "n" -> array_leaf i) [Leaf (s2b "k") 0 false; Leaf (s2b "n") 1 true; Leaf (s2b "n") 2 true; Leaf (s2b "k") 3 true] /\
  doc_of [Leaf (s2b "k") 0 false; Leaf (s2b "n") 1 true; Leaf (s2b "n") 2 true; Leaf (s2b "k") 3 true] = Some [(s2b "k", JVal 0); (s2b "n", JVals [1; 2])].
Proof. split; [repeat constructor; discriminate|]. vm_compute. reflexivity. Qed.
Example C49_instance : let s := mkSt (fun _ => 0) (mkX [[mkCell (s2b "x") (VLeaf (XInt 3)) cateLeaf]] 0) in
  match gmatch (fun _ => None) (lift (xclient gv)) 20 (GTrans (GAnd [GAct (GTok INT) (mkLeaf (s2b "v") (s2b "Int") false); GTok 59]) (mkNode (s2b "p") false)) [mkTok INT 1 (s2b "5")] s with
  | Ret _ (Some _) s' => x_heap (ust s') = x_heap (ust s) ++ [[mkCell (s2b "v") (VLeaf (XInt 5)) cateLeaf]] /\ x_stk (ust s') = 0%nat
  | _ => False
  end.
Proof. vm_compute. split; reflexivity. Qed.
Example C50_instance : reads (s2b "a_b_IntArray") (s2b "a_b") (s2b "Int") true /\ reads (s2b "a_Nodes") (s2b "a") (s2b "Node") true /\ reads (s2b "_x") [] (s2b "x") false /\ ~ In 95 (s2b "Ints").
Proof.
  split; [|split; [|split]].
  - split; [vm_compute; intuition congruence|]. left. split; [reflexivity|right; reflexivity].
  - split; [vm_compute; intuition congruence|]. left. split; [reflexivity|left; reflexivity].
  - split; [vm_compute; intuition congruence|]. right. split; [reflexivity|]. split; [reflexivity|].
    split; intros b E; apply (f_equal (fun l => last l 0)) in E; [change (s2b "s") with [115] in E|change (s2b "Array") with (s2b "Arra" ++ [121]) in E; rewrite app_assoc in E]; rewrite last_last in E; discriminate.
  - vm_compute. intuition congruence.
Qed.
(** a type whose name ends in s is taken for an array *)
Example C50_type_in_s : reads (s2b "x_Class") (s2b "x") (s2b "Clas") true.
Proof. split; [vm_compute; intuition congruence|]. left. split; [reflexivity|left; reflexivity]. Qed.
(** the state left by a panic in a sub-document, and the next parse *)
Example C51_instance : match ex_parse ex_new ex_gram "{ a : 0x1 }" with
  | Some (PPanic p s) => x_stk (ust s) <> 0%nat /\
      match ex_parse s ex_gram "{ b : 2 }" with Some (PDoc m _) => Some m = ex_doc ex_gram "{ b : 2 }" /\ m <> None | _ => False end
  | _ => False
  end.
Proof. vm_compute. split; [discriminate|]. split; [reflexivity|discriminate]. Qed.
(** a literal that is no decimal number: Parse panics, SafeParse gives the error; a host whose GetValue panics with another value sees that panic *)
Example C95_instance : match ex_cl ex_gram with
  | ClOk root d =>
      match Parse gv no_runes no_runes false false root d 300 PropScan.fresh (s2b "{ a : 0x1 }") ex_new,
            SafeParse gv no_runes no_runes false false (fun _ => true) root d 300 PropScan.fresh (s2b "{ a : 0x1 }") ex_new,
            SafeParse gv no_runes no_runes false false (fun _ => false) root d 300 PropScan.fresh (s2b "{ a : 0x1 }") ex_new with
      | PPanic p _, PError (PRecovered p') _, PPanic p'' _ => p = PUser (XValue (VSyntax (s2b "Int") (s2b "0x1"))) /\ p' = p /\ p'' = p
      | _, _, _ => False
      end
  | _ => False
  end.
Proof. vm_compute. auto. Qed.

Print Assumptions C47_document.
Print Assumptions C47_never_broken.
Print Assumptions C48_every_element_iff.
Print Assumptions C48_every_element_refuted.
Print Assumptions C49_failed_node.
Print Assumptions C50_leaf.
Print Assumptions C50_node.
Print Assumptions C50_rejected.
Print Assumptions C50_one_reading.
Print Assumptions C51_history.
Print Assumptions C51_safe_history.
Print Assumptions C95_outcome.
Print Assumptions C95_origin.
Print Assumptions C95_never_panics.
Print Assumptions C71_int.
Print Assumptions C71_others.
Print Assumptions C71_go_value_refuted.
