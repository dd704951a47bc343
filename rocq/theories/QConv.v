(** Every text that the qlang grammar consumes is a text of QText, or has one of two odd constructs in it. *)
From Coq Require Import String SpecFloat.
From Verif Require Import Base Token Grammar PegSpec GramLang Compiler Interp QValue Qlang QlangSpec QlangTop QText QOdd.
Local Open Scope list_scope. Local Open Scope Z_scope.

Section Conv.
Context {W : Type}.
Variable L : qlib W.
Notation sem := (@sem W).

Notation odd := (odd L).
Lemma odd_l : forall x y, odd x -> odd (x ++ y).
Proof.
  intros x y [(a & t & l & i & ci & j & cj & r & b & -> & H)|(a & f & hs & ss & l & b & -> & H)].
  - left. exists a, t, l, i, ci, j, cj, r, (b ++ y). split; [|exact H]. rewrite <- app_assoc. cbn. rewrite <- !app_assoc. reflexivity.
  - right. exists a, f, hs, ss, l, (b ++ y). split; [|exact H]. rewrite <- app_assoc. cbn. rewrite <- !app_assoc. reflexivity.
Qed.
Lemma odd_r : forall x y, odd y -> odd (x ++ y).
Proof.
  intros x y [(a & t & l & i & ci & j & cj & r & b & -> & H)|(a & f & hs & ss & l & b & -> & H)].
  - left. exists (x ++ a), t, l, i, ci, j, cj, r, b. split; [|exact H]. rewrite <- app_assoc. reflexivity.
  - right. exists (x ++ a), f, hs, ss, l, b. split; [|exact H]. rewrite <- app_assoc. reflexivity.
Qed.
Lemma odd_cons : forall t y, odd y -> odd (t :: y).
Proof. intros t y H. exact (odd_r [t] y H). Qed.
Ltac oddt := match goal with H : odd ?x |- odd ?x => exact H | |- odd (_ ++ _) => first [apply odd_l; oddt | apply odd_r; oddt] | |- odd (_ :: _) => apply odd_cons; oddt end.
Ltac isodd := right; oddt.

Definition good (P : list token -> sem -> Prop) (ts : list token) : Prop := (exists c, P ts c) \/ odd ts.
Definition good1 {B} (P : list token -> B -> Prop) (ts : list token) : Prop := (exists c, P ts c) \/ odd ts.
Definition goodn (P : list token -> nat -> sem -> Prop) (ts : list token) : Prop := (exists n c, P ts n c) \/ odd ts.
Definition Fq (v : bytes) (ts : list token) : Prop := v = r_factor -> good (factor_is L) ts.
Notation lang := (lang (A := bytes) (T := Empty_set) Fq).
Notation lseq := (lseq (A := bytes) (T := Empty_set) Fq).

Lemma seq_in : forall gs ts, lang (GAnd gs) ts -> lseq gs ts.
Proof. intros gs ts H. rewrite lang_and in H. exact H. Qed.
Lemma bang_in : forall gs ts, lseq (GNil :: gs) ts -> lseq gs ts.
Proof. intros gs ts H. exact H. Qed.
Lemma nil_in : forall ts, lseq [] ts -> ts = [].
Proof. intros ts H. exact H. Qed.
Lemma tok_in : forall k ts, k <> FLOAT -> lang (GTok k) ts -> exists t, ts = [t] /\ tkind t = k.
Proof. intros k ts N (t & -> & [H|(_ & H)]); [eauto|contradiction]. Qed.
Lemma act_in : forall g m ts, lang (GAct g m) ts -> lang g ts.
Proof. intros g m ts H. exact H. Qed.
Lemma or_in : forall gs ts, lang (GOr gs) ts -> lalt (A := bytes) (T := Empty_set) Fq gs ts.
Proof. intros gs ts H. rewrite lang_or in H. exact H. Qed.
Ltac acts H := repeat match type of H with GramLang.lang _ (GAct _ _) _ => apply act_in in H end.
(** the next element of a sequence; a token *)
Ltac elem H a Ha := apply lseq_inv in H; [|exact Logic.I]; let r := fresh "r" in destruct H as (a & r & -> & Ha & H); acts Ha.
Ltac bang H := apply bang_in in H.
Ltac tokn H t Ht := let a := fresh in elem H a Ht; acts Ht; apply tok_in in Ht; [|first [discriminate | assumption]]; destruct Ht as (t & -> & Ht).
Ltac fin H := apply nil_in in H; match type of H with ?r = [] => subst r end; rewrite ?app_nil_r; cbn [app].

Lemma l_factor : forall ts, lang gfactor ts -> good (factor_is L) ts.
Proof. intros ts H. exact (H eq_refl). Qed.

(** ** Operators *)
Lemma l_ops : forall (g : G) (ops : list (Z * bytes)) (P Q : list token -> sem -> Prop) (lv : list (Z * bytes * (value -> value -> opres))) id,
  (forall ts, lang g ts -> good P ts) -> Forall (fun o => fst o <> FLOAT /\ exists m f, In (fst o, m, f) lv) ops -> Q [] nop ->
  (forall t m f ts c r rc, In (tkind t, m, f) lv -> P ts c -> Q r rc -> Q ((t :: ts) ++ r) (seq (seq c (fun _ _ _ => blame ts (binary m f))) rc)) ->
  forall ts, lang (GRep0 id (GOr (map (op_alt g) ops))) ts -> good Q ts.
Proof.
  intros g ops P Q lv id Hg Ho Q0 Q1 ts H. change (star (lang (GOr (map (op_alt g) ops))) ts) in H. induction H as [|a b Ha _ IH]; [left; eauto|].
  rewrite lang_or in Ha. revert Ha IH. induction ops as [|o ops IHo]; [intros []|]. inversion Ho as [|? ? (Nf & m & f & Hi) Ho']; subst. cbn [map lalt]. intros [Ha|Ha] IH; [|exact (IHo Ho' Ha IH)].
  apply seq_in in Ha. tokn Ha t Ht. elem Ha x Hx. fin Ha. cbn [GramLang.lang] in Hx. destruct (Hg _ Hx) as [(c & Hc)|O]; [|isodd].
  destruct IH as [(rc & Hr)|O]; [|isodd]. left. eexists. apply (Q1 t m f); [rewrite Ht; exact Hi|exact Hc|exact Hr].
Qed.

Lemma l_lazy : forall k (g : G) m (P Q : list token -> sem -> Prop) id, k <> FLOAT -> (forall ts, lang g ts -> good P ts) -> Q [] nop ->
  (forall t ts c r rc, tkind t = k -> P ts c -> Q r rc -> exists x, Q ((t :: ts) ++ r) x) ->
  forall ts, lang (GRep0 id (lazy_alt k g m)) ts -> good Q ts.
Proof.
  intros k g m P Q id Nk Hg Q0 Q1 ts H. change (star (lang (lazy_alt k g m)) ts) in H. induction H as [|a b Ha _ IH]; [left; eauto|].
  unfold lazy_alt in Ha. apply seq_in in Ha. tokn Ha t Ht. elem Ha x Hx. fin Ha. destruct (Hg _ Hx) as [(c & Hc)|O]; [|isodd]. destruct IH as [(rc & Hr)|O]; [|isodd]. left. exact (Q1 t x c b rc Ht Hc Hr).
Qed.
Lemma l_term1 : forall ts, lang gterm1 ts -> good (term1_is L) ts.
Proof.
  intros ts H. change (lang d_term1 ts) in H. unfold d_term1 in H. apply seq_in in H. elem H a Ha. elem H b Hb. fin H. apply l_factor in Ha.
  apply (l_ops gfactor ops1 (factor_is L) (ops1_are L) level1) in Hb; [|exact l_factor|repeat constructor; try discriminate; do 2 eexists; cbn; eauto|constructor|intros; econstructor; eassumption].
  destruct Ha as [(c & Hc)|O]; [|isodd]. destruct Hb as [(d & Hd)|O]; [|isodd]. left. eexists. constructor; eassumption.
Qed.
Lemma l_term2 : forall ts, lang gterm2 ts -> good (term2_is L) ts.
Proof.
  intros ts H. change (lang d_term2 ts) in H. unfold d_term2 in H. apply seq_in in H. elem H a Ha. elem H b Hb. fin H. apply l_term1 in Ha.
  apply (l_ops gterm1 ops2 (term1_is L) (ops2_are L) level2) in Hb; [|exact l_term1|repeat constructor; try discriminate; do 2 eexists; cbn; eauto|constructor|intros; econstructor; eassumption].
  destruct Ha as [(c & Hc)|O]; [|isodd]. destruct Hb as [(d & Hd)|O]; [|isodd]. left. eexists. constructor; eassumption.
Qed.
Lemma l_term3 : forall ts, lang gterm3 ts -> good (term3_is L) ts.
Proof.
  intros ts H. change (lang d_term3 ts) in H. unfold d_term3 in H. apply seq_in in H. elem H a Ha. elem H b Hb. fin H. apply l_term2 in Ha.
  apply (l_ops gterm2 ops3 (term2_is L) (ops3_are L) (level3 L)) in Hb; [|exact l_term2|repeat constructor; try discriminate; do 2 eexists; cbn; eauto 10|constructor|intros; econstructor; eassumption].
  destruct Ha as [(c & Hc)|O]; [|isodd]. destruct Hb as [(d & Hd)|O]; [|isodd]. left. eexists. constructor; eassumption.
Qed.
Lemma l_term4 : forall ts, lang gterm4 ts -> good (term4_is L) ts.
Proof.
  intros ts H. change (lang d_term4 ts) in H. unfold d_term4 in H. apply seq_in in H. elem H a Ha. elem H b Hb. fin H. apply l_term3 in Ha.
  apply (l_lazy 143 gterm3 k_and (term3_is L) (ops4_are L)) in Hb; [|discriminate|exact l_term3|constructor|intros; eexists; econstructor; eassumption].
  destruct Ha as [(c & Hc)|O]; [|isodd]. destruct Hb as [(d & Hd)|O]; [|isodd]. left. eexists. constructor; eassumption.
Qed.
Lemma l_expr : forall ts, lang gexpr ts -> good (expr_is L) ts.
Proof.
  intros ts H. change (lang d_expr ts) in H. unfold d_expr in H. apply seq_in in H. elem H a Ha. elem H b Hb. fin H. apply l_term4 in Ha.
  apply (l_lazy 144 gterm4 k_or (term4_is L) (ops5_are L)) in Hb; [|discriminate|exact l_term4|constructor|intros; eexists; econstructor; eassumption].
  destruct Ha as [(c & Hc)|O]; [|isodd]. destruct Hb as [(d & Hd)|O]; [|isodd]. left. eexists. constructor; eassumption.
Qed.

(** ** Lists and optional parts *)
Lemma l_value : forall id ts, lang (GRep01 id gexpr) ts -> goodn (opt_value L) ts.
Proof. intros id ts [-> |H]; [left; do 2 eexists; constructor|]. apply l_expr in H. destruct H as [(c & Hc)|O]; [left; do 2 eexists; constructor; eassumption|right; exact O]. Qed.
Lemma l_tok : forall id k ts, k <> FLOAT -> lang (GRep01 id (GTok k)) ts -> exists n, opt_tok k ts n.
Proof. intros id k ts N [-> |H]; [eexists; constructor|]. apply tok_in in H; [|exact N]. destruct H as (t & -> & Ht). eexists. constructor. exact Ht. Qed.
Lemma l_args : forall id ts, lang (GList id gexpr (GTok 44) true) ts -> goodn (exprs_are L) ts.
Proof.
  intros id ts [(_ & ->)|(a & b & -> & Ha & Hb)]; [left; do 2 eexists; constructor|]. apply l_expr in Ha. destruct Ha as [(c & Hc)|O]; [|isodd].
  assert (M : goodn (more_are L) b).
  { clear - Hb. induction Hb as [|x y (u & v & -> & Hu & Hv) _ IH]; [left; do 2 eexists; constructor|]. apply tok_in in Hu; [|discriminate]. destruct Hu as (t & -> & Ht). apply l_expr in Hv. destruct Hv as [(c & Hc)|O]; [|isodd].
    destruct IH as [(n & rc & Hr)|O]; [|isodd]. left. do 2 eexists. apply M_cons; eassumption. }
  destruct M as [(n & rc & Hr)|O]; [|isodd]. left. do 2 eexists. constructor; eassumption.
Qed.
Lemma l_names : forall id l0 ts, lang (GList id (GAct (GTok IDENT) k_name) (GTok 44) l0) ts -> (l0 = true /\ ts = []) \/ exists ns, name_list ts ns.
Proof.
  intros id l0 ts [H|(a & b & -> & Ha & Hb)]; [left; exact H|right]. apply act_in in Ha. apply tok_in in Ha; [|discriminate]. destruct Ha as (t & -> & Ht). revert t Ht.
  induction Hb as [|x y (u & v & -> & Hu & Hv) _ IH]; intros t Ht; [eexists; constructor; exact Ht|]. apply tok_in in Hu; [|discriminate]. destruct Hu as (t1 & -> & Ht1). apply act_in in Hv. apply tok_in in Hv; [|discriminate]. destruct Hv as (t2 & -> & Ht2).
  destruct (IH t2 Ht2) as (ns & Hn). eexists. cbn [app]. apply NL_more; [exact Ht|exact Ht1|exact Hn].
Qed.

(** ** Statements *)
Lemma l_s : forall ts, lang gs ts -> good (stmt_is L) ts.
Proof.
  intros ts H. change (lang d_s ts) in H. unfold d_s in H. apply or_in in H. cbn [app map opassigns] in H.
  assert (Asg : forall o, fst o <> FLOAT -> lang (op_assign o) ts -> (exists t t1 e c, ts = t :: t1 :: e /\ tkind t = IDENT /\ tkind t1 = fst o /\ expr_is L e c) \/ odd ts).
  { intros o No X. unfold op_assign in X. apply act_in in X. apply seq_in in X. tokn X t Ht. tokn X t1 Ht1. bang X. elem X e He. fin X. apply l_expr in He. destruct He as [(c & Hc)|O]; [|isodd]. left. exists t, t1, e, c. auto. }
  assert (Op : forall o f, In (fst o, f) assign_ops -> fst o <> FLOAT -> lang (op_assign o) ts -> good (stmt_is L) ts).
  { intros o f Hi No X. destruct (Asg o No X) as [(t & t1 & e & c & -> & Ht & Ht1 & He)|O]; [|isodd]. left. eexists. eapply (S_opassign L t t1 f); [exact Ht|rewrite Ht1; exact Hi|exact He]. }
  destruct H as [H|[H|[H|[H|[H|[H|[H|[H|[H|[H|[H|[H|[]]]]]]]]]]]]].
  - destruct (Asg (61, k_assign) ltac:(discriminate) H) as [(t & t1 & e & c & -> & Ht & Ht1 & He)|O]; [|isodd]. left. eexists. eapply S_assign; eassumption.
  - unfold g_massign in H. apply seq_in in H. elem H x Hx. apply seq_in in Hx. tokn Hx t Ht. tokn Hx t1 Ht1. bang Hx. fin Hx. elem H ns Hn. apply l_names in Hn. destruct Hn as [(D & _)|(names & Hn)]; [discriminate|]. tokn H t2 Ht2. elem H e He. fin H.
    apply l_expr in He. destruct He as [(c & Hc)|O]; [|isodd]. left. eexists. apply (S_massign L t t1 ns names t2 e c); assumption.
  - apply act_in in H. apply seq_in in H. tokn H t Ht. tokn H t1 Ht1. fin H. left. eexists. eapply (S_incdec L t t1 Inc); [exact Ht|rewrite Ht1; left; reflexivity].
  - apply act_in in H. apply seq_in in H. tokn H t Ht. tokn H t1 Ht1. fin H. left. eexists. eapply (S_incdec L t t1 Dec); [exact Ht|rewrite Ht1; right; left; reflexivity].
  - eapply (Op (132, k_adda) Add); [cbn; auto|discriminate|exact H].
  - eapply (Op (133, k_suba) Sub); [cbn; auto|discriminate|exact H].
  - eapply (Op (134, k_mula) Mul); [cbn; auto|discriminate|exact H].
  - eapply (Op (135, k_quoa) Quo); [cbn; auto|discriminate|exact H].
  - eapply (Op (136, k_moda) Mod); [cbn; auto 6|discriminate|exact H].
  - unfold g_return in H. apply seq_in in H. tokn H t Ht. elem H e He. fin H. apply l_value in He. destruct He as [(n & c & Hc)|O]; [|isodd]. left. eexists. eapply S_return; eassumption.
  - unfold g_defer in H. apply seq_in in H. tokn H t Ht. bang H. elem H e He. fin H. apply l_expr in He. destruct He as [(c & Hc)|O]; [|isodd]. left. eexists. eapply S_defer; eassumption.
  - apply l_expr in H. destruct H as [(c & Hc)|O]; [|right; exact O]. left. eexists. apply S_expr. exact Hc.
Qed.
Lemma l_doc : forall ts, lang gdoc ts -> good (doc_is L) ts.
Proof.
  intros ts H. change (lang d_doc ts) in H. unfold d_doc in H. apply seq_in in H. elem H a Ha. elem H b Hb. fin H. apply l_s in Ha. destruct Ha as [(c & Hc)|O]; [|isodd].
  assert (R : (hd_error (map tkind b) = None \/ hd_error (map tkind b) = Some SEMI) /\ good (rest_is L) b).
  { match type of Hb with GramLang.lang _ (GRep0 _ ?g) _ => change (star (lang g) b) in Hb end. clear - Hb. induction Hb as [|x y Hx _ (Hh & IH)]; [split; [left; reflexivity|left; eexists; constructor]|].
    apply or_in in Hx. destruct Hx as [Hx|[Hx|[]]].
    - apply seq_in in Hx. tokn Hx t Ht. elem Hx s Hs. fin Hx. split; [right; cbn; rewrite Ht; reflexivity|]. apply l_s in Hs. destruct Hs as [(c & Hc)|O]; [|isodd]. destruct IH as [(rc & Hr)|O]; [|isodd]. left. eexists. apply R_stmt; eassumption.
    - apply act_in in Hx. apply tok_in in Hx; [|discriminate]. destruct Hx as (t & -> & Ht). cbn [app]. split; [right; cbn; rewrite Ht; reflexivity|]. destruct IH as [(rc & Hr)|O]; [|isodd]. left. eexists. apply R_empty; eassumption. }
  destruct R as (_ & [(rc & Hr)|O]); [|isodd]. left. eexists. constructor; eassumption.
Qed.
Lemma l_code : forall id ts, lang (GRep01 id gdoc) ts -> good (opt_doc L) ts.
Proof. intros id ts [-> |H]; [left; eexists; constructor|]. apply l_doc in H. destruct H as [(c & Hc)|O]; [left; eexists; constructor; eassumption|right; exact O]. Qed.

(** ** Bodies *)
Lemma l_ifbody : forall ts, lang gifbody ts -> (exists b c, body_is L ts b c) \/ odd ts.
Proof.
  intros ts H. change (lang d_ifbody ts) in H. unfold d_ifbody, g_code in H. apply seq_in in H. tokn H t Ht. elem H b Hb. tokn H t2 Ht2. fin H. apply l_code in Hb. destruct Hb as [(c & Hc)|O]; [|isodd].
  left. do 2 eexists. apply BD; eassumption.
Qed.
Lemma l_fnbody : forall ts, lang gfnbody ts -> good (fnbody_is L) ts /\ exists a e, ts = a ++ [e] /\ tkind e = RBRACE.
Proof.
  intros ts H. change (lang d_fnbody ts) in H. unfold d_fnbody, g_code in H. apply seq_in in H. tokn H t Ht. elem H ns Hn. elem H ds Hd. tokn H t1 Ht1. tokn H t2 Ht2. elem H b Hb. tokn H t3 Ht3. fin H.
  split; [|exists (t :: ns ++ ds ++ t1 :: t2 :: b), t3; split; [cbn; rewrite <- !app_assoc; cbn; reflexivity|exact Ht3]].
  apply l_tok in Hd; [|discriminate]. destruct Hd as (d & Hd). apply l_code in Hb. destruct Hb as [(c & Hc)|O]; [|isodd].
  assert (N : exists names, opt_names ns names) by (apply l_names in Hn; destruct Hn as [(_ & ->)|(names & Hn)]; eexists; [apply ON_none|apply ON_some; exact Hn]). destruct N as (names & N).
  left. eexists. eapply FB; eassumption.
Qed.

(** ** for *)
Inductive semis : list (list token) -> list token -> Prop :=
| SJ_nil : semis [] []
| SJ_cons : forall t s ss r, tkind t = SEMI -> semis ss r -> semis (s :: ss) ((t :: s) ++ r).
Lemma semis_joined : forall ss r, semis ss r -> forall s, joined (s :: ss) (s ++ r).
Proof. induction 1 as [|t s' ss r Ht _ IH]; intro s; [rewrite app_nil_r; constructor|]. cbn [app]. apply J_more; [exact Ht|apply IH]. Qed.
Lemma semis_header : forall ss r, semis ss r -> Forall (fun s => exists c, stmt_is L s c) ss -> Forall plain_start ss -> exists hs, more_header L r hs.
Proof.
  induction 1 as [|t s ss r Ht _ IH]; intros H P; [eexists; constructor|]. inversion H as [|? ? (c & Hc) H']; subst. inversion P; subst. destruct (IH H') as (hs & Hh); [assumption|]. eexists. apply (MH_cons L t s c r hs); assumption.
Qed.
Lemma l_header : forall id ts, lang (GList id (GAct (GAnd [GNot (GTok 123); gs]) k__code) (GTok 59) true) ts ->
  (exists hs, header_is L ts hs) \/ odd ts \/ (exists ss, joined ss ts /\ Forall (fun s => exists c, stmt_is L s c) ss /\ Exists (fun s => hd_error (map tkind s) = Some RETURN) ss).
Proof.
  assert (It : forall ts, lang (GAct (GAnd [GNot (GTok 123); gs]) k__code) ts -> good (stmt_is L) ts /\ hd_error (map tkind ts) <> Some LBRACE).
  { intros ts H. apply act_in in H. apply seq_in in H. destruct H as (H1 & H). elem H a Ha. fin H. rewrite app_nil_r in H1. split; [apply l_s; exact Ha|exact H1]. }
  intros id ts [(_ & ->)|(a & b & -> & Ha & Hb)]; [left; eexists; constructor|]. apply It in Ha. destruct Ha as ([(c & Hc)|O] & Na); [|right; left; oddt].
  assert (R : odd b \/ exists ss, semis ss b /\ Forall (fun s => exists c, stmt_is L s c) ss /\ Forall (fun s => hd_error (map tkind s) <> Some LBRACE) ss).
  { clear - Hb It. induction Hb as [|x y (u & v & -> & Hu & Hv) _ IH]; [right; exists []; repeat constructor|]. apply tok_in in Hu; [|discriminate]. destruct Hu as (t & -> & Ht). apply It in Hv. destruct Hv as ([(c & Hc)|O] & Nv); [|left; oddt].
    destruct IH as [O|(ss & Hs & H1 & H2)]; [left; oddt|]. right. exists (v :: ss). split; [apply SJ_cons; assumption|]. split; constructor; eauto. }
  destruct R as [O|(ss & Hs & H1 & H2)]; [right; left; oddt|].
  assert (Dec : Exists (fun s => hd_error (map tkind s) = Some RETURN) (a :: ss) \/ Forall plain_start (a :: ss)).
  { assert (H3 : Forall (fun s => hd_error (map tkind s) <> Some LBRACE) (a :: ss)) by (constructor; assumption). clear - H3. induction H3 as [|s l Hl _ IH]; [right; constructor|]. destruct IH as [IH|IH]; [left; apply Exists_cons_tl; exact IH|].
    assert (D : hd_error (map tkind s) = Some RETURN \/ hd_error (map tkind s) <> Some RETURN) by (destruct (map tkind s) as [|k l']; [right; discriminate|destruct (Z.eq_dec k RETURN) as [->|N]; [left; reflexivity|right; intros [= E]; contradiction]]).
    destruct D as [D|D]; [left; apply Exists_cons_hd; exact D|right; constructor; [split; assumption|exact IH]]. }
  destruct Dec as [D|D].
  - right. right. exists (a :: ss). split; [apply semis_joined; exact Hs|]. split; [constructor; eauto|exact D].
  - left. inversion D; subst. destruct (semis_header ss b Hs H1) as (hs & Hh); [assumption|]. eexists. apply (H_some L a c b hs); assumption.
Qed.

(** ** The remaining parts *)
Lemma app_ne : forall (a b : list token), a <> [] -> a ++ b <> [].
Proof. intros [|x a] b H; [contradiction|discriminate]. Qed.
Lemma expr_ne : forall ts c, expr_is L ts c -> ts <> [].
Proof.
  intros ts c H. inversion H as [x1 c1 r1 rc1 H1 _]; subst. apply app_ne. inversion H1 as [x2 c2 r2 rc2 H2 _]; subst. apply app_ne. inversion H2 as [x3 c3 r3 rc3 H3 _]; subst. apply app_ne.
  inversion H3 as [x4 c4 r4 rc4 H4 _]; subst. apply app_ne. inversion H4 as [x5 c5 r5 rc5 H5 _]; subst. apply app_ne. inversion H5; subst; try discriminate. apply app_ne.
  match goal with B : base_is _ _ _ |- _ => inversion B; discriminate end.
Qed.
Lemma l_entry : forall ts, lang (GAnd [gexpr; GTok 58; gexpr]) ts -> (exists ks kc t vs vc, ts = ks ++ t :: vs /\ expr_is L ks kc /\ tkind t = COLON /\ expr_is L vs vc) \/ odd ts.
Proof.
  intros ts H. apply seq_in in H. elem H ks Hk. tokn H t Ht. elem H vs Hv. fin H. apply l_expr in Hk. destruct Hk as [(kc & Hk)|O]; [|isodd]. apply l_expr in Hv. destruct Hv as [(vc & Hv)|O]; [|isodd].
  left. exists ks, kc, t, vs, vc. auto.
Qed.
Lemma l_entries : forall id ts, lang (GList id (GAnd [gexpr; GTok 58; gexpr]) (GTok 44) true) ts -> goodn (entries_are L) ts.
Proof.
  intros id ts [(_ & ->)|(a & b & -> & Ha & Hb)]; [left; do 2 eexists; constructor|]. apply l_entry in Ha. destruct Ha as [(ks & kc & t & vs & vc & -> & Hk & Ht & Hv)|O]; [|isodd].
  assert (M : goodn (more_entries L) b).
  { clear - Hb. induction Hb as [|x y (u & v & -> & Hu & Hv) _ IH]; [left; do 2 eexists; constructor|]. apply tok_in in Hu; [|discriminate]. destruct Hu as (t & -> & Ht). apply l_entry in Hv. destruct Hv as [(ks & kc & t1 & vs & vc & -> & Hk & Ht1 & Hv)|O]; [|isodd].
    destruct IH as [(n & rc & Hr)|O]; [|isodd]. left. do 2 eexists. apply (ME_cons L t ks kc t1 vs vc); eassumption. }
  destruct M as [(n & rc & Hr)|O]; [|isodd]. left. do 2 eexists. apply (EN_some L ks kc t vs vc); eassumption.
Qed.
Lemma l_elifs : forall id ts, lang (GRep0 id g_elif) ts -> (exists br, elifs_are L ts br) \/ odd ts.
Proof.
  intros id ts H. change (star (lang g_elif) ts) in H. induction H as [|a b Ha _ IH]; [left; eexists; constructor|]. unfold g_elif in Ha. apply seq_in in Ha. tokn Ha t Ht. elem Ha c Hc. elem Ha x Hx. fin Ha.
  apply l_expr in Hc. destruct Hc as [(cc & Hc)|O]; [|isodd]. apply l_ifbody in Hx. destruct Hx as [(bs & bc & Hx)|O]; [|isodd]. destruct IH as [(br & Hr)|O]; [|isodd]. left. eexists. apply (EL_cons L t c cc x bs bc); eassumption.
Qed.
Lemma l_else : forall id ts, lang (GRep01 id (GAnd [GTok ELSE; gifbody])) ts -> (exists d, else_is L ts d) \/ odd ts.
Proof.
  intros id ts [-> |H]; [left; eexists; constructor|]. apply seq_in in H. tokn H t Ht. elem H x Hx. fin H. apply l_ifbody in Hx. destruct Hx as [(bs & bc & Hx)|O]; [|isodd]. left. eexists. apply (EE_some L t x bs bc); assumption.
Qed.
Lemma l_cases : forall id ts, lang (GRep0 id g_case) ts -> (exists br, cases_are L ts br) \/ odd ts.
Proof.
  intros id ts H. change (star (lang g_case) ts) in H. induction H as [|a b Ha _ IH]; [left; eexists; constructor|]. unfold g_case, g_code in Ha. apply seq_in in Ha. tokn Ha t Ht. bang Ha. elem Ha c Hc. tokn Ha t1 Ht1. elem Ha x Hx. fin Ha.
  apply l_expr in Hc. destruct Hc as [(cc & Hc)|O]; [|isodd]. apply l_code in Hx. destruct Hx as [(bc & Hx)|O]; [|isodd]. destruct IH as [(br & Hr)|O]; [|isodd]. left. eexists. apply (CS_cons L t c cc t1 x bc); eassumption.
Qed.
Lemma l_default : forall id ts, lang (GRep01 id g_default) ts -> (exists d, default_is L ts d) \/ odd ts.
Proof.
  intros id ts [-> |H]; [left; eexists; constructor|]. unfold g_default, g_code in H. apply seq_in in H. tokn H t Ht. bang H. tokn H t1 Ht1. elem H x Hx. fin H. apply l_code in Hx. destruct Hx as [(bc & Hx)|O]; [|isodd].
  left. eexists. apply (DF_some L t t1 x bc); assumption.
Qed.
Lemma l_swhead : forall id ts, lang (GRep01 id (GAnd [GNot (GTok 123); gexpr])) ts -> (hd_error (map tkind ts) <> Some LBRACE /\ exists c, opt_expr L ts c) \/ odd ts.
Proof.
  intros id ts [-> |H]; [left; split; [discriminate|eexists; constructor]|]. apply seq_in in H. destruct H as (H1 & H). elem H x Hx. fin H. rewrite app_nil_r in H1. apply l_expr in Hx. destruct Hx as [(c & Hc)|O]; [|isodd].
  left. split; [exact H1|]. eexists. apply OE_some. exact Hc.
Qed.
Lemma l_clsname : forall ts, lang gclsname ts -> exists c, clsname_is L ts c.
Proof.
  intros ts H. change (lang d_clsname ts) in H. unfold d_clsname in H. apply or_in in H. destruct H as [H|[H|[]]].
  - apply seq_in in H. tokn H t Ht. tokn H t1 Ht1. tokn H t2 Ht2. fin H. eexists. apply CN_paren; assumption.
  - acts H. apply tok_in in H; [|discriminate]. destruct H as (t & -> & Ht). eexists. apply CN_name. exact Ht.
Qed.
Lemma l_newargs : forall ts, lang gnewargs ts -> good (newargs_are L) ts.
Proof.
  intros ts H. change (lang d_newargs ts) in H. unfold d_newargs, g_args in H. acts H. destruct H as [-> |H]; [left; eexists; constructor|]. apply seq_in in H. tokn H t Ht. elem H e He. tokn H t2 Ht2. fin H.
  apply l_args in He. destruct He as [(n & c & Hc)|O]; [|isodd]. left. eexists. apply (NA_some L t e n c t2); assumption.
Qed.
Lemma l_methods : forall id ts, lang (GRep0 id gclassb) ts -> goodn (methods_are L) ts.
Proof.
  intros id ts H. change (star (lang gclassb) ts) in H. induction H as [|a b Ha _ IH]; [left; do 2 eexists; constructor|]. change (lang d_classb a) in Ha. unfold d_classb in Ha. apply seq_in in Ha. tokn Ha t Ht. bang Ha. tokn Ha tn Htn. elem Ha fb Hf. elem Ha sc0 Hs. fin Ha.
  apply l_fnbody in Hf. destruct Hf as ([(fc & Hf)|O] & _); [|isodd]. apply l_tok in Hs; [|discriminate]. destruct Hs as (k & Hs). destruct IH as [(n & rc & Hr)|O]; [|isodd]. left. do 2 eexists. apply (MS_cons L t tn fb fc sc0 k); eassumption.
Qed.

(** ** Calls, members and indices *)
Lemma last_cons : forall (t : token) x e, (t :: x ++ [e]) = (t :: x) ++ [e].
Proof. reflexivity. Qed.
Lemma l_atoms : forall id ts, lang (GRep0 id gatom) ts -> (exists c, atoms_are L ts c) \/ forall p, In (tkind p) ends_atom -> odd (p :: ts).
Proof.
  intros id ts H. change (star (lang gatom) ts) in H. induction H as [|a b Ha _ IH]; [left; eexists; constructor|].
  assert (Fut : forall x e, a = x ++ [e] -> In (tkind e) ends_atom -> (forall p, In (tkind p) ends_atom -> odd (p :: b)) -> forall p, In (tkind p) ends_atom -> odd (p :: a ++ b)).
  { intros x e -> He Ob p Hp. rewrite <- app_assoc. change (odd ((p :: x) ++ (e :: b))). apply odd_r, Ob, He. }
  change (lang d_atom a) in Ha. unfold d_atom in Ha. apply or_in in Ha. destruct Ha as [Ha|[Ha|[Ha|[]]]].
  - unfold g_call, g_args in Ha. apply seq_in in Ha. tokn Ha t Ht. elem Ha es He. elem Ha ds Hd. elem Ha cm Hc. tokn Ha t2 Ht2. fin Ha.
    apply l_args in He. destruct He as [(n & ec & He)|O]; [|right; intros p Hp; oddt]. apply l_tok in Hd; [|discriminate]. destruct Hd as (d & Hd). apply l_tok in Hc; [|discriminate]. destruct Hc as (m & Hc).
    destruct IH as [(rc & Hr)|Ob]; [left; eexists; apply (AT_call L t es n ec ds d cm m t2 b rc); assumption|].
    right. apply (Fut (t :: es ++ ds ++ cm) t2); [cbn; rewrite <- !app_assoc; reflexivity|rewrite Ht2; cbn; auto|exact Ob].
  - unfold g_mref in Ha. apply seq_in in Ha. tokn Ha t Ht. elem Ha x Hx. fin Ha.
    assert (M : exists t2, x = [t2] /\ In (tkind t2) member_kinds) by (apply or_in in Hx; destruct Hx as [Hx|[Hx|[Hx|[Hx|[Hx|[]]]]]]; (apply tok_in in Hx; [|discriminate]); destruct Hx as (t2 & -> & Ht2); exists t2; rewrite Ht2; cbn; auto 7).
    destruct M as (t2 & -> & Hm). destruct IH as [(rc & Hr)|Ob]; [left; eexists; apply (AT_member L t t2 b rc); assumption|].
    right. apply (Fut [t] t2); [reflexivity|cbn in Hm |- *; tauto|exact Ob].
  - unfold g_index in Ha. apply seq_in in Ha. tokn Ha t Ht. elem Ha i Hi. elem Ha cl Hc. elem Ha j Hj. tokn Ha t2 Ht2. fin Ha.
    assert (Fut2 : (forall p, In (tkind p) ends_atom -> odd (p :: b)) -> forall p, In (tkind p) ends_atom -> odd (p :: t :: (i ++ cl ++ j ++ [t2]) ++ b)).
    { apply (Fut (t :: i ++ cl ++ j) t2); [cbn; rewrite <- !app_assoc; reflexivity|rewrite Ht2; cbn; auto]. }
    apply l_tok in Hc; [|discriminate]. destruct Hc as (d & Hc).
    destruct Hc as [|t1 Ht1].
    + destruct Hi as [-> |Hi]; destruct Hj as [-> |Hj].
      * right. intros p Hp. left. exists [], p, t, [], nop, [], nop, t2, b. repeat split; try assumption; constructor.
      * apply l_expr in Hj. destruct Hj as [(jc & Hj)|O]; [|right; intros p Hp; cbn [app]; oddt]. destruct IH as [(rc & Hr)|Ob]; [left; eexists; cbn [app]; apply (AT_index L t j jc t2 b rc); assumption|right; exact (Fut2 Ob)].
      * apply l_expr in Hi. destruct Hi as [(ic & Hi)|O]; [|right; intros p Hp; oddt]. destruct IH as [(rc & Hr)|Ob]; [left; eexists; cbn [app]; apply (AT_index L t i ic t2 b rc); assumption|right; exact (Fut2 Ob)].
      * apply l_expr in Hi. destruct Hi as [(ic & Hi)|O]; [|right; intros p Hp; oddt]. apply l_expr in Hj. destruct Hj as [(jc & Hj)|O]; [|right; intros p Hp; cbn [app]; oddt].
        right. intros p Hp. left. exists [], p, t, i, ic, j, jc, t2, b. split; [cbn; rewrite <- !app_assoc; reflexivity|]. split; [exact Hp|]. split; [exact Ht|]. split; [apply OE_some; exact Hi|]. split; [apply OE_some; exact Hj|]. split; [exact Ht2|].
        apply expr_ne in Hi. apply expr_ne in Hj. tauto.
    + apply l_value in Hi. destruct Hi as [(n & ic & Hi)|O]; [|right; intros p Hp; oddt]. apply l_value in Hj. destruct Hj as [(m & jc & Hj)|O]; [|right; intros p Hp; cbn [app]; oddt].
      destruct IH as [(rc & Hr)|Ob]; [left; eexists; cbn [app]; apply (AT_range L t i n ic t1 j m jc t2 b rc); assumption|right; exact (Fut2 Ob)].
Qed.
Lemma l_base : forall ts, lang g_base ts -> good (base_is L) ts /\ exists x e, ts = x ++ [e] /\ In (tkind e) ends_atom.
Proof.
  intros ts H. unfold g_base in H. apply or_in in H. destruct H as [H|[H|[H|[H|[]]]]].
  - apply act_in in H. apply tok_in in H; [|discriminate]. destruct H as (t & -> & Ht). split; [left; eexists; apply B_name; exact Ht|]. exists [], t. split; [reflexivity|rewrite Ht; cbn; tauto].
  - unfold g_paren in H. apply seq_in in H. tokn H t Ht. bang H. elem H e He. tokn H t2 Ht2. fin H. split; [|exists (t :: e), t2; split; [reflexivity|rewrite Ht2; cbn; tauto]]. apply l_expr in He. destruct He as [(c & Hc)|O]; [|isodd]. left. eexists. apply B_paren; eassumption.
  - unfold g_fn in H. apply seq_in in H. tokn H t Ht. bang H. elem H f Hf. fin H. apply l_fnbody in Hf. destruct Hf as (Hf & x & e & -> & He). split; [|exists (t :: x), e; split; [reflexivity|rewrite He; cbn; tauto]]. destruct Hf as [(c & Hf)|O]; [|isodd]. left. eexists. apply B_fn; eassumption.
  - unfold g_slice, g_args in H. apply seq_in in H. tokn H t Ht. elem H es He. elem H cm Hc. tokn H t2 Ht2. fin H. split; [|exists (t :: es ++ cm), t2; split; [cbn; rewrite <- app_assoc; reflexivity|rewrite Ht2; cbn; tauto]].
    apply l_args in He. destruct He as [(n & ec & He)|O]; [|isodd]. apply l_tok in Hc; [|discriminate]. destruct Hc as (m & Hc). left. eexists. apply (B_slice L t es n ec cm m t2); assumption.
Qed.

(** ** Factors *)
Lemma l_d_factor : forall ts, lang d_factor ts -> good (factor_is L) ts.
Proof.
  intros ts H. unfold d_factor in H. apply or_in in H. destruct H as [H|[H|[H|[H|[H|[H|[H|[H|[H|[H|[H|[H|[H|[H|[H|[H|[]]]]]]]]]]]]]]]]].
  - apply act_in in H. apply tok_in in H; [|discriminate]. destruct H as (t & -> & Ht). left. eexists. apply F_int. exact Ht.
  - apply act_in in H. destruct H as (t & -> & [Ht|(Ht & _)]); left; eexists; [apply F_float; exact Ht|apply F_int; exact Ht].
  - apply act_in in H. apply tok_in in H; [|discriminate]. destruct H as (t & -> & Ht). left. eexists. apply F_string. exact Ht.
  - apply act_in in H. apply tok_in in H; [|discriminate]. destruct H as (t & -> & Ht). left. eexists. apply F_char. exact Ht.
  - apply seq_in in H. elem H x Hx. elem H y Hy. fin H. apply l_base in Hx. destruct Hx as (Hx & z & e & -> & He). apply l_atoms in Hy. destruct Hy as [(c' & Hy)|Ob].
    + destruct Hx as [(c & Hx)|O]; [|isodd]. left. eexists. apply F_base; eassumption.
    + right. rewrite <- app_assoc. apply odd_r. apply Ob. exact He.
  - unfold g_if in H. apply seq_in in H. tokn H t Ht. bang H. elem H c Hc. elem H b Hb. elem H el He. elem H es Hs. fin H. apply l_expr in Hc. destruct Hc as [(cc & Hc)|O]; [|isodd]. apply l_ifbody in Hb. destruct Hb as [(bs & bc & Hb)|O]; [|isodd].
    apply l_elifs in He. destruct He as [(br & He)|O]; [|isodd]. apply l_else in Hs. destruct Hs as [(d & Hs)|O]; [|isodd]. left. eexists. eapply F_if; eassumption.
  - unfold g_switch in H. apply seq_in in H. tokn H t Ht. bang H. elem H x Hx. tokn H t1 Ht1. elem H y Hy. change (lang d_swbody y) in Hy. unfold d_swbody in Hy. apply seq_in in Hy. elem Hy cs Hc. elem Hy df Hd. fin Hy. tokn H t2 Ht2. fin H.
    apply l_swhead in Hx. destruct Hx as [(Nx & xc & Hx)|O]; [|isodd]. apply l_cases in Hc. destruct Hc as [(br & Hc)|O]; [|isodd]. apply l_default in Hd. destruct Hd as [(dc & Hd)|O]; [|isodd]. left. eexists. rewrite <- app_assoc. eapply F_switch; eassumption.
  - unfold g_for, g_code in H. apply seq_in in H. tokn H t Ht. bang H. elem H hs Hh. tokn H t1 Ht1. elem H b Hb. tokn H t2 Ht2. fin H. apply l_header in Hh. apply l_code in Hb. destruct Hh as [(h & Hh)|[O|(ss & Hj & Hs & Hr)]]; [|isodd|].
    + destruct Hb as [(bc & Hb)|O]; [|isodd]. left. eexists. eapply F_for; eassumption.
    + right. right. exists [], t, hs, ss, t1, (b ++ [t2]). repeat split; assumption.
  - unfold g_new in H. apply seq_in in H. tokn H t Ht. bang H. elem H cn Hc. elem H ar Ha. fin H. apply l_clsname in Hc. destruct Hc as (cc & Hc). apply l_newargs in Ha. destruct Ha as [(ac & Ha)|O]; [|isodd]. left. eexists. eapply F_new; eassumption.
  - unfold g_class in H. apply seq_in in H. tokn H t Ht. bang H. tokn H t1 Ht1. elem H ms Hm. tokn H t2 Ht2. fin H. apply l_methods in Hm. destruct Hm as [(n & mc & Hm)|O]; [|isodd]. left. eexists. eapply F_class; eassumption.
  - unfold g_recover in H. apply seq_in in H. tokn H t Ht. tokn H t1 Ht1. tokn H t2 Ht2. fin H. left. eexists. apply F_recover; assumption.
  - unfold g_main, g_code in H. apply seq_in in H. tokn H t Ht. tokn H t1 Ht1. elem H b Hb. tokn H t2 Ht2. fin H. apply l_code in Hb. destruct Hb as [(bc & Hb)|O]; [|isodd]. left. eexists. eapply F_main; eassumption.
  - unfold g_map in H. apply seq_in in H. tokn H t Ht. bang H. elem H es He. elem H cm Hc. tokn H t2 Ht2. fin H. apply l_entries in He. destruct He as [(n & ec & He)|O]; [|isodd]. apply l_tok in Hc; [|discriminate]. destruct Hc as (m & Hc). left. eexists. eapply F_map; eassumption.
  - apply seq_in in H. tokn H t Ht. elem H f Hf. fin H. apply l_factor in Hf. destruct Hf as [(c & Hf)|O]; [|isodd]. left. eexists. apply F_not; eassumption.
  - apply seq_in in H. tokn H t Ht. elem H f Hf. fin H. apply l_factor in Hf. destruct Hf as [(c & Hf)|O]; [|isodd]. left. eexists. apply F_neg; eassumption.
  - apply seq_in in H. tokn H t Ht. elem H f Hf. fin H. apply l_factor in Hf. destruct Hf as [(c & Hf)|O]; [|isodd]. left. eexists. apply F_pos; eassumption.
Qed.
End Conv.
