(** Expressions are evaluated to their values (Property C75). *)
From Coq Require Import String SpecFloat.
From Verif Require Import Base Token Grammar Compiler Interp QValue Qlang QlangSpec QlangTop QText QTidy QExpr QEval PropVars.
Local Open Scope Z_scope.

Section ExprP.
Context {W : Type}.
Variable L : qlib W.
Notation St := (est nat value (@rest W)).
Notation ev := (QlangTop.ev L).
Notation sem := (@sem W).
Infix ">>" := seq (at level 60, right associativity).

Lemma same_refl : forall s : St, same_defs s s.
Proof. intro s. unfold same_defs. repeat split; auto; apply H. Qed.
Lemma same_trans : forall s1 s2 s3 : St, same_defs s1 s2 -> same_defs s2 s3 -> same_defs s1 s3.
Proof.
  intros s1 s2 s3 (A1 & A2 & A3 & A4 & A5 & A6 & A7 & A8 & A9 & A10) (B1 & B2 & B3 & B4 & B5 & B6 & B7 & B8 & B9 & B10).
  split; [intros n i v; rewrite B1; apply A1|]. split.
  - intro i. destruct (A2 i) as (a & b & c & d & e). destruct (B2 i) as (a' & b' & c' & d' & e'). repeat split; congruence.
  - repeat split; congruence.
Qed.
Lemma same_kept : forall p (s s' : St) l, same_defs s s' -> kept p s (set_stk (l ++ e_stk s) s').
Proof.
  intros p s s' l (A1 & A2 & A3 & A4 & A5 & A6 & A7 & A8 & A9 & A10). split; [exact A1|]. split; [intro i; destruct (A2 i) as (a & b & c & d & e); auto|]. split; [intro i; left; apply (A2 i)|]. split; [exists l; reflexivity|].
  repeat split; assumption.
Qed.
Lemma same_kept0 : forall p (s s' : St), same_defs s s' -> kept p s s'.
Proof. intros p s s' H. pose proof (same_kept p s s' [] H) as K. destruct H as (_ & _ & _ & E & _). cbn [app] in K. rewrite <- E in K. destruct s'; exact K. Qed.
Lemma kept_after : forall p (s s1 s2 : St) l, same_defs s s1 -> kept p (set_stk (l ++ e_stk s) s1) s2 -> kept p s s2.
Proof.
  intros p s s1 s2 l (A1 & A2 & A3 & A4 & A5 & A6 & A7 & A8 & A9 & A10) (B1 & B2 & B3 & (l' & B4) & B5 & B6 & B7 & B8 & B9 & B10 & B11).
  split; [intros n i v; rewrite B1; apply A1|]. split; [intro i; destruct (A2 i) as (a & b & c & d & e); destruct (B2 i) as (a' & b' & c' & d'); repeat split; etransitivity; eassumption|].
  split; [intro i; destruct (B3 i) as [E|E]; [left; rewrite E; apply (A2 i)|right; destruct E as (-> & E); split; [reflexivity|]; cbn in E; rewrite app_length in E; lia]|].
  split; [exists (l' ++ l); rewrite B4; cbn; apply app_assoc|]. repeat split; etransitivity; eassumption.
Qed.
(** the value depends on the definitions only *)
Lemma value_same : forall s s' : St, (forall n i v, defines s' n i v <-> defines s n i v) -> (forall i, parent i s' = parent i s) ->
  forall p e o, has_value L s p e o -> has_value L s' p e o.
Proof.
  intros s s' D P p e o H. assert (S : forall n q v, sees s n p q v <-> sees s' n p q v).
  { intros n q v. split; apply sees_same; auto. intros. symmetry. apply D. }
  induction H; try (econstructor; eauto; fail).
  - eapply v_var; [assumption|]. apply S. eassumption.
  - apply v_builtin; auto. intros q u Hu. apply (H1 q u). apply S. exact Hu.
  - apply v_unknown; auto. intros q u Hu. apply (H1 q u). apply S. exact Hu.
  - apply v_noname. intros q u Hu. apply (H q u). apply S. exact Hu.
Qed.
Lemma value_same_defs : forall s s' : St, same_defs s s' -> forall l p e o, has_value L s p e o -> has_value L (set_stk l s') p e o.
Proof. intros s s' (D & F & _) l p e o. apply value_same; [exact D|]. intro i. apply (F i). Qed.
Lemma wrap_wrap : forall src src' q, wrap src' (wrap src (PUser q)) = (wrap src (PUser q) : panicq).
Proof. intros src src' []; reflexivity. Qed.

Definition good (p : nat) (s : St) : Prop := coherent s /\ (p < nframes s)%nat.
(** a meaning that gives the value of [e] *)
Definition means (c : sem) (e : ex) : Prop := exists N, forall n p s o, (N <= n)%nat -> good p s -> has_value L s p e o -> gave p s o (c (ev n) n p s).
Definition level_is (l : nat) (ts : list token) (c : sem) : Prop :=
  match l with 0%nat => factor_is L ts c | 1%nat => term1_is L ts c | 2%nat => term2_is L ts c | 3%nat => term3_is L ts c | 4%nat => term4_is L ts c | 5%nat => expr_is L ts c | _ => False end.
Definition alike (c c' : sem) : Prop := forall ev k p s, c ev k p s = c' ev k p s.
Lemma means_alike : forall c c' e, alike c' c -> means c e -> means c' e.
Proof. intros c c' e A (N & H). exists N. intros. rewrite A. auto. Qed.

Lemma gave_blame : forall ts p s o (r : @Q W unit), gave p s o (r s) -> gave p s o (blame ts r s).
Proof.
  intros ts p s [v|q] r H; unfold blame.
  - destruct H as (s' & -> & H). exists s'. auto.
  - destruct H as (src & s' & -> & H). exists src, s'. rewrite wrap_wrap. auto.
Qed.

Lemma means_lit : forall t v, literal L t v -> exists c, factor_is L [t] c /\ means c (XLit v).
Proof.
  intros t v H. assert (G : forall m : @Q W unit, (forall s, m s = inl (tt, pushed v s)) -> means (fun _ _ _ => blame [t] m) (XLit v)).
  { intros m Hm. exists 0%nat. intros n p s o _ (Hc & _) Hv. inversion Hv; subst. apply gave_blame. exists s. split; [apply Hm|]. split; [apply same_refl|exact Hc]. }
  destruct H as [t z K E|t f K E|t b K E|t q c z K E E'].
  - eexists. split; [apply F_int; exact K|]. apply G. intro s. unfold int_lit. rewrite E. reflexivity.
  - eexists. split; [apply F_float; exact K|]. apply G. intro s. unfold float_lit. rewrite E. reflexivity.
  - eexists. split; [apply F_string; exact K|]. apply G. intro s. unfold PushString. rewrite E. reflexivity.
  - eexists. split; [apply F_char; exact K|]. apply G. intro s. unfold PushByte. rewrite E. cbn [length]. rewrite app_length. cbn [length]. replace (S (length c + 1) <? 2)%nat with false by (symmetry; apply Nat.ltb_ge; lia).
    replace (firstn (S (length c + 1) - 2) (skipn 1 (q :: c ++ [q]))) with c; [rewrite E'; reflexivity|]. cbn [skipn]. replace (S (length c + 1) - 2)%nat with (length c) by lia. rewrite firstn_app, Nat.sub_diag, firstn_all, app_nil_r. reflexivity.
Qed.
Lemma means_ref : forall t, means (fun _ _ p => blame [t] (Ref L p (tlit t))) (XVar (tlit t)).
Proof.
  intro t. exists 0%nat. intros n p s o _ (Hc & Hp) Hv.
  generalize dependent (tlit t). intros x Hv. inversion Hv; subst; unfold Ref, bind.
  - destruct (C57_read L p x s q v Hc H0 H1) as (s' & E & Hs & Hc' & _). apply gave_blame. rewrite E. exists s'. auto.
  - apply gave_blame. rewrite (C57_read_builtin L p x s Hc H0 H1 H2), H3. exists s. split; [reflexivity|]. split; [apply same_refl|exact Hc].
  - unfold blame. rewrite (C57_read_builtin L p x s Hc H0 H1 H2), H3. exists [t], s. split; [reflexivity|]. split; [apply same_kept0, same_refl|exact Hc].
  - apply gave_blame. exists s. split; [reflexivity|]. split; [apply same_refl|exact Hc].
  - unfold blame, getRef. assert (E : var_of p [] s = None).
    { destruct (var_of p [] s) as [u|] eqn:E; [|reflexivity]. exfalso. destruct (plain_dec u) as [D|(q & ->)]; [eapply H0; apply sees_own; split; eassumption|]. destruct (proj2 Hc _ _ _ E) as (v & S). exact (H0 _ _ S). }
    cbn [beq n_unset]. rewrite E. cbn [inherits]. exists [t], s. split; [reflexivity|]. split; [apply same_kept0, same_refl|exact Hc].
Qed.
Lemma means_var : forall t, tkind t = IDENT -> exists c, factor_is L [t] c /\ means c (XVar (tlit t)).
Proof.
  intros t K. exists ((fun _ _ p => blame [t] (Ref L p (tlit t))) >> nop). split; [apply (F_base L [t] _ [] nop); [apply B_name; exact K|apply AT_nil]|].
  destruct (means_ref t) as (N & M). exists N. intros n p s o Hn Hg Hv. specialize (M n p s o Hn Hg Hv). unfold seq, bind, nop, ret.
  destruct o as [v|q]; [destruct M as (s' & -> & G); exists s'; auto|destruct M as (src & s' & -> & G); exists src, s'; auto].
Qed.
(** evaluation of one after another *)
Lemma good_stk : forall p l s, good p s -> good p (set_stk l s).
Proof. intros p l s (A & B). split; [apply coherent_stk; exact A|exact B]. Qed.
Lemma good_same : forall p s s', good p s -> same_defs s s' -> coherent s' -> good p s'.
Proof. intros p s s' (_ & B) S C. split; [exact C|]. destruct S as (_ & _ & E & _). rewrite E. exact B. Qed.
Lemma same_stk : forall (s s' : St), same_defs s s' -> forall l, e_stk s' = e_stk s -> same_defs (set_stk l s) (set_stk l s').
Proof. intros s s' (A1 & A2 & A3 & A4 & A5 & A6 & A7 & A8 & A9 & A10) l _. split; [exact A1|]. split; [exact A2|]. repeat split; assumption. Qed.
Lemma stk_stk : forall l l' (s : St), set_stk l (set_stk l' s) = set_stk l s.
Proof. reflexivity. Qed.
Lemma stk_self : forall s : St, set_stk (e_stk s) s = s.
Proof. intros []. reflexivity. Qed.
Lemma same_back : forall (s s1 s2 : St) v, same_defs s s1 -> same_defs (pushed v s1) s2 -> same_defs s (set_stk (e_stk s) s2).
Proof.
  intros s s1 s2 v S1 S2. assert (E1 : e_stk s1 = e_stk s) by apply S1.
  pose proof (same_stk _ _ S2 (e_stk s) (proj1 (proj2 (proj2 (proj2 S2))))) as S3. unfold pushed in S3. rewrite stk_stk in S3. rewrite <- E1 in S3 at 1. rewrite stk_self in S3. eapply same_trans; eassumption.
Qed.

Ltac pick a H := match goal with X : has_value _ _ _ a _ |- _ => rename X into H end.
Lemma means_un : forall c e ts m f, means c e -> means (c >> (fun _ _ _ => blame ts (unary m f))) (XUn f e).
Proof.
  intros c e ts m f (N & H). exists N. intros n p s o Hn Hg Hv. unfold seq, bind. inversion Hv; subst; pick e He.
  - destruct (H n p s _ Hn Hg He) as (s1 & -> & S1 & C1). unfold unary, blame. cbn [pushed e_stk set_stk]. unfold bind, of_op. destruct (f v) as [w|q]; cbn.
    + exists s1. split; [|auto]. unfold push, modify. cbn. destruct s1; reflexivity.
    + exists ts, s1. split; [unfold pushed; rewrite stk_stk, stk_self; reflexivity|]. split; [apply same_kept0; exact S1|exact C1].
  - destruct (H n p s _ Hn Hg He) as (src & s1 & -> & K). exists src, s1. auto.
Qed.
Lemma means_bin : forall c e c' e' ts m f, means c e -> means c' e' -> means (c >> (c' >> (fun _ _ _ => blame ts (binary m f)))) (XBin f e e').
Proof.
  intros c e c' e' ts m f (N & H) (N' & H'). exists (N + N')%nat. intros n p s o Hn Hg Hv. unfold seq, bind. inversion Hv; subst; pick e He; try pick e' He'.
  - destruct (H n p s _ ltac:(lia) Hg He) as (s1 & -> & S1 & C1). pose proof (good_same _ _ _ Hg S1 C1) as G1.
    destruct (H' n p (pushed v s1) _ ltac:(lia) (good_stk _ _ _ G1) (value_same_defs _ _ S1 _ _ _ _ He')) as (s2 & -> & S2 & C2).
    assert (E2 : e_stk s2 = v :: e_stk s) by (destruct S2 as (_ & _ & _ & -> & _); cbn; f_equal; apply S1).
    unfold binary, blame. cbn [pushed e_stk set_stk]. rewrite E2. unfold bind, of_op. destruct (f v w) as [x|q]; cbn.
    + exists (set_stk (e_stk s) s2). split; [reflexivity|]. split; [eapply same_back; eassumption|apply coherent_stk; exact C2].
    + exists ts, (set_stk (e_stk s) s2). split; [unfold pushed; rewrite stk_stk; reflexivity|]. split; [apply same_kept0; exact (same_back _ _ _ _ S1 S2)|apply coherent_stk; exact C2].
  - destruct (H n p s _ ltac:(lia) Hg He) as (src & s1 & -> & K). exists src, s1. auto.
  - destruct (H n p s _ ltac:(lia) Hg He) as (s1 & -> & S1 & C1). pose proof (good_same _ _ _ Hg S1 C1) as G1.
    destruct (H' n p (pushed v s1) _ ltac:(lia) (good_stk _ _ _ G1) (value_same_defs _ _ S1 _ _ _ _ He')) as (src & s2 & -> & K & C2). exists src, s2. split; [reflexivity|]. split; [|exact C2].
    apply (kept_after p s s1 s2 [v] S1). replace ([v] ++ e_stk s) with (v :: e_stk s1); [exact K|]. cbn. f_equal. apply S1.
Qed.
(** the right operand of && and || *)
Lemma coherent_like : forall s s' : St, (forall i, fr_vars (getf i s') = fr_vars (getf i s)) -> (forall i, parent i s' = parent i s) -> coherent s -> coherent s'.
Proof.
  intros s s' V P (C1 & C2). assert (D : forall n i v, defines s' n i v <-> defines s n i v) by (intros n i v; unfold defines, var_of; rewrite V; reflexivity).
  split; [intros i j; rewrite P; apply C1|]. intros i n q H. unfold var_of in H. rewrite V in H. destruct (C2 i n q H) as (v & S). exists v. revert S. apply sees_same; auto.
Qed.
Lemma getf_base : forall p b (s : St) i, fr_vars (getf i (updf p (set_base b) s)) = fr_vars (getf i s) /\ parent i (updf p (set_base b) s) = parent i s /\
  fr_ret (getf i (updf p (set_base b) s)) = fr_ret (getf i s) /\ fr_recov (getf i (updf p (set_base b) s)) = fr_recov (getf i s) /\ fr_defers (getf i (updf p (set_base b) s)) = fr_defers (getf i s) /\
  fr_base (getf i (updf p (set_base b) s)) = if (i =? p)%nat && (p <? nframes s)%nat then b else fr_base (getf i s).
Proof. intros p b s i. unfold parent. rewrite getf_updf. destruct (Nat.eqb_spec i p) as [->|]; destruct (_ <? _)%nat; cbn; repeat split. Qed.
Lemma gave_code : forall rule ts c e, text_is L rule ts c -> means c e -> exists N, forall n p s o, (N <= n)%nat -> good p s -> has_value L s p e o -> gave p s o (evalCode (ev n) p rule (VCode ts) s).
Proof.
  intros rule ts c e Ht (N & H). destruct (eval_text L rule ts c Ht) as (N' & E). exists (S (N + N')). intros n p s o Hn (Hc & Hp) Hv. destruct n as [|n]; [lia|].
  unfold evalCode, bind, depth, modify, gets. set (s1 := updf p (set_base (length (e_stk s))) s). rewrite (E n p s1) by lia. unfold evaluated. set (s2 := set_mute 0 (set_ipt p s1)).
  assert (V2 : forall i, fr_vars (getf i s2) = fr_vars (getf i s)) by (intro i; apply (getf_base p (length (e_stk s)) s i)).
  assert (P2 : forall i, parent i s2 = parent i s) by (intro i; apply (getf_base p (length (e_stk s)) s i)).
  assert (D2 : forall n i v, defines s2 n i v <-> defines s n i v) by (intros m i v; unfold defines, var_of; rewrite V2; reflexivity).
  pose proof (value_same s s2 D2 P2 p e o Hv) as Hv2.
  assert (N2 : nframes s2 = nframes s) by (apply (nframes_updf p (set_base (length (e_stk s))) s)).
  assert (G2 : good p s2) by (split; [apply (coherent_like s s2 V2 P2 Hc)|rewrite N2; exact Hp]).
  specialize (H n p s2 o ltac:(lia) G2 Hv2). destruct o as [v|q].
  - destruct H as (s3 & -> & S3 & C3). destruct S3 as (B1 & B2 & B3 & B4 & B5 & B6 & B7 & B8 & B9 & B10).
    set (s4 := aside s1 (pushed v s3)). exists (set_stk (e_stk s) (updf p (set_base (fr_base (getf p s))) s4)). split; [|split].
    + unfold ret, pushed. cbn [e_stk set_stk updf with_frames]. rewrite stk_stk. f_equal. f_equal. unfold s4, aside, pushed, updf, with_frames. cbn. rewrite B4. reflexivity.
    + pose proof (fun i => getf_base p (fr_base (getf p s)) s4 i) as K. pose proof (fun i => getf_base p (length (e_stk s)) s i) as K0. fold s1 in K0. split; [|split].
      * intros m i u. change (defines (set_stk ?l ?x) m i u) with (defines x m i u). rewrite <- D2, <- B1. unfold defines, var_of. rewrite (proj1 (K i)). reflexivity.
      * intro i. change (getf i (set_stk ?l ?x)) with (getf i x). change (parent i (set_stk ?l ?x)) with (parent i x). destruct (K i) as (_ & k1 & k2 & k3 & k4 & k5). destruct (K0 i) as (_ & j1 & j2 & j3 & j4 & j5).
        rewrite k1, k2, k3, k4, k5. change (getf i s4) with (getf i s3). change (parent i s4) with (parent i s3). destruct (B2 i) as (b1 & b2 & b3 & b4 & b5). rewrite b1, b2, b3, b4, b5.
        change (getf i s2) with (getf i s1). change (parent i s2) with (parent i s1). rewrite j1, j2, j3, j4, j5. change (nframes s4) with (nframes s3). rewrite B3, N2. repeat split.
        rewrite (proj2 (Nat.ltb_lt _ _) Hp). destruct (Nat.eqb_spec i p) as [->|]; reflexivity.
      * split; [rewrite <- N2, <- B3; apply (nframes_updf p (set_base (fr_base (getf p s))) s4)|]. repeat split; cbn; assumption || reflexivity.
    + apply coherent_stk. apply (coherent_like s3); [intro i; apply (getf_base p (fr_base (getf p s)) s4 i)|intro i; apply (getf_base p (fr_base (getf p s)) s4 i)|exact C3].
  - destruct H as (src & s3 & -> & (B1 & B2 & B2' & B3 & B4 & B5 & B6 & B7 & B8 & B9 & B10) & C3). set (s4 := aside s1 s3). exists src, s4. split; [reflexivity|]. split.
    + pose proof (fun i => getf_base p (length (e_stk s)) s i) as K0. fold s1 in K0. split; [|split; [|split; [|split]]].
      * intros m i u. rewrite <- D2, <- B1. reflexivity.
      * intro i. change (getf i s4) with (getf i s3). change (parent i s4) with (parent i s3). destruct (K0 i) as (_ & j1 & j2 & j3 & j4 & j5). destruct (B2 i) as (b1 & b2 & b3 & b4). rewrite b1, b2, b3, b4.
        change (getf i s2) with (getf i s1). change (parent i s2) with (parent i s1). rewrite j1, j2, j3, j4. auto.
      * intro i. change (getf i s4) with (getf i s3). change (e_stk s4) with (e_stk s3). destruct (B2' i) as [E'|E']; [|right; exact E']. rewrite E'. change (getf i s2) with (getf i s1). destruct (K0 i) as (_ & _ & _ & _ & _ & j5). rewrite j5.
        destruct (_ && _)%bool eqn:Eip; [right; split; [apply Bool.andb_true_iff in Eip; apply Nat.eqb_eq, Eip|]|left; reflexivity]. destruct B3 as (l & ->). rewrite app_length. change (e_stk s2) with (e_stk s). lia.
      * exact B3.
      * split; [change (nframes s4) with (nframes s3); rewrite B4; exact N2|]. repeat split; cbn; assumption || reflexivity.
    + apply (coherent_like s3); auto.
Qed.
Lemma means_lazy : forall stop rule m ts c a c' b ts' mk, (mk = XAnd /\ stop = false /\ m = m_and) \/ (mk = XOr /\ stop = true /\ m = m_or) ->
  means c a -> text_is L rule ts' c' -> means c' b -> means (c >> (fun ev k p => blame ts (lazy_op stop rule m ts' ev k p))) (mk a b).
Proof.
  intros stop rule m ts c a c' b ts' mk Hm (N & H) Ht Hb. destruct (gave_code _ _ _ _ Ht Hb) as (N' & H'). exists (N + N')%nat. intros n p s o Hn Hg Hv. unfold seq, bind.
  assert (X : (exists q, o = inr q /\ has_value L s p a (inr q)) \/ (exists x, has_value L s p a (inl x) /\
     ((x = VBool stop /\ o = inl (VBool stop)) \/ (x = VBool (negb stop) /\ has_value L s p b o) \/ ((forall y, x <> VBool y) /\ o = inr (msg m []))))).
  { destruct Hm as [(-> & -> & ->)|(-> & -> & ->)]; inversion Hv; subst; eauto 10. }
  destruct X as [(q & -> & Ha)|(x & Ha & X)].
  - destruct (H n p s _ ltac:(lia) Hg Ha) as (src & s1 & -> & K). exists src, s1. auto.
  - destruct (H n p s _ ltac:(lia) Hg Ha) as (s1 & -> & S1 & C1). pose proof (good_same _ _ _ Hg S1 C1) as G1.
    assert (E : forall k, lazy_op stop rule m ts' (ev n) k p (pushed x s1) = match x with VBool b => if Bool.eqb b stop then inl (tt, pushed (VBool stop) s1) else evalCode (ev n) p rule (VCode ts') s1 | _ => inr (PUser (msg m []), s1) end).
    { intro k. unfold lazy_op, pop_any, pop, bind, ret, pushed. cbn. rewrite stk_stk, stk_self. destruct x; try reflexivity. destruct (Bool.eqb b0 stop); reflexivity. }
    unfold blame. rewrite E. destruct X as [(-> & ->)|[(-> & Hb2)|(Hx & ->)]].
    + rewrite Bool.eqb_reflx. exists s1. auto.
    + replace (Bool.eqb (negb stop) stop) with false by (destruct stop; reflexivity).
      assert (Hb3 : has_value L s1 p b o) by (rewrite <- (stk_self s1); apply (value_same_defs s s1 S1); exact Hb2).
      pose proof (H' n p s1 o ltac:(lia) G1 Hb3) as R. destruct o as [v|q].
      * destruct R as (s2 & -> & S2 & C2). exists s2. split; [reflexivity|]. split; [eapply same_trans; eassumption|exact C2].
      * destruct R as (src & s2 & -> & K & C2). exists src, s2. rewrite wrap_wrap. split; [reflexivity|]. split; [|exact C2].
        apply (kept_after p s s1 s2 [] S1). cbn [app]. replace (e_stk s) with (e_stk s1) by apply S1. rewrite stk_self. exact K.
    + destruct x; try (exists ts, s1; split; [reflexivity|]; split; [apply same_kept0; exact S1|exact C1]). exfalso. eapply Hx. reflexivity.
Qed.

(** a further operand *)
Lemma alike_refl : forall c, alike c c.
Proof. intros c ev k p s. reflexivity. Qed.
Lemma alike_snoc : forall a r r' d, alike r' (r >> d) -> alike (a >> r') ((a >> r) >> d).
Proof. intros a r r' d H ev k p s. unfold seq, bind. destruct (a ev k p s) as [(y, s1)|]; [|reflexivity]. rewrite H. reflexivity. Qed.
Lemma alike_nil : forall d, alike (d >> nop) (nop >> d).
Proof. intros d ev k p s. unfold seq, bind, nop, ret. destruct (d ev k p s) as [([], s1)|]; reflexivity. Qed.
Lemma snoc1 : forall r rc, ops1_are L r rc -> forall t m f ts c, In (tkind t, m, f) level1 -> factor_is L ts c -> exists rc', ops1_are L (r ++ t :: ts) rc' /\ alike rc' (rc >> (c >> (fun _ _ _ => blame ts (binary m f)))).
Proof.
  fix IH 3. intros r rc [|t0 m0 f0 ts0 c0 r0 rc0 Hi H0 Hr] t m f ts c Hin Hc.
  - eexists. split; [cbn [app]; rewrite <- (app_nil_r (t :: ts)); apply O1_op; [exact Hin|exact Hc|apply O1_nil]|apply alike_nil].
  - destruct (IH _ _ Hr t m f ts c Hin Hc) as (rc' & A & B). eexists. split; [rewrite <- app_assoc; apply O1_op; [exact Hi|exact H0|exact A]|apply alike_snoc; exact B].
Qed.
Lemma snoc2 : forall r rc, ops2_are L r rc -> forall t m f ts c, In (tkind t, m, f) level2 -> term1_is L ts c -> exists rc', ops2_are L (r ++ t :: ts) rc' /\ alike rc' (rc >> (c >> (fun _ _ _ => blame ts (binary m f)))).
Proof.
  fix IH 3. intros r rc [|t0 m0 f0 ts0 c0 r0 rc0 Hi H0 Hr] t m f ts c Hin Hc.
  - eexists. split; [cbn [app]; rewrite <- (app_nil_r (t :: ts)); apply O2_op; [exact Hin|exact Hc|apply O2_nil]|apply alike_nil].
  - destruct (IH _ _ Hr t m f ts c Hin Hc) as (rc' & A & B). eexists. split; [rewrite <- app_assoc; apply O2_op; [exact Hi|exact H0|exact A]|apply alike_snoc; exact B].
Qed.
Lemma snoc3 : forall r rc, ops3_are L r rc -> forall t m f ts c, In (tkind t, m, f) (level3 L) -> term2_is L ts c -> exists rc', ops3_are L (r ++ t :: ts) rc' /\ alike rc' (rc >> (c >> (fun _ _ _ => blame ts (binary m f)))).
Proof.
  fix IH 3. intros r rc [|t0 m0 f0 ts0 c0 r0 rc0 Hi H0 Hr] t m f ts c Hin Hc.
  - eexists. split; [cbn [app]; rewrite <- (app_nil_r (t :: ts)); apply O3_op; [exact Hin|exact Hc|apply O3_nil]|apply alike_nil].
  - destruct (IH _ _ Hr t m f ts c Hin Hc) as (rc' & A & B). eexists. split; [rewrite <- app_assoc; apply O3_op; [exact Hi|exact H0|exact A]|apply alike_snoc; exact B].
Qed.
Lemma snoc4 : forall r rc, ops4_are L r rc -> forall t ts c, tkind t = ANDAND -> term3_is L ts c -> exists rc', ops4_are L (r ++ t :: ts) rc' /\ alike rc' (rc >> (fun ev k p => blame ts (lazy_op false n_term3 m_and ts ev k p))).
Proof.
  fix IH 3. intros r rc [|t0 ts0 c0 r0 rc0 Hi H0 Hr] t ts c Hin Hc.
  - eexists. split; [cbn [app]; rewrite <- (app_nil_r (t :: ts)); eapply O4_op; [exact Hin|exact Hc|apply O4_nil]|apply alike_nil].
  - destruct (IH _ _ Hr t ts c Hin Hc) as (rc' & A & B). eexists. split; [rewrite <- app_assoc; eapply O4_op; [exact Hi|exact H0|exact A]|apply alike_snoc; exact B].
Qed.
Lemma snoc5 : forall r rc, ops5_are L r rc -> forall t ts c, tkind t = OROR -> term4_is L ts c -> exists rc', ops5_are L (r ++ t :: ts) rc' /\ alike rc' (rc >> (fun ev k p => blame ts (lazy_op true n_term4 m_or ts ev k p))).
Proof.
  fix IH 3. intros r rc [|t0 ts0 c0 r0 rc0 Hi H0 Hr] t ts c Hin Hc.
  - eexists. split; [cbn [app]; rewrite <- (app_nil_r (t :: ts)); eapply O5_op; [exact Hin|exact Hc|apply O5_nil]|apply alike_nil].
  - destruct (IH _ _ Hr t ts c Hin Hc) as (rc' & A & B). eexists. split; [rewrite <- app_assoc; eapply O5_op; [exact Hi|exact H0|exact A]|apply alike_snoc; exact B].
Qed.

Lemma written_means : forall l e ts, written L l e ts -> exists c, level_is l ts c /\ means c e.
Proof.
  intros l e ts H. induction H as [t v Hl|t K|t e ts t' K H IH K'|t e ts K H IH|t e ts K H IH|t e ts K H IH|l t f a ts b ts' Ho Ha IHa Hb IHb|t a ts b ts' K Ha IHa Hb IHb|t a ts b ts' K Ha IHa Hb IHb|l e ts Hl H IH].
  - apply means_lit. exact Hl.
  - apply means_var. exact K.
  - destruct IH as (c & A & B). exists (c >> nop). split.
    + cbn. rewrite <- (app_nil_r (t :: ts ++ [t'])). apply F_base; [apply B_paren; assumption|apply AT_nil].
    + eapply means_alike; [|exact B]. intros ev k p s. unfold seq, bind, nop, ret. destruct (c ev k p s) as [([], s1)|]; reflexivity.
  - destruct IH as (c & A & B). eexists. split; [apply F_not; [exact K|exact A]|apply means_un; exact B].
  - destruct IH as (c & A & B). eexists. split; [apply F_neg; [exact K|exact A]|apply means_un; exact B].
  - destruct IH as (c & A & B). eexists. split; [apply F_pos; [exact K|exact A]|exact B].
  - destruct IHa as (c & A & Ma). destruct IHb as (c' & B & Mb).
    assert (X : exists m, match l with 0%nat => In (tkind t, m, f) level1 | 1%nat => In (tkind t, m, f) level2 | 2%nat => In (tkind t, m, f) (level3 L) | _ => False end).
    { remember (S l) as k eqn:Ek. remember (tkind t) as kd eqn:Ekd. clear -Ho Ek. destruct Ho; injection Ek as <-; eexists; cbn; eauto 10. }
    destruct X as (m & X). destruct l as [|[|[|l]]]; [..|destruct X]; cbn [level_is] in A, B; inversion A; subst; rewrite <- app_assoc.
    + destruct (snoc1 _ _ H0 t m f ts' c' X B) as (rc' & R & E). eexists. split; [apply T1; [exact H|exact R]|]. eapply means_alike; [apply alike_snoc; exact E|]. apply means_bin; assumption.
    + destruct (snoc2 _ _ H0 t m f ts' c' X B) as (rc' & R & E). eexists. split; [apply T2; [exact H|exact R]|]. eapply means_alike; [apply alike_snoc; exact E|]. apply means_bin; assumption.
    + destruct (snoc3 _ _ H0 t m f ts' c' X B) as (rc' & R & E). eexists. split; [apply T3; [exact H|exact R]|]. eapply means_alike; [apply alike_snoc; exact E|]. apply means_bin; assumption.
  - destruct IHa as (c & A & Ma). destruct IHb as (c' & B & Mb). cbn [level_is] in A, B. inversion A; subst. rewrite <- app_assoc.
    destruct (snoc4 _ _ H0 t ts' c' K B) as (rc' & R & E). eexists. split; [apply T4; [exact H|exact R]|]. eapply means_alike; [apply alike_snoc; exact E|].
    apply (means_lazy false n_term3 m_and ts' _ a c' b ts' XAnd); [left; auto|exact Ma|right; right; right; left; split; [reflexivity|exact B]|exact Mb].
  - destruct IHa as (c & A & Ma). destruct IHb as (c' & B & Mb). cbn [level_is] in A, B. inversion A; subst. rewrite <- app_assoc.
    destruct (snoc5 _ _ H0 t ts' c' K B) as (rc' & R & E). eexists. split; [apply EX; [exact H|exact R]|]. eapply means_alike; [apply alike_snoc; exact E|].
    apply (means_lazy true n_term4 m_or ts' _ a c' b ts' XOr); [right; auto|exact Ma|right; right; right; right; split; [reflexivity|exact B]|exact Mb].
  - destruct IH as (c & A & B). exists (c >> nop). split.
    + rewrite <- (app_nil_r ts). destruct l as [|[|[|[|[|l]]]]]; [apply T1|apply T2|apply T3|apply T4|apply EX|lia]; try exact A; [apply O1_nil|apply O2_nil|apply O3_nil|apply O4_nil|apply O5_nil].
    + eapply means_alike; [|exact B]. intros ev k p s. unfold seq, bind, nop, ret. destruct (c ev k p s) as [([], s1)|]; reflexivity.
Qed.
Theorem expr_value : forall e ts, written L 5 e ts -> exists N, forall n p s o, (N <= n)%nat -> coherent s -> (p < nframes s)%nat -> has_value L s p e o ->
  gave p s o (evalCode (ev n) p n_expr (VCode ts) s).
Proof.
  intros e ts H. destruct (written_means _ _ _ H) as (c & A & B). destruct (gave_code n_expr ts c e (or_introl (conj eq_refl A)) B) as (N & X). exists N. intros n p s o Hn Hc Hp Hv. apply X; auto. split; assumption.
Qed.
End ExprP.
