(** Proofs about tpl/match.go and the text functions of tpl/grammar.go. *)
From Verif Require Import Base Token Utf8 Scanner Tokenize Grammar Matcher PegSpec MatchProofs MatchProofs2 MatchProofs3.

Section Printable.
Context {A T : Type}.
Variable ttol : Z -> mayp bytes.

(** Every token in the grammar has a spelling and no operand is nil (the ! marker in a sequence is). *)
Fixpoint printable (g : gr A T) : Prop :=
  match g with
  | GNil => False
  | GTok k => exists x, ttol k = Val x
  | GTrue | GEOF | GVar _ => True
  | GPeek g1 | GNot g1 | GRep0 _ g1 | GRep1 _ g1 | GRep01 _ g1 | GNamed _ g1 | GAct g1 _ | GTrans g1 _ => printable g1
  | GAnd gs => (fix all l := match l with [] => True | g1 :: l' => (g1 = GNil \/ printable g1) /\ all l' end) gs
  | GOr gs => (fix all l := match l with [] => True | g1 :: l' => printable g1 /\ all l' end) gs
  | GList _ a b _ => printable a /\ printable b
  end.

Lemma printable_and : forall gs, printable (GAnd gs) <-> Forall (fun g => g = GNil \/ printable g) gs.
Proof.
  induction gs as [|g gs IH]; cbn [printable]; [split; auto|]. split; intro H.
  - constructor; [tauto|]. apply IH. apply H.
  - inversion H; subst. split; [assumption|]. apply IH. assumption.
Qed.
Lemma printable_or : forall gs, printable (GOr gs) <-> Forall printable gs.
Proof.
  induction gs as [|g gs IH]; cbn [printable]; [split; auto|]. split; intro H.
  - constructor; [tauto|]. apply IH. apply H.
  - inversion H; subst. split; [assumption|]. apply IH. assumption.
Qed.

Lemma marshal_ok : forall (g : gr A T) lvl, printable g -> exists x, marshal ttol lvl g = Val x.
Proof.
  fix IH 1. intros g lvl H. destruct g; cbn [marshal printable] in *; try contradiction; try (eexists; reflexivity); auto;
    try (destruct (IH g lvlRepeat H) as (x & ->); eexists; reflexivity).
  - assert (Y : forall first, exists x, (fix go (first : bool) (gs : list (gr A T)) : mayp bytes :=
           match gs with
           | [] => Val []
           | GNil :: gs' => go false gs'
           | g1 :: gs' =>
               do x <- marshal ttol lvlAnd g1; do y <- go false gs';
               Val ((if first then [] else [32]) ++ x ++ y)
           end) first gs = Val x).
    { revert H. induction gs as [|g1 gs IHg]; intros H first; [eexists; reflexivity|].
      destruct H as [H1 H2]. destruct (IHg H2 false) as (y & Ey).
      destruct H1 as [-> | H1]; [exists y; exact Ey|].
      destruct (IH g1 lvlAnd H1) as (x & Ex). exists ((if first then [] else [32]) ++ x ++ y).
      destruct g1; try contradiction; rewrite Ex; cbn [bindm]; rewrite Ey; reflexivity. }
    destruct (Y true) as (y & Ey). rewrite Ey. unfold paren. destruct (lvlAnd <? lvl); eexists; reflexivity.
  - assert (Y : forall first, exists x, (fix go (first : bool) (gs : list (gr A T)) : mayp bytes :=
           match gs with
           | [] => Val []
           | g1 :: gs' =>
               do x <- marshal ttol lvlOr g1; do y <- go false gs';
               Val ((if first then [] else [32; 124; 32]) ++ x ++ y)
           end) first gs = Val x).
    { revert H. induction gs as [|g1 gs IHg]; intros H first; [eexists; reflexivity|].
      destruct H as [H1 H2]. destruct (IHg H2 false) as (y & Ey).
      destruct (IH g1 lvlOr H1) as (x & ->). cbn [bindm]. rewrite Ey. eexists. reflexivity. }
    destruct (Y true) as (y & Ey). rewrite Ey. unfold paren. destruct (lvlOr <? lvl); eexists; reflexivity.
  - destruct H as [Ha Hb]. destruct (IH g1 lvlList Ha) as (x & ->). destruct (IH g2 lvlList Hb) as (y & ->).
    unfold paren. destruct (lvlList <? lvl); eexists; reflexivity.
Qed.
End Printable.

Section Errors.
Context {A T P U V : Type}.
Variable env : bytes -> option (gr A T).
Variable c : client A T P U V.
Variable ttol : Z -> mayp bytes.
(** the client never raises a MatchError itself *)
Variable Hact : forall a ts l s p s', c_act c a ts l s = APanic p s' -> forall e, p <> PMatch e.
Variable Henv : forall v g, env v = Some g -> printable ttol g.
Notation gm := (gmatch env c).
Notation pr := (printable ttol).

(** Errors returned by Match: about a suffix of the input, at its start. *)
Definition ret_err (src : list token) (e : merr A T) : Prop :=
  e = EVarNotAssigned \/ exists g i, pr g /\ e = MErr g (skipn i src) None 0.
(** Errors raised by a fail-fast sequence: about a suffix, at a position within it. *)
Definition pan_err (src : list token) (e : merr A T) : Prop :=
  exists g i e1 k, pr g /\ e = MErr g (skipn i src) (Some e1) k /\ (k <= length (skipn i src))%nat.
Definition good_res (src : list token) (r : res A T P U) : Prop :=
  match r with
  | Ret _ (Some e) _ => ret_err src e
  | Panic (PMatch e) _ => pan_err src e
  | _ => True
  end.

Lemma ret_err_skip : forall n src e, ret_err (skipn n src) e -> ret_err src e.
Proof.
  intros n src e [-> | (g & i & Hp & ->)]; [left; reflexivity|]. right. exists g, (n + i)%nat. split; [exact Hp|]. rewrite skipn_skipn'. reflexivity.
Qed.
Lemma pan_err_skip : forall n src e, pan_err (skipn n src) e -> pan_err src e.
Proof.
  intros n src e (g & i & e1 & k & Hp & -> & Hk). exists g, (n + i)%nat, e1, k. rewrite skipn_skipn' in *. auto.
Qed.
Lemma good_skip : forall n src r, good_res (skipn n src) r -> good_res src r.
Proof.
  intros n src [m [e|] s|[e| |q] s|] H; cbn [good_res] in *; auto.
  - eapply ret_err_skip; exact H.
  - eapply pan_err_skip; exact H.
Qed.

Lemma errors_spec : forall f g src s, pr g -> good_res src (gm f g src s).
Proof.
  induction f as [|f IH]; intros g src s Hg; [exact I|].
  assert (Here : pr g -> ret_err src (MErr g src None 0)) by (intro; right; exists g, 0%nat; auto).
  assert (Hand : forall p gs ff n0 s0, pr p -> (n0 <= length src)%nat -> Forall (fun g => g = GNil \/ pr g) gs ->
    forall src0, (exists i, src0 = skipn i src) -> (n0 <= length src0)%nat ->
    good_res src (and_loop (gm f) p src0 gs ff n0 s0)).
  { intros p gs. induction gs as [|g1 gs IHg]; intros ff n0 s0 Hp Hn0 Hgs src0 Hs0 Hn; [exact I|].
    inversion Hgs as [|? ? Hd Hgs']; subst.
    destruct Hd as [-> | Hd]; [apply IHg; auto|].
    assert (He : and_loop (gm f) p src0 (g1 :: gs) ff n0 s0 =
        match gm f g1 (skipn n0 src0) s0 with
        | Ret n1 None s1 => and_loop (gm f) p src0 gs ff (n0 + n1) s1
        | Ret n1 (Some e) s1 =>
            if ff then Panic (PMatch (MErr p src0 (Some e) (n0 + n1))) s1
            else Ret (n0 + n1) (Some e) s1
        | r => r
        end) by (destruct g1; try reflexivity; contradiction).
    rewrite He. clear He. pose proof (IH g1 (skipn n0 src0) s0 Hd) as Hr.
    destruct Hs0 as (i & ->). rewrite skipn_length in Hn. rewrite skipn_skipn' in *. apply good_skip in Hr.
    destruct (gm f g1 (skipn (i + n0) src) s0) as [n1 [e|] s1|q s1|] eqn:E; cbn [good_res] in Hr; auto.
    - apply bounds in E. rewrite skipn_length in E.
      destruct ff; [|exact Hr]. cbn [good_res]. exists p, i, e, (n0 + n1)%nat. split; [exact Hp|]. split; [reflexivity|].
      rewrite skipn_length. lia.
    - apply bounds in E. rewrite skipn_length in E. apply IHg; auto; try lia; [exists i; reflexivity|]. rewrite skipn_length. lia. }
  assert (Hor : forall gs nm em me s0, Forall pr gs -> (me = false -> forall e, em = Some e -> ret_err src e) ->
    pr g -> good_res src (or_loop (gm f) g src gs nm em me s0)).
  { intros gs. induction gs as [|g1 gs IHg]; intros nm em me s0 Hgs Hem Hp; cbn [or_loop].
    - destruct me; [apply Here; exact Hp|]. destruct em; [|exact I]. apply Hem; reflexivity.
    - inversion Hgs; subst. pose proof (IH g1 src s0 ltac:(assumption)) as Hr.
      destruct (gm f g1 src s0) as [n1 [e|] s1|q s1|] eqn:E; cbn [good_res] in Hr; auto.
      destruct (nm <=? n1)%nat; [destruct (n1 =? nm)%nat|]; apply IHg; auto; try discriminate.
      intros _ e' [= <-]. exact Hr. }
  assert (Hrep : forall k g1 src1 cnt n0 s0 e s1, pr g1 -> (exists i, src1 = skipn i src) ->
    rep_loop k (gm f) g1 src1 cnt n0 s0 = LPanic (PMatch e) s1 -> pan_err src e).
  { induction k as [|k IHk]; intros g1 src1 cnt n0 s0 e s1 Hp (i & ->) H0; [discriminate|].
    cbn [rep_loop] in H0. pose proof (good_skip i src _ (IH g1 (skipn i src) s0 Hp)) as Hr.
    destruct (gm f g1 (skipn i src) s0) as [n1 [e'|] s2|q s2|] eqn:E; try discriminate.
    - eapply IHk; [exact Hp| |exact H0]. rewrite skipn_skipn'. eexists. reflexivity.
    - inversion H0; subst. exact Hr. }
  cbn [gmatch]. destruct g; cbn [gstep].
  - exact I.
  - destruct src as [|t src]; [apply Here; exact Hg|]. destruct (_ || _); [exact I|apply Here; exact Hg].
  - exact I.
  - cbn [printable] in Hg. pose proof (IH g src s Hg) as Hr.
    destruct (gm f g src s) as [n1 [e|] s1|q s1|]; cbn [good_res] in *; auto.
  - cbn [printable] in Hg. pose proof (IH g src s Hg) as Hr.
    destruct (gm f g src s) as [n1 [e|] s1|q s1|]; cbn [good_res] in *; auto.
  - destruct src; [exact I|apply Here; exact Hg].
  - apply Hand; auto; try lia; [apply printable_and; exact Hg|exists 0%nat; reflexivity].
  - apply Hor; auto; [apply printable_or; exact Hg|discriminate].
  - cbn [printable] in Hg. destruct (rep_loop f (gm f) g src 0 0 s) as [? ? ?|[e| |q] ?|] eqn:E; cbn [good_res]; auto.
    eapply Hrep; [exact Hg|exists 0%nat; reflexivity|exact E].
  - cbn [printable] in Hg. pose proof (IH g src s Hg) as Hr.
    destruct (gm f g src s) as [n1 [e|] s1|q s1|] eqn:E; cbn [good_res] in *; auto.
    destruct (rep_loop f (gm f) g (skipn n1 src) 0 0 s1) as [? ? ?|[e| |q] ?|] eqn:E2; cbn [good_res]; auto.
    eapply Hrep; [exact Hg|eexists; reflexivity|exact E2].
  - cbn [printable] in Hg. pose proof (IH g src s Hg) as Hr.
    destruct (gm f g src s) as [n1 [e|] s1|q s1|]; cbn [good_res] in *; auto.
  - cbn [printable] in Hg. destruct Hg as [Hg1 Hg2]. pose proof (IH g1 src s Hg1) as Hr.
    destruct (gm f g1 src s) as [n1 [e|] s1|q s1|] eqn:E; cbn [good_res] in *; auto.
    + destruct list0; cbn [good_res]; auto.
    + destruct (rep_loop f (gm f) (GAnd [g2; g1]) (skipn n1 src) 1 n1 s1) as [? ? ?|[e| |q] ?|] eqn:E2; cbn [good_res]; auto.
      eapply Hrep; [|eexists; reflexivity|exact E2]. apply printable_and. auto.
  - destruct (env name) as [g1|] eqn:E; [apply IH; eauto|]. left. reflexivity.
  - apply IH. exact Hg.
  - cbn [printable] in Hg. pose proof (IH g src s Hg) as Hr.
    destruct (gm f g src s) as [n1 [e|] s1|q s1|] eqn:E; cbn [good_res] in *; auto.
    destruct (c_act c a (firstn n1 src) (glen s1 g) s1) as [| [e| |q] ?|] eqn:Ea; cbn [good_res]; auto.
    exfalso. eapply Hact; [exact Ea|reflexivity].
  - cbn [printable] in Hg. destruct (c_begin c t s) as [v s0]. pose proof (IH g src s0 Hg) as Hr.
    destruct (gm f g src s0) as [n1 [e|] s1|q s1|] eqn:E; cbn [good_res] in *; auto.
Qed.
End Errors.
