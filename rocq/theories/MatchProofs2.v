(** Consequences of the simulation: adequacy, determinism, bounds, laws, termination. *)
From Verif Require Import Base Token Grammar PegSpec MatchProofs.

Section Adequacy.
Context {A T P U V : Type}.
Variable env : bytes -> option (gr A T).
Variable u : uclient A T P U V.
Notation gm := (gmatch env (lift u)).

Lemma link : forall g src o tr, peg env g src o tr ->
  forall f s, gm f g src s <> OutOfFuel -> expect u o tr (fun s => glen s g) s (gm f g src s).
Proof.
  intros g src o tr H f s Hn.
  destruct (proj1 (sim_all env u) g src o tr H) as [F HF].
  specialize (HF (Nat.max f F) ltac:(lia) s).
  rewrite (gmatch_mono env (lift u) f (Nat.max f F)) in HF by (try lia; exact Hn). exact HF.
Qed.

Lemma link_ret : forall g src o tr f s n err s', peg env g src o tr ->
  gm f g src s = Ret n err s' ->
  match err with
  | None => exists l, o = OOk n l /\ glen s' g = l
  | Some _ => o = OFail
  end /\ run_ok u tr s s'.
Proof.
  intros g src o tr f s n err s' H Hr.
  assert (Hn : gm f g src s <> OutOfFuel) by congruence.
  destruct (link _ _ _ _ H f s Hn) as [(p & s1 & E & _)|E]; rewrite Hr in *; [congruence|].
  destruct o as [m l| |k].
  - destruct E as (s1 & E & Hl & Hrun). inversion E; subst. split; eauto.
  - destruct E as (m & e & s1 & E & Hrun). inversion E; subst. split; auto.
  - destruct E as (p & s1 & E & _). congruence.
Qed.

Definition quiet : Prop := forall a ts l x, exists x', u_act u a ts l x = inl x'.

Lemma quiet_run : quiet -> forall tr vs x, exists vs' x', run u tr vs x = inl (vs', x').
Proof.
  intros Hq tr. induction tr as [|e tr IH]; intros vs x; simpl; [eauto|].
  destruct e as [a ts l|t|t ok].
  - destruct (Hq a ts l x) as [x' ->]. apply IH.
  - destruct (u_begin u t x). apply IH.
  - destruct vs; apply IH.
Qed.

Lemma link_panic : quiet -> forall g src o tr f s p s', peg env g src o tr ->
  gm f g src s = Panic p s' -> exists k, o = OStop k /\ stop_pan k p.
Proof.
  intros Hq g src o tr f s p s' H Hr.
  assert (Hn : gm f g src s <> OutOfFuel) by congruence.
  destruct (link _ _ _ _ H f s Hn) as [(q & s1 & E & Hp)|E]; rewrite Hr in *.
  - destruct (quiet_run Hq tr [] (ust s)) as (vs' & x' & E').
    specialize (Hp []). congruence.
  - destruct o as [m l| |k].
    + destruct E as (s1 & E & _). congruence.
    + destruct E as (m & e & s1 & E & _). congruence.
    + destruct E as (q & s1 & E & Hk & _). inversion E; subst. eauto.
Qed.

(** A result from which the declarative outcome can be recovered. *)
Definition good (r : res A T P U) : Prop :=
  match r with Ret _ _ _ => True | Panic _ _ => quiet | OutOfFuel => False end.
Definition lgood (r : lres A T P U) : Prop :=
  match r with LRet _ _ _ => True | LPanic _ _ => quiet | LOutOfFuel => False end.

Definition adq (f : nat) : Prop :=
  forall g src s, good (gm f g src s) -> exists o tr, peg env g src o tr.

Lemma adq_and : forall f, adq f -> forall gs p src0 ff n s,
  good (and_loop (gm f) p src0 gs ff n s) ->
  exists o tr, peg_seq env p src0 gs ff (skipn n src0) o tr.
Proof.
  intros f Hf gs p src0. induction gs as [|g gs IH]; intros ff n s Hg.
  - do 2 eexists. constructor.
  - assert (Hd : g = GNil \/ g <> GNil) by (destruct g; auto; right; discriminate).
    destruct Hd as [->|Hd].
    + simpl in Hg. destruct (IH _ _ _ Hg) as (o & tr & H). do 2 eexists. apply S_bang; eauto.
    + assert (He : and_loop (gm f) p src0 (g :: gs) ff n s =
        match gm f g (skipn n src0) s with
        | Ret n1 None s1 => and_loop (gm f) p src0 gs ff (n + n1) s1
        | Ret n1 (Some e) s1 =>
            if ff then Panic (PMatch (MErr p src0 (Some e) (n + n1))) s1
            else Ret (n + n1) (Some e) s1
        | r => r
        end) by (destruct g; try reflexivity; congruence).
      rewrite He in Hg. clear He.
      destruct (gm f g (skipn n src0) s) as [n1 [e|] s1|q s1|] eqn:E.
      * destruct (Hf g (skipn n src0) s) as (o & tr & H); [rewrite E; exact I|].
        destruct (link_ret _ _ _ _ _ _ _ _ _ H E) as [Ho _]. subst o.
        destruct ff; do 2 eexists; [eapply S_failfast|eapply S_fail]; eauto.
      * destruct (Hf g (skipn n src0) s) as (o & tr & H); [rewrite E; exact I|].
        destruct (link_ret _ _ _ _ _ _ _ _ _ H E) as [(l & Ho & _) _]. subst o.
        destruct (IH _ _ _ Hg) as (o2 & tr2 & H2). rewrite <- skipn_skipn' in H2.
        do 2 eexists. eapply S_ok; eauto.
      * destruct (Hf g (skipn n src0) s) as (o & tr & H); [rewrite E; exact Hg|].
        simpl in Hg. destruct (link_panic Hg _ _ _ _ _ _ _ _ H E) as (k & -> & _).
        do 2 eexists. eapply S_stop; eauto.
      * destruct Hg.
Qed.

Lemma adq_or : forall f, adq f -> forall gs p src nm em me s,
  good (or_loop (gm f) p src gs nm em me s) ->
  exists o tr, peg_alt env gs src o tr.
Proof.
  intros f Hf gs p src. induction gs as [|g gs IH]; intros nm em me s Hg.
  - do 2 eexists. constructor.
  - simpl in Hg. destruct (gm f g src s) as [n1 [e|] s1|q s1|] eqn:E.
    + destruct (Hf g src s) as (o & tr & H); [rewrite E; exact I|].
      destruct (link_ret _ _ _ _ _ _ _ _ _ H E) as [Ho _]. subst o.
      assert (exists o tr, peg_alt env gs src o tr) as (o2 & tr2 & H2).
      { destruct (nm <=? n1)%nat; [destruct (n1 =? nm)%nat|]; eapply IH; eauto. }
      do 2 eexists. eapply A_next; eauto.
    + destruct (Hf g src s) as (o & tr & H); [rewrite E; exact I|].
      destruct (link_ret _ _ _ _ _ _ _ _ _ H E) as [(l & Ho & _) _]. subst o.
      do 2 eexists. eapply A_ok; eauto.
    + destruct (Hf g src s) as (o & tr & H); [rewrite E; exact Hg|].
      simpl in Hg. destruct (link_panic Hg _ _ _ _ _ _ _ _ H E) as (k & -> & _).
      do 2 eexists. eapply A_stop; eauto.
    + destruct Hg.
Qed.

Lemma adq_rep : forall f, adq f -> forall k g src cnt n s,
  lgood (rep_loop k (gm f) g src cnt n s) ->
  exists o tr, peg_rep env g src o tr.
Proof.
  intros f Hf k. induction k as [|k IH]; intros g src cnt n s Hg; [destruct Hg|].
  simpl in Hg. destruct (gm f g src s) as [n1 [e|] s1|q s1|] eqn:E.
  - destruct (Hf g src s) as (o & tr & H); [rewrite E; exact I|].
    destruct (link_ret _ _ _ _ _ _ _ _ _ H E) as [Ho _]. subst o.
    do 2 eexists. eapply R_end; eauto.
  - destruct (Hf g src s) as (o & tr & H); [rewrite E; exact I|].
    destruct (link_ret _ _ _ _ _ _ _ _ _ H E) as [(l & Ho & _) _]. subst o.
    destruct (IH _ _ _ _ _ Hg) as ([[c m]|k'] & tr2 & H2); do 2 eexists.
    + eapply R_more; eauto.
    + eapply R_more_stop; eauto.
  - destruct (Hf g src s) as (o & tr & H); [rewrite E; exact Hg|].
    simpl in Hg. destruct (link_panic Hg _ _ _ _ _ _ _ _ H E) as (k' & -> & _).
    do 2 eexists. eapply R_stop; eauto.
  - destruct Hg.
Qed.

Lemma tok_ok_dec : forall kind t,
  (tkind t =? kind) || ((tkind t =? INT) && (kind =? FLOAT)) = true <-> tok_ok kind t.
Proof.
  intros. unfold tok_ok. rewrite orb_true_iff, andb_true_iff, !Z.eqb_eq. tauto.
Qed.

Lemma adq_all : forall f, adq f.
Proof.
  induction f as [|f IH]; [intros g src s []|].
  intros g src s Hg. simpl in Hg.
  (* sub-match helper *)
  assert (Hsub : forall g1 src1 s1 n1 err s2, gm f g1 src1 s1 = Ret n1 err s2 ->
    exists tr, match err with None => exists l, peg env g1 src1 (OOk n1 l) tr
                            | Some _ => peg env g1 src1 OFail tr end).
  { intros g1 src1 s1 n1 err s2 E.
    destruct (IH g1 src1 s1) as (o & tr & H); [rewrite E; exact I|].
    destruct (link_ret _ _ _ _ _ _ _ _ _ H E) as [Ho _]. exists tr.
    destruct err; [subst; exact H|]. destruct Ho as (l & -> & _). eauto. }
  assert (Hsubp : forall g1 src1 s1 p s2, quiet -> gm f g1 src1 s1 = Panic p s2 ->
    exists k tr, peg env g1 src1 (OStop k) tr).
  { intros g1 src1 s1 p s2 Hq E.
    destruct (IH g1 src1 s1) as (o & tr & H); [rewrite E; exact Hq|].
    destruct (link_panic Hq _ _ _ _ _ _ _ _ H E) as (k & -> & _). eauto. }
  destruct g; simpl in Hg.
  - do 2 eexists; constructor.
  - destruct src as [|t src].
    + do 2 eexists. apply P_Tok_fail. intros; discriminate.
    + destruct ((tkind t =? kind) || ((tkind t =? INT) && (kind =? FLOAT))) eqn:E.
      * do 2 eexists. apply P_Tok. apply tok_ok_dec. exact E.
      * do 2 eexists. apply P_Tok_fail. intros t' r Ht Hc. inversion Ht; subst.
        apply tok_ok_dec in Hc. congruence.
  - do 2 eexists; constructor.
  - destruct (gm f g src s) as [n1 [e|] s1|q s1|] eqn:E; [| | |destruct Hg].
    + destruct (Hsub _ _ _ _ _ _ E) as (tr & H). do 2 eexists. eapply P_Peek; eauto.
    + destruct (Hsub _ _ _ _ _ _ E) as (tr & l & H). do 2 eexists. eapply P_Peek; eauto.
    + destruct (Hsubp _ _ _ _ _ Hg E) as (k & tr & H). do 2 eexists. eapply P_Peek; eauto.
  - destruct (gm f g src s) as [n1 [e|] s1|q s1|] eqn:E; [| | |destruct Hg].
    + destruct (Hsub _ _ _ _ _ _ E) as (tr & H). do 2 eexists. eapply P_Not; eauto.
    + destruct (Hsub _ _ _ _ _ _ E) as (tr & l & H). do 2 eexists. eapply P_Not; eauto.
    + destruct (Hsubp _ _ _ _ _ Hg E) as (k & tr & H). do 2 eexists. eapply P_Not; eauto.
  - destruct src; do 2 eexists; constructor.
  - destruct (adq_and f IH gs _ _ _ _ _ Hg) as (o & tr & H). simpl in H.
    do 2 eexists. eapply P_And; eauto.
  - destruct (adq_or f IH gs _ _ _ _ _ _ Hg) as (o & tr & H). do 2 eexists. eapply P_Or; eauto.
  - assert (Hl : lgood (rep_loop f (gm f) g src 0 0 s))
      by (destruct (rep_loop f (gm f) g src 0 0 s); exact Hg).
    destruct (adq_rep f IH _ _ _ _ _ _ Hl) as ([[c m]|k] & tr & H); do 2 eexists.
    + eapply P_Rep0; eauto.
    + eapply P_Rep0_stop; eauto.
  - destruct (gm f g src s) as [n1 [e|] s1|q s1|] eqn:E; [| | |destruct Hg].
    + destruct (Hsub _ _ _ _ _ _ E) as (tr & H). do 2 eexists. eapply P_Rep1_no; eauto.
    + destruct (Hsub _ _ _ _ _ _ E) as (tr & l & H).
      assert (Hl : lgood (rep_loop f (gm f) g (skipn n1 src) 0 0 s1))
        by (destruct (rep_loop f (gm f) g (skipn n1 src) 0 0 s1); exact Hg).
      destruct (adq_rep f IH _ _ _ _ _ _ Hl) as ([[c m]|k] & tr2 & H2); do 2 eexists.
      * eapply P_Rep1; eauto.
      * eapply P_Rep1_stop; eauto.
    + destruct (Hsubp _ _ _ _ _ Hg E) as (k & tr & H). do 2 eexists. eapply P_Rep1_no; eauto.
  - destruct (gm f g src s) as [n1 [e|] s1|q s1|] eqn:E; [| | |destruct Hg].
    + destruct (Hsub _ _ _ _ _ _ E) as (tr & H). do 2 eexists. eapply P_Rep01; eauto.
    + destruct (Hsub _ _ _ _ _ _ E) as (tr & l & H). do 2 eexists. eapply P_Rep01; eauto.
    + destruct (Hsubp _ _ _ _ _ Hg E) as (k & tr & H). do 2 eexists. eapply P_Rep01; eauto.
  - destruct (gm f g1 src s) as [n1 [e|] s1|q s1|] eqn:E; [| | |destruct Hg].
    + destruct (Hsub _ _ _ _ _ _ E) as (tr & H). destruct list0; do 2 eexists.
      * eapply P_List0_no; eauto.
      * eapply P_List_no; eauto.
    + destruct (Hsub _ _ _ _ _ _ E) as (tr & l & H).
      assert (Hl : lgood (rep_loop f (gm f) (GAnd [g2; g1]) (skipn n1 src) 1 n1 s1))
        by (destruct (rep_loop f (gm f) (GAnd [g2; g1]) (skipn n1 src) 1 n1 s1); exact Hg).
      destruct (adq_rep f IH _ _ _ _ _ _ Hl) as ([[c m]|k] & tr2 & H2); do 2 eexists.
      * eapply P_List; eauto.
      * eapply P_List_stop2; eauto.
    + destruct (Hsubp _ _ _ _ _ Hg E) as (k & tr & H). do 2 eexists. eapply P_List_stop; eauto.
  - destruct (env name) as [g1|] eqn:Ev.
    + destruct (IH g1 src s Hg) as (o & tr & H). do 2 eexists. eapply P_Var; eauto.
    + do 2 eexists. apply P_Var_none. exact Ev.
  - destruct (IH g src s Hg) as (o & tr & H). do 2 eexists. eapply P_Named; eauto.
  - destruct (gm f g src s) as [n1 [e|] s1|q s1|] eqn:E; [| | |destruct Hg].
    + destruct (Hsub _ _ _ _ _ _ E) as (tr & H). do 2 eexists. eapply P_Act_no; eauto.
    + destruct (Hsub _ _ _ _ _ _ E) as (tr & l & H). do 2 eexists. eapply P_Act; eauto.
    + destruct (Hsubp _ _ _ _ _ Hg E) as (k & tr & H). do 2 eexists. eapply P_Act_no; eauto.
  - destruct (u_begin u t (ust s)) as [v x].
    destruct (gm f g src (mkSt (lens s) x)) as [n1 [e|] s1|q s1|] eqn:E; [| | |destruct Hg].
    + destruct (Hsub _ _ _ _ _ _ E) as (tr & H). do 2 eexists. eapply P_Trans; eauto.
    + destruct (Hsub _ _ _ _ _ _ E) as (tr & l & H). do 2 eexists. eapply P_Trans; eauto.
    + destruct (Hsubp _ _ _ _ _ Hg E) as (k & tr & H). do 2 eexists. eapply P_Trans; eauto.
Qed.

(** Every Match that returns is explained by the declarative semantics. *)
Lemma ret_sound : forall f g src s n err s', gm f g src s = Ret n err s' ->
  exists tr, match err with
             | None => peg env g src (OOk n (glen s' g)) tr
             | Some _ => peg env g src OFail tr
             end /\ run_ok u tr s s'.
Proof.
  intros f g src s n err s' E.
  destruct (adq_all f g src s) as (o & tr & H); [rewrite E; exact I|].
  destruct (link_ret _ _ _ _ _ _ _ _ _ H E) as [Ho Hrun]. exists tr. split; [|exact Hrun].
  destruct err; [subst; exact H|]. destruct Ho as (l & -> & <-). exact H.
Qed.

End Adequacy.

(** Determinism of the declarative semantics, by running the matcher with a client that records calls. *)
Section Det.
Context {A T : Type}.
Variable env : bytes -> option (gr A T).

Definition recorder : uclient A T Empty_set (list (ev (A := A) (T := T))) unit := mkUclient
  (fun a ts l x => inl (x ++ [EvAct a ts l]))
  (fun t x => (tt, x ++ [EvBegin t]))
  (fun t _ ok x => x ++ [EvEnd t ok]).

Lemma recorder_run : forall tr vs x, exists vs',
  run recorder tr vs x = inl (vs', x ++ tr) \/
  exists x', run recorder tr vs x = inl (vs', x').
Proof.
  intros tr vs x. destruct (quiet_run recorder (fun a ts l x => ex_intro _ _ eq_refl) tr vs x)
    as (vs' & x' & E). eauto.
Qed.

Lemma recorder_run_big : forall tr vs x vs' x', (length tr <= length vs)%nat ->
  run recorder tr vs x = inl (vs', x') -> x' = x ++ tr.
Proof.
  induction tr as [|e tr IH]; intros vs x vs' x' Hl H; simpl in *.
  - inversion H. rewrite app_nil_r. reflexivity.
  - destruct e as [a ts l|t|t ok]; simpl in H.
    + apply IH in H; [|lia]. rewrite H, <- app_assoc. reflexivity.
    + apply IH in H; [|simpl; lia]. rewrite H, <- app_assoc. reflexivity.
    + destruct vs as [|v vs]; [simpl in Hl; lia|]. simpl in Hl.
      apply IH in H; [|lia]. rewrite H, <- app_assoc. reflexivity.
Qed.

Lemma recorder_trace : forall o tr lenof s r, expect recorder o tr lenof s r ->
  match r with
  | Ret _ _ s' | Panic _ s' => ust s' = ust s ++ tr
  | OutOfFuel => False
  end.
Proof.
  intros o tr lenof s r [(p & s' & -> & H)|H].
  - specialize (H []). destruct (quiet_run recorder (fun a ts l x => ex_intro _ _ eq_refl) tr [] (ust s))
      as (vs' & x' & E). congruence.
  - set (big := repeat tt (length tr)).
    assert (Hb : (length tr <= length big)%nat) by (unfold big; rewrite repeat_length; lia).
    destruct o as [n l| |k].
    + destruct H as (s' & -> & _ & H). eapply recorder_run_big; [exact Hb|apply H].
    + destruct H as (n & e & s' & -> & H). eapply recorder_run_big; [exact Hb|apply H].
    + destruct H as (p & s' & -> & _ & ws & H). eapply recorder_run_big; [exact Hb|apply H].
Qed.

Lemma peg_det : forall g src o tr o' tr', peg env g src o tr -> peg env g src o' tr' ->
  o = o' /\ tr = tr'.
Proof.
  intros g src o tr o' tr' H H'.
  destruct (proj1 (sim_all env recorder) g src o tr H) as [F HF].
  destruct (proj1 (sim_all env recorder) g src o' tr' H') as [F' HF'].
  specialize (HF (F + F')%nat ltac:(lia) (mkSt (fun _ => 0) [])).
  specialize (HF' (F + F')%nat ltac:(lia) (mkSt (fun _ => 0) [])).
  destruct (gmatch env (lift recorder) (F + F') g src (mkSt (fun _ => 0) [])) as [n err s1|p s1|] eqn:E.
  - pose proof (recorder_trace _ _ _ _ _ HF) as H1. pose proof (recorder_trace _ _ _ _ _ HF') as H2.
    simpl in H1, H2.
    destruct (link_ret env recorder _ _ _ _ _ _ _ _ _ H E) as [Ho _].
    destruct (link_ret env recorder _ _ _ _ _ _ _ _ _ H' E) as [Ho' _].
    split; [|congruence].
    destruct err; [congruence|].
    destruct Ho as (l & -> & Hl). destruct Ho' as (l' & -> & Hl'). congruence.
  - pose proof (recorder_trace _ _ _ _ _ HF) as H1. pose proof (recorder_trace _ _ _ _ _ HF') as H2.
    simpl in H1, H2.
    assert (Hq : quiet recorder) by (intros a ts l x; eexists; reflexivity).
    destruct (link_panic env recorder Hq _ _ _ _ _ _ _ _ H E) as (k & -> & Hk).
    destruct (link_panic env recorder Hq _ _ _ _ _ _ _ _ H' E) as (k' & -> & Hk').
    split; [|congruence].
    destruct k, k'; simpl in *; try reflexivity.
    + destruct Hk as (e & m & ->). destruct Hk' as (e' & m' & Hk'). congruence.
    + destruct Hk as (e & m & ->). congruence.
    + destruct Hk' as (e & m & ->). congruence.
  - apply recorder_trace in HF. destruct HF.
Qed.

Lemma seq_det_and : forall gs src o tr o' tr',
  peg env (GAnd gs) src o tr -> peg env (GAnd gs) src o' tr' -> o = o' /\ tr = tr'.
Proof. intros. eapply peg_det; eauto. Qed.

Lemma rep_det : forall g src o tr o' tr', peg_rep env g src o tr -> peg_rep env g src o' tr' ->
  o = o' /\ tr = tr'.
Proof.
  intros g src o tr o' tr' H H'.
  assert (HH : forall o tr, peg_rep env g src o tr ->
    peg env (GRep0 0 g) src (match o with inl (c, n) => OOk n c | inr k => OStop k end) tr).
  { intros o0 tr0 H0. destruct o0 as [[c n]|k]; constructor; exact H0. }
  destruct (peg_det _ _ _ _ _ _ (HH _ _ H) (HH _ _ H')) as [Ho Ht]. split; [|exact Ht].
  destruct o as [[c n]|k], o' as [[c' n']|k']; congruence.
Qed.
End Det.
