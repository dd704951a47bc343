(** Whole scans as seen by the caller: the tiling of the source, positions, end of file, comments mode. *)
From Verif Require Import Base Token Utf8 Utf8Proofs Scanner ScannerSpec ScannerProofs ScannerProofs2 ScannerProofs3 ScannerProofs4
  ScannerProofs5 ScanDet ScanRun ScanInit.

Lemma flat_app : forall a b, flat (a ++ b) = flat a ++ flat b.
Proof. intros. unfold flat. apply flat_map_app. Qed.

Section Obs.
Variables isL isD : Z -> bool.
Variables mComments mSemis : bool.
Variable src : bytes.
Notation Scan := (Scan isL isD mComments mSemis src).
Notation scans := (scans isL isD mComments mSemis src).
Notation scanned := (scanned isL isD mComments mSemis).

Lemma scanned_split : forall ps1 b o p ps2 after, scanned b o (ps1 ++ p :: ps2) after ->
  scanned (rev ps1 ++ b) (o + length (flat ps1)) (p :: ps2) after.
Proof.
  induction ps1 as [|q ps1 IH]; intros b o p ps2 after H.
  - simpl. rewrite Nat.add_0_r. exact H.
  - simpl app in H. apply scanned_one in H. destruct H as (_ & H). apply IH in H.
    simpl rev. rewrite <- app_assoc. simpl app. rewrite flat_cons, !app_length.
    replace (o + (length (p_gap q) + (length (p_text q) + length (flat ps1))))%nat
      with (o + length (p_gap q) + length (p_text q) + length (flat ps1))%nat by lia. exact H.
Qed.

Lemma scans_length : forall n s, length (fst (scans n s)) = n.
Proof.
  induction n as [|n IH]; intro s; [reflexivity|]. cbn [ScanRun.scans]. destruct (Scan s) as [t s1].
  specialize (IH s1). destruct (scans n s1). simpl in *. congruence.
Qed.
Lemma scans_app : forall n m s, scans (n + m) s = (fst (scans n s) ++ fst (scans m (snd (scans n s))), snd (scans m (snd (scans n s)))).
Proof.
  induction n as [|n IH]; intros m s.
  - simpl. destruct (scans m s). reflexivity.
  - simpl plus. cbn [ScanRun.scans]. destruct (Scan s) as [t s1]. rewrite IH. destruct (scans n s1). reflexivity.
Qed.
Lemma scans_snoc : forall n s, scans (S n) s = (fst (scans n s) ++ [fst (Scan (snd (scans n s)))], snd (Scan (snd (scans n s)))).
Proof.
  intros n s. replace (S n) with (n + 1)%nat by lia. rewrite scans_app. cbn [ScanRun.scans]. destruct (Scan (snd (scans n s))). reflexivity.
Qed.

Hypothesis Hsrc : Forall byte src.

(** Every scan from Init: the tiling. *)
Lemma run_spec : forall old n, exists b ps after s',
  scans n (Init src old) = (map p_tok ps, s') /\ length ps = n /\ src = b ++ flat ps ++ after /\ has_bom b (flat ps ++ after) /\
  scanned [] (length b) ps after /\ at_pieces mSemis src s' (rev ps) /\ rest src s' = after /\ off s' = length (b ++ flat ps) /\
  ecount s' = Z.of_nat (length (errs s')) /\ Linv src s' /\
  (errs s' = [] -> clean (flat ps) /\ okc src s' /\ good_pieces ps after).
Proof.
  intros old n. destruct (init_spec mSemis src Hsrc old) as (b & E & HB & O & A & L & C & K).
  destruct (scans_sound isL isD mComments mSemis src Hsrc n _ _ A) as (ps & s' & es & E2 & N & A2 & R2 & O2 & S2 & X2 & C2 & L2 & K2).
  exists b, ps, (rest src s'), s'. rewrite app_nil_r in A2. rewrite O in S2.
  split; [exact E2|]. split; [exact N|]. split; [rewrite <- R2; exact E|]. split; [rewrite <- R2; exact HB|]. split; [exact S2|].
  split; [exact A2|]. split; [reflexivity|]. split; [rewrite app_length; lia|].
  split; [rewrite X2, app_length; lia|]. split; [auto|].
  intro Hn. rewrite X2 in Hn. apply app_eq_nil in Hn. destruct Hn as (H1 & H2). apply K2; auto.
Qed.

Lemma run_inv : forall old n, Inv src (snd (scans n (Init src old))) /\ Sinv mSemis (snd (scans n (Init src old))).
Proof.
  intros old n. destruct (run_spec old n) as (b & ps & after & s' & E & _ & _ & _ & _ & [A1 A2 _] & _). rewrite E. auto.
Qed.

(** ** Reaching the end of file *)
Lemma reach_eof : forall m s, Inv src s -> Sinv mSemis s -> (measure src s <= m)%nat ->
  exists n, (n <= m)%nat /\ exists ts t s', scans (S n) s = (ts ++ [t], s') /\ tkind t = EOF /\ Forall (fun t => tkind t <> EOF) ts.
Proof.
  induction m as [|m IH]; intros s HI HS Hm; destruct (Scan s) as [t s1] eqn:E;
    destruct (scan_step isL isD mComments mSemis src Hsrc s HI HS) as (g & text & es & t0 & s0 & E0 & _ & HS' & HI');
    rewrite E in E0; injection E0 as <- <-; destruct (scan_measure isL isD mComments mSemis src Hsrc s HI HS t s1 E) as [K|K];
    try lia.
  1, 2: exists 0%nat; split; [lia|]; exists [], t, s1; cbn [ScanRun.scans]; rewrite E; auto.
  destruct (Z.eq_dec (tkind t) EOF) as [Ke|Ke].
  - exists 0%nat. split; [lia|]. exists [], t, s1. cbn [ScanRun.scans]. rewrite E. auto.
  - destruct (IH s1 HI' HS' ltac:(lia)) as (n & Hn & ts & t' & s' & E' & K' & F).
    exists (S n). split; [lia|]. exists (t :: ts), t', s'. change (scans (S (S n)) s) with
      (let '(t, s1) := Scan s in let '(ts, s2) := scans (S n) s1 in (t :: ts, s2)). rewrite E, E'. auto.
Qed.

Lemma at_end_forever : forall m s, Inv src s -> Sinv mSemis s -> rest src s = [] -> isemi s = false ->
  exists s', scans m s = (repeat (mkTok EOF (S (length src)) []) m, s') /\ errs s' = errs s.
Proof.
  induction m as [|m IH]; intros s HI HS Hr Hs; [exists s; auto|].
  destruct (scan_at_end isL isD mComments mSemis src Hsrc s HI HS Hr Hs) as (s1 & E & R1 & S1 & I1 & N1 & X1).
  destruct (IH s1 I1 N1 R1 S1) as (s2 & E2 & X2). exists s2. cbn [ScanRun.scans]. rewrite E, E2. split; [reflexivity|congruence].
Qed.

Lemma after_eof : forall old n ts t s, scans n (Init src old) = (ts ++ [t], s) -> tkind t = EOF ->
  t = mkTok EOF (S (length src)) [] /\ rest src s = [] /\
  forall m, exists s', scans m s = (repeat t m, s') /\ errs s' = errs s.
Proof.
  intros old n ts t s E K. destruct n as [|n].
  { simpl in E. destruct ts; discriminate. }
  rewrite scans_snoc in E. destruct (run_inv old n) as (HI & HS).
  set (s1 := snd (scans n (Init src old))) in *. destruct (Scan s1) as [t1 s2] eqn:E1. cbn [fst snd] in E.
  injection E as E <-. apply app_inj_tail in E. destruct E as (_ & ->).
  destruct (scan_eof isL isD mComments mSemis src Hsrc s1 HI HS t s2 E1 K) as (R & S & P & L).
  destruct (scan_step isL isD mComments mSemis src Hsrc s1 HI HS) as (g & text & es & t0 & s0 & E0 & _ & HS' & HI').
  rewrite E1 in E0. injection E0 as <- <-.
  assert (Et : t = mkTok EOF (Datatypes.S (length src)) []) by (destruct t; simpl in *; congruence).
  split; [exact Et|]. split; [exact R|]. intro m. rewrite Et. apply at_end_forever; assumption.
Qed.

(** ** One piece of a run *)
Lemma lexeme_lit10 : forall k text after, ~ lexeme isL isD k [10] text after.
Proof.
  intros k text after H. inversion H; subst.
  - match goal with X : ident _ _ _ |- _ => destruct X as (_ & X & _); unfold letter in X; cbn in X; lia end.
  - match goal with X : number _ _ |- _ => destruct (number_head _ _ X) as [(? & ? & Y & Z)|(? & ? & Y & _)];
      inversion Y; subst; unfold digit in *; lia end.
  - match goal with X : quoted_lit _ _ _ |- _ => destruct (quoted_len 34 _ _ ltac:(lia) ltac:(lia) X) as (? & Y & _); discriminate end.
  - match goal with X : quoted_lit _ _ _ |- _ => destruct (quoted_len 39 _ _ ltac:(lia) ltac:(lia) X) as (? & Y & _); discriminate end.
  - match goal with X : raw_lit _ _ |- _ => destruct (raw_len _ _ X) as (? & -> & _) end.
    match goal with X : filter _ _ = _ |- _ => cbn in X; discriminate end.
  - match goal with X : stray _, Y : EncodeRune _ = _ |- _ => clear - X Y; unfold stray in X;
      unfold EncodeRune in Y; repeat match type of Y with context[if ?b then _ else _] => destruct b eqn:?; try discriminate end end.
    match goal with Y : [_] = [10] |- _ => injection Y as Y; lia end.
  - match goal with X : comment _ _ |- _ => apply comment_head in X; destruct X as (? & ? & -> & [-> | ->]) end;
    match goal with X : filter _ _ = _ |- _ => cbn in X; discriminate end.
  - match goal with X : sharp_comment _ |- _ => destruct X as (? & X & _); discriminate end.
Qed.

Lemma scanned_piece : forall b o p ps after, scanned b o (p :: ps) after ->
  tpos (p_tok p) = S (o + length (p_gap p)) /\
  gap (p_gap p) (p_text p ++ flat ps ++ after) /\ (mComments = true -> Forall ws (p_gap p)) /\
  ((tlit (p_tok p) = [10] /\ auto_semi (p_tok p) /\ mSemis = true /\ pending b /\
      line_ends (p_gap p ++ p_text p ++ flat ps ++ after) /\ Forall blank (p_gap p) /\
      (p_text p = [10] \/ (p_text p = [] /\ (flat ps ++ after = [] \/ exists c r, flat ps ++ after = c :: r /\ (c = 47 \/ c = 35))))) \/
   (tlit (p_tok p) <> [10] /\ ~ (mSemis = true /\ pending b /\ line_ends (p_gap p ++ p_text p ++ flat ps ++ after)) /\
      (tkind (p_tok p) = COMMENT -> mComments = true) /\
      lexeme isL isD (tkind (p_tok p)) (tlit (p_tok p)) (p_text p) (flat ps ++ after))).
Proof.
  intros b o p ps after H. inversion H; subst.
  - split; [assumption|]. split; [assumption|]. split; [assumption|]. right.
    split; [intro X; match goal with Y : lexeme _ _ _ _ _ _ |- _ => rewrite X in Y; exact (lexeme_lit10 _ _ _ Y) end|]. auto.
  - assert (BW : forall g, Forall blank g -> Forall ws g).
    { intros g Hg. eapply Forall_impl; [|exact Hg]. intros a. unfold blank, ws. tauto. }
    split; [assumption|]. split.
    { assert (X : Forall ws (p_gap p)) by (apply BW; assumption). clear - X. induction X; constructor; auto. }
    split; [auto|]. left. assert (X : auto_semi (p_tok p)) by assumption. pose proof (proj2 X). auto 10.
Qed.
End Obs.
