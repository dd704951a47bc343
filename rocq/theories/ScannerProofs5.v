(** Scan and whole runs of the scanner. *)
From Verif Require Import Base Token Utf8 Utf8Proofs Scanner ScannerSpec ScannerProofs ScannerProofs2 ScannerProofs3 ScannerProofs4.

Lemma white_is_ws : forall b c, is_white b c = true -> ws c.
Proof. intros [] c H; [apply white_blank in H; unfold blank in H; unfold ws; tauto|apply white_ws; exact H]. Qed.

Section Proofs.
Variables isL isD : Z -> bool.
Variables mComments mSemis : bool.
Variable src : bytes.
Hypothesis Hsrc : Forall byte src.

Notation rest := (rest src).
Notation Inv := (Inv src).
Notation ext := (ext src).
Notation mv := (mv src).
Notation scan_pass := (scan_pass isL isD mComments mSemis src).
Notation scan_loop := (scan_loop isL isD mComments mSemis src).
Notation Scan := (Scan isL isD mComments mSemis src).
Notation lexeme := (lexeme isL isD).
Notation Sinv := (Sinv mSemis).

(** What one call of Scan does: it skips the gap [g] and returns [t], spelled [text]. *)
Record step (s s' : sc) (g text : bytes) (t : token) (es : list (nat * smsg)) : Prop := mkStep {
  st_ext : ext (set_isemi (isemi s') s) s' (g ++ text) es;
  st_gap : gap g (text ++ rest s');
  st_ws : mComments = true -> Forall ws g;
  st_closed : es = [] -> closed_gap g (text ++ rest s');
  st_pos : tpos t = S (off s + length g);
  st_auto : isemi s = true -> line_ends (rest s) ->
    tkind t = SEMICOLON /\ tlit t = [10] /\ isemi s' = false /\ Forall blank g /\
    (text = [10] \/ (text = [] /\ (rest s' = [] \/ exists c r, rest s' = c :: r /\ (c = 47 \/ c = 35))));
  st_lex : ~ (isemi s = true /\ line_ends (rest s)) ->
    lexeme (tkind t) (tlit t) text (rest s') /\ (tkind t = COMMENT -> mComments = true) /\
    (okc src s -> es = [] -> well_formed (tkind t) text) /\
    (isemi s' = true <-> mSemis = true /\
      (line_final (tkind t) \/ (tkind t = ILLEGAL /\ tlit t <> [] /\ isemi s = true /\ Forall blank g)))
}.

Lemma gap_white : forall b g after, Forall (fun c => is_white b c = true) g -> gap g after.
Proof.
  intros b g after H. induction H; [apply Gap_nil|]. apply Gap_ws; auto. eapply white_is_ws; eauto.
Qed.
Lemma closed_white : forall b g after, Forall (fun c => is_white b c = true) g -> closed_gap g after.
Proof.
  intros b g after H. induction H; [apply CGap_nil|]. apply CGap_ws; auto. eapply white_is_ws; eauto.
Qed.
Lemma gap_white_app : forall b w g after, Forall (fun c => is_white b c = true) w -> gap g after -> gap (w ++ g) after.
Proof.
  intros b w g after H. induction H; [auto|]. intro. simpl. apply Gap_ws; auto. eapply white_is_ws; eauto.
Qed.
Lemma closed_white_app : forall b w g after, Forall (fun c => is_white b c = true) w -> closed_gap g after -> closed_gap (w ++ g) after.
Proof.
  intros b w g after H. induction H; [auto|]. intro. simpl. apply CGap_ws; auto. eapply white_is_ws; eauto.
Qed.

Lemma comment_head : forall c after, comment c after -> exists b r, c = b :: r /\ (b = 47 \/ b = 35).
Proof.
  intros c after [[[(x & -> & _)|(x & -> & _)] _]|[(x & -> & _)|[(x & -> & _) _]]]; eauto.
Qed.
Lemma closed_of : forall c after, comment c after -> line_comment c \/ sharp_comment c \/ closed_comment c -> ended_comment c after.
Proof.
  intros c after [[H K]|[H|[H K]]] Q; unfold ended_comment; auto.
  destruct H as (x & E & _). destruct Q as [(y & F & _)|[(y & F & _)|Q]]; auto; congruence.
Qed.

Lemma step_spec : forall k s, Inv s -> Sinv s -> (length (rest s) < k)%nat ->
  exists g text es t s', scan_loop k s = (t, s') /\ step s s' g text t es /\ Sinv s'.
Proof.
  induction k as [|k IH]; intros s HI HS Hk; [lia|].
  pose proof (pass_spec isL isD mComments mSemis src Hsrc s HI HS) as P.
  assert (U : scan_loop (S k) s = match scan_pass s with Tok t s' => (t, s') | Again s' => scan_loop k s' end) by reflexivity.
  rewrite U. clear U. destruct (scan_pass s) as [t s1|s1]; cbn [pspec] in P.
  - destruct P as (g & text & Hg & (es & X & HQ) & Hp & HK). exists g, text, es, t, s1. split; [reflexivity|].
    assert (HB : isemi s = true -> Forall blank g).
    { intros Hs. rewrite Hs in Hg. eapply Forall_impl; [|exact Hg]. intros a Ha. apply white_blank. exact Ha. }
    split.
    + constructor; auto.
      * eapply gap_white; eauto.
      * intros _. eapply Forall_impl; [|exact Hg]. intros a Ha. eapply white_is_ws; exact Ha.
      * intros _. eapply closed_white; eauto.
      * intros Hs Hle. destruct HK as [(_ & HN & _)|(_ & _ & A & B & C & D)]; [contradiction (HN Hs Hle)|].
        split; [exact A|]. split; [exact B|]. split; [exact C|]. split; [auto|exact D].
      * intro HN. destruct HK as [HK|(A & B & _)]; [|contradiction HN; auto]. pose proof HK as (A & B & C & D).
        split; [exact A|]. split; [exact C|]. split; [intros Ho ->; apply HQ; auto|]. rewrite D. intuition.
    + intro Hm. destruct (isemi s1) eqn:E1; [|reflexivity]. exfalso.
      destruct HK as [(_ & _ & _ & D)|(_ & _ & _ & _ & C & _)]; [|congruence]. apply D in E1. destruct E1. congruence.
  - destruct P as (g & c & Hg & Hc & Hcom & (e1 & X & HQ) & Hs1 & Hm & Hle).
    assert (HI1 : Inv s1) by (apply (ext_inv _ _ _ _ _ X)).
    assert (HS1 : Sinv s1) by (intro; exact Hs1).
    assert (HL : (length (rest s1) < length (rest s))%nat).
    { pose proof (ext_rest _ _ _ _ _ X) as E. change (rest (set_isemi false s)) with (rest s) in E. rewrite E, !app_length.
      destruct c; [congruence|]. simpl. lia. }
    destruct (IH s1 HI1 HS1 ltac:(lia)) as (g2 & text & e2 & t & s2 & E & ST & HS2).
    rewrite E. exists (g ++ c ++ g2), text, (e1 ++ e2), t, s2. split; [reflexivity|]. split; [|exact HS2].
    destruct ST as [X2 G2 W2 C2 P2 A2 L2].
    assert (HN1 : ~ (isemi s1 = true /\ line_ends (rest s1))) by (intros (Y & _); congruence).
    destruct (L2 HN1) as (L2a & L2b & L2c & L2d).
    pose proof (ext_rest _ _ _ _ _ X2) as R2. change (rest (set_isemi (isemi s2) s1)) with (rest s1) in R2.
    rewrite <- app_assoc in R2.
    pose proof (ext_set_isemi src (isemi s2) _ _ _ _ X) as X'. rewrite set_isemi_twice in X'.
    constructor.
    + rewrite <- !app_assoc, (app_assoc g). eapply ext_trans; [exact X'|]. exact X2.
    + eapply gap_white_app; [exact Hg|]. apply Gap_comment; [|exact G2]. rewrite <- R2. exact Hcom.
    + congruence.
    + intro Ee. apply app_eq_nil in Ee. destruct Ee as (-> & ->).
      eapply closed_white_app; [exact Hg|]. apply CGap_comment; [|apply C2; reflexivity]. rewrite <- R2. apply closed_of; auto.
    + rewrite P2. pose proof (ext_off _ _ _ _ _ X) as O. cbn [off set_isemi] in O. rewrite O, !app_length. lia.
    + intros Hs Hl. contradiction (Hle Hs Hl).
    + intros _. split; [exact L2a|]. split; [exact L2b|]. split.
      * intros Ho Ee. apply app_eq_nil in Ee. destruct Ee as (-> & ->). apply L2c; auto.
        apply (ext_clean _ _ _ _ _ X); auto.
      * rewrite L2d. split; intros (Hms & [Y|(Y1 & Y2 & Y3 & Y4)]); split; auto; [congruence|]. exfalso.
        destruct (comment_head _ _ Hcom) as (b & r & -> & Hb). rewrite Forall_forall in Y4.
        specialize (Y4 b ltac:(apply in_or_app; right; left; reflexivity)). unfold blank in Y4. lia.
Qed.

Lemma scan_step : forall s, Inv s -> Sinv s ->
  exists g text es t s', Scan s = (t, s') /\ step s s' g text t es /\ Sinv s' /\ Inv s'.
Proof.
  intros s HI HS. destruct (step_spec (fuel src) s HI HS) as (g & text & es & t & s' & E & ST & HS').
  - pose proof (rest_le src s). unfold Scanner.fuel. lia.
  - exists g, text, es, t, s'. split; [exact E|]. split; [exact ST|]. split; [exact HS'|].
    apply (ext_inv _ _ _ _ _ (st_ext _ _ _ _ _ _ ST)).
Qed.

End Proofs.
