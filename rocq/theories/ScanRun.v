(** Runs of the scanner: soundness and completeness with respect to [ScannerSpec.scanned]. *)
From Verif Require Import Base Token Utf8 Utf8Proofs Scanner ScannerSpec ScannerProofs ScannerProofs2 ScannerProofs3 ScannerProofs4
  ScannerProofs5 ScanDet.

(** [n] calls of Scan. *)
Fixpoint scans (isL isD : Z -> bool) (mC mS : bool) (src : bytes) (n : nat) (s : sc) : list token * sc :=
  match n with
  | O => ([], s)
  | S n' =>
      let '(t, s1) := Scan isL isD mC mS src s in
      let '(ts, s2) := scans isL isD mC mS src n' s1 in (t :: ts, s2)
  end.

Lemma flat_cons : forall p ps, flat (p :: ps) = p_gap p ++ p_text p ++ flat ps.
Proof. intros. unfold flat. simpl. rewrite <- app_assoc. reflexivity. Qed.

(** ** Lexemes do not start with white space *)
Lemma lexeme_not_ws : forall isL isD, isL RuneError = false -> isD RuneError = false ->
  forall k lit text after c r, Forall byte (text ++ after) ->
  lexeme isL isD k lit text after -> text ++ after = c :: r -> ~ ws c.
Proof.
  intros isL isD HL HD k lit text after c r Hb H E Hc. pose proof H as H0.
  apply (lexeme_class isL isD HL HD) in H; [|exact Hb]. rewrite E in H.
  assert (X : cls isL (c :: r) = 6%nat) by (destruct Hc as [-> | [-> | [-> | ->]]]; reflexivity).
  rewrite X in H. cbn [lexc] in H. destruct H as (_ & O & _). apply op_out in O.
  assert (C : forallb (fun p => match snd p with a :: _ => negb ((a =? 32) || (a =? 9) || (a =? 10) || (a =? 13)) | [] => false end) optab = true)
    by (vm_compute; reflexivity).
  rewrite forallb_forall in C. specialize (C _ O). cbn [snd] in C. destruct text as [|a text]; [discriminate|].
  simpl in E. injection E as -> E. destruct Hc as [-> | [-> | [-> | ->]]]; discriminate.
Qed.

Lemma ws_prefix_det : forall (P : Z -> Prop) g1 g2 x1 x2, Forall P g1 -> Forall P g2 ->
  (forall c r, x1 = c :: r -> ~ P c) -> (forall c r, x2 = c :: r -> ~ P c) -> g1 ++ x1 = g2 ++ x2 -> g1 = g2.
Proof.
  intros P g1. induction g1 as [|c g1 IH]; intros g2 x1 x2 H1 H2 N1 N2 E; destruct g2 as [|d g2]; auto.
  - inversion H2; subst. simpl in E. contradiction (N1 d (g2 ++ x2) E).
  - inversion H1; subst. simpl in E. symmetry in E. contradiction (N2 c (g1 ++ x1) E).
  - inversion H1; inversion H2; subst. simpl in E. injection E as -> E. f_equal. apply (IH g2 x1 x2); assumption.
Qed.

Lemma gap_det : forall g1 y1, gap g1 y1 -> forall g2 y2, gap g2 y2 -> g1 ++ y1 = g2 ++ y2 ->
  (forall c r, y1 = c :: r -> ~ ws c) -> (forall c r, y2 = c :: r -> ~ ws c) ->
  (forall c a, y1 = c ++ a -> ~ comment c a) -> (forall c a, y2 = c ++ a -> ~ comment c a) -> g1 = g2.
Proof.
  assert (CW : forall c a b r, comment c a -> ws b -> c ++ a = b :: r -> False).
  { intros c a b r Hc Hw E. destruct (comment_head _ _ Hc) as (x & y & -> & Hx). simpl in E. injection E as -> _.
    unfold ws in Hw. lia. }
  intros g1 y1 H1. induction H1 as [y1|b g1 y1 Hb H1 IH|c g1 y1 Hc H1 IH]; intros g2 y2 H2 E W1 W2 C1 C2.
  - simpl in E. destruct H2 as [y2|b g2 y2 Hb H2|c g2 y2 Hc H2]; auto.
    + contradiction (W1 b (g2 ++ y2) E).
    + rewrite <- app_assoc in E. contradiction (C1 c (g2 ++ y2) E).
  - destruct H2 as [y2|b2 g2 y2 Hb2 H2|c g2 y2 Hc H2].
    + simpl in E. symmetry in E. contradiction (W2 b (g1 ++ y1) E).
    + simpl in E. injection E as -> E. f_equal. apply (IH g2 y2); assumption.
    + exfalso. rewrite <- app_assoc in E. simpl in E. symmetry in E. eapply CW; eauto.
  - destruct H2 as [y2|b2 g2 y2 Hb2 H2|c2 g2 y2 Hc2 H2].
    + simpl in E. symmetry in E. rewrite <- app_assoc in E. contradiction (C2 c (g1 ++ y1) E).
    + exfalso. rewrite <- app_assoc in E. simpl in E. eapply CW; eauto.
    + rewrite <- !app_assoc in E. assert (c = c2) by (eapply comment_det; eauto). subst c2.
      apply app_inv_head in E. f_equal. apply (IH g2 y2); assumption.
Qed.

(** ** Soundness *)
Section Run.
Variables isL isD : Z -> bool.
Variables mComments mSemis : bool.
Variable src : bytes.
Hypothesis Hsrc : Forall byte src.

Notation rest := (rest src).
Notation Inv := (Inv src).
Notation Scan := (Scan isL isD mComments mSemis src).
Notation scans := (scans isL isD mComments mSemis src).
Notation lexeme := (lexeme isL isD).
Notation Sinv := (Sinv mSemis).
Notation step := (step isL isD mComments mSemis src).
Notation scanned := (scanned isL isD mComments mSemis).

(** The scanner's state after the pieces [b] (latest first). *)
Record at_pieces (s : sc) (b : list piece) : Prop := mkAt {
  ap_inv : Inv s;
  ap_sinv : Sinv s;
  ap_semi : isemi s = true <-> mSemis = true /\ pending b
}.

Lemma line_ends_dec : forall s, Inv s -> Sinv s -> line_ends (rest s) \/ ~ line_ends (rest s) \/ isemi s = false.
Proof.
  intros s HI HS. destruct (isemi s) eqn:E; [|auto].
  pose proof (pass_spec isL isD true mSemis src Hsrc s HI HS) as P.
  destruct (scan_pass isL isD true mSemis src s); cbn [pspec] in P.
  - destruct P as (g & text & _ & _ & _ & [(_ & X & _)|(_ & X & _)]); auto.
  - destruct P as (g & c & _ & _ & _ & _ & _ & X & _). discriminate.
Qed.

Definition good_piece (p : piece) (after : bytes) : Prop :=
  closed_gap (p_gap p) (p_text p ++ after) /\ (auto_semi (p_tok p) \/ well_formed (tkind (p_tok p)) (p_text p)).
Fixpoint good_pieces (ps : list piece) (after : bytes) : Prop :=
  match ps with [] => True | p :: r => good_piece p (flat r ++ after) /\ good_pieces r after end.

Lemma scan_sound : forall s b, at_pieces s b ->
  exists p s' es, Scan s = (p_tok p, s') /\ at_pieces s' (p :: b) /\
    rest s = p_gap p ++ p_text p ++ rest s' /\ off s' = (off s + length (p_gap p) + length (p_text p))%nat /\
    errs s' = errs s ++ es /\ ecount s' = ecount s + Z.of_nat (length es) /\ (Linv src s -> Linv src s') /\
    (okc src s -> es = [] -> clean (p_gap p ++ p_text p) /\ okc src s' /\ good_piece p (rest s')) /\
    (forall ps after, rest s' = flat ps ++ after -> scanned (p :: b) (off s') ps after -> scanned b (off s) (p :: ps) after).
Proof.
  intros s b [HI HS Hb]. destruct (scan_step isL isD mComments mSemis src Hsrc s HI HS) as (g & text & es & t & s' & E & ST & HS' & HI').
  destruct ST as [X G W C P A L]. set (p := mkPiece g text t). exists p, s', es.
  pose proof (ext_rest _ _ _ _ _ X) as R. pose proof (ext_off _ _ _ _ _ X) as O. cbn [off set_isemi] in O.
  change (rest (set_isemi (isemi s') s)) with (rest s) in R. rewrite <- app_assoc in R. rewrite app_length in O.
  assert (Hd : (isemi s = true /\ line_ends (rest s)) \/ ~ (isemi s = true /\ line_ends (rest s))).
  { destruct (line_ends_dec s HI HS) as [D|[D|D]]; [|right; tauto|right; intros (Y & _); congruence].
    destruct (isemi s); [left; auto|right; intros (Y & _); discriminate]. }
  split; [exact E|]. split.
  { constructor; auto. cbn [pending]. change (p_tok p) with t. change (p_gap p) with g. destruct Hd as [(D1 & D2)|D].
    - destruct (A D1 D2) as (A1 & _ & A3 & _). rewrite A3. split; [discriminate|].
      rewrite A1. intros (_ & [Y|(Y & _)]); [|discriminate]. unfold line_final in Y.
      repeat (destruct Y as [Y|Y]; [discriminate|]). discriminate.
    - destruct (L D) as (_ & _ & _ & L4). rewrite L4. rewrite Hb. tauto. }
  split; [exact R|]. split; [cbn [p_gap p_text p]; lia|].
  split; [exact (ext_errs _ _ _ _ _ X)|]. split; [exact (ext_count _ _ _ _ _ X)|]. split; [exact (ext_lines _ _ _ _ _ X)|].
  split.
  { intros Ho ->. destruct (ext_clean _ _ _ _ _ X Ho eq_refl) as (Y1 & Y2). split; [exact Y1|]. split; [exact Y2|].
    split; [apply C; reflexivity|]. change (p_tok p) with t. change (p_text p) with text. destruct Hd as [(D1 & D2)|D].
    - left. destruct (A D1 D2) as (A1 & A2 & _). split; auto.
    - right. apply L; auto. }
  intros ps after Hr Hsc. assert (Hle : p_gap p ++ p_text p ++ flat ps ++ after = rest s) by (rewrite R, Hr; reflexivity).
  replace (off s') with (off s + length (p_gap p) + length (p_text p))%nat in Hsc by (cbn [p_gap p_text p]; lia).
  destruct Hd as [(D1 & D2)|D].
  - destruct (A D1 D2) as (A1 & A2 & A3 & A4 & A5). apply Hb in D1. destruct D1 as (D3 & D4).
    apply Sc_semi; auto.
    + rewrite Hle. exact D2.
    + split; auto.
    + rewrite <- Hr. exact A5.
  - destruct (L D) as (L1 & L2 & L3 & L4). apply Sc_tok; auto.
    + rewrite Hle. intros (Y1 & Y2 & Y3). apply D. split; [apply Hb; auto|exact Y3].
    + rewrite <- Hr. exact G.
    + rewrite <- Hr. exact L1.
Qed.

Lemma scans_sound : forall n s b, at_pieces s b ->
  exists ps s' es, scans n s = (map p_tok ps, s') /\ length ps = n /\ at_pieces s' (rev ps ++ b) /\
    rest s = flat ps ++ rest s' /\ off s' = (off s + length (flat ps))%nat /\
    scanned b (off s) ps (rest s') /\
    errs s' = errs s ++ es /\ ecount s' = ecount s + Z.of_nat (length es) /\ (Linv src s -> Linv src s') /\
    (okc src s -> es = [] -> clean (flat ps) /\ okc src s' /\ good_pieces ps (rest s')).
Proof.
  induction n as [|n IH]; intros s b Ha.
  - exists [], s, []. cbn. split; [reflexivity|]. split; [reflexivity|]. split; [exact Ha|]. split; [reflexivity|].
    split; [lia|]. split; [constructor|]. split; [rewrite app_nil_r; reflexivity|]. split; [lia|]. split; [auto|].
    intros Ho _. split; [constructor|auto].
  - destruct (scan_sound s b Ha) as (p & s1 & e1 & E & A1 & R1 & O1 & X1 & C1 & L1 & K1 & S1).
    destruct (IH s1 (p :: b) A1) as (ps & s2 & e2 & E2 & N2 & A2 & R2 & O2 & S2 & X2 & C2 & L2 & K2).
    exists (p :: ps), s2, (e1 ++ e2). cbn [ScanRun.scans]. rewrite E, E2. split; [reflexivity|]. split; [simpl; congruence|].
    split; [simpl; rewrite <- app_assoc; exact A2|]. split; [rewrite flat_cons, R1, R2, <- !app_assoc; reflexivity|].
    split; [rewrite flat_cons, !app_length; lia|]. split; [apply S1; assumption|].
    split; [rewrite X2, X1, app_assoc; reflexivity|]. split; [rewrite app_length; lia|]. split; [auto|].
    intros Ho Ee. apply app_eq_nil in Ee. destruct Ee as (-> & ->). destruct (K1 Ho eq_refl) as (Y1 & Y2 & Y3).
    destruct (K2 Y2 eq_refl) as (Z1 & Z2 & Z3).
    split; [rewrite flat_cons, app_assoc; apply clean_app; assumption|]. split; [exact Z2|]. cbn [good_pieces].
    split; [rewrite <- R2; exact Y3|exact Z3].
Qed.

(** ** Completeness: the specification determines the tokens. *)
Hypothesis HL : isL RuneError = false.
Hypothesis HD : isD RuneError = false.

Lemma piece_det : forall b o p1 p2 r1 r2, Forall byte (p_gap p1 ++ p_text p1 ++ r1) ->
  scanned b o [p1] r1 -> scanned b o [p2] r2 ->
  p_gap p1 ++ p_text p1 ++ r1 = p_gap p2 ++ p_text p2 ++ r2 -> p1 = p2 /\ r1 = r2.
Proof.
  intros b o p1 p2 r1 r2 Hby H1 H2 E.
  assert (NC : forall k lit text after, Forall byte (text ++ after) -> lexeme k lit text after -> k <> COMMENT ->
     forall c a, text ++ after = c ++ a -> ~ comment c a).
  { intros k lit text after Hbb Hl Hk c a Ec Hc. apply (lexeme_class isL isD HL HD) in Hl; [|exact Hbb].
    rewrite Ec, (cls_comment isL c a Hc) in Hl. destruct Hl as (_ & X & _). contradiction. }
  assert (Hb1 : Forall byte (p_text p1 ++ r1)) by (apply Forall_app in Hby; tauto).
  assert (Hb2 : Forall byte (p_text p2 ++ r2)) by (rewrite E in Hby; apply Forall_app in Hby; tauto).
  assert (FIN : p_gap p1 = p_gap p2 -> p_text p1 = p_text p2 -> tkind (p_tok p1) = tkind (p_tok p2) -> tlit (p_tok p1) = tlit (p_tok p2) ->
    tpos (p_tok p1) = S (o + length (p_gap p1)) -> tpos (p_tok p2) = S (o + length (p_gap p2)) -> p1 = p2 /\ r1 = r2).
  { intros Q1 Q2 Q3 Q4 Q5 Q6. rewrite Q1, Q2 in E. apply app_inv_head in E. apply app_inv_head in E. split; [|exact E].
    destruct p1 as [g1 t1 [k1 n1 l1]], p2 as [g2 t2 [k2 n2 l2]]. simpl in *. congruence. }
  assert (B3 : forall p r, (p_text p = [10] \/ (p_text p = [] /\ (r = [] \/ exists c r', r = c :: r' /\ (c = 47 \/ c = 35)))) ->
     forall c l, p_text p ++ r = c :: l -> ~ blank c).
  { intros p r [X|(X & [-> | (c0 & r' & -> & Hc0)])] c l Hc; rewrite X in Hc; simpl in Hc.
    - injection Hc as <- _. unfold blank. lia.
    - discriminate.
    - injection Hc as <- _. unfold blank. lia. }
  inversion H1 as [|? ? ? ? ? N1 G1 W1 C1 L1 P1 _|? ? ? ? ? M1 D1 E1 B1 A1 T1 P1 _]; subst;
  inversion H2 as [|? ? ? ? ? N2 G2 W2 C2 L2 P2 _|? ? ? ? ? M2 D2 E2 B2 A2 T2 P2 _]; subst;
  cbn [flat flat_map app] in *.
  - assert (X1 : forall c r, p_text p1 ++ r1 = c :: r -> ~ ws c) by (intros c r Ec; exact (lexeme_not_ws isL isD HL HD _ _ _ _ c r Hb1 L1 Ec)).
    assert (X2 : forall c r, p_text p2 ++ r2 = c :: r -> ~ ws c) by (intros c r Ec; exact (lexeme_not_ws isL isD HL HD _ _ _ _ c r Hb2 L2 Ec)).
    assert (Eg : p_gap p1 = p_gap p2).
    { destruct mComments eqn:Em.
      - apply (ws_prefix_det ws _ _ (p_text p1 ++ r1) (p_text p2 ++ r2)); auto.
      - apply (gap_det _ (p_text p1 ++ r1) G1 _ (p_text p2 ++ r2) G2 E X1 X2).
        + apply (NC _ _ _ _ Hb1 L1). intro Y. apply C1 in Y. discriminate.
        + apply (NC _ _ _ _ Hb2 L2). intro Y. apply C2 in Y. discriminate. }
    pose proof E as E'. rewrite Eg in E'. apply app_inv_head in E'.
    destruct (lexeme_det isL isD HL HD _ _ _ _ _ _ _ _ Hb1 E' L1 L2) as (Y1 & Y2 & Y3). auto.
  - exfalso. apply N1. rewrite E. auto.
  - exfalso. apply N2. rewrite <- E. auto.
  - assert (Eg : p_gap p1 = p_gap p2) by (exact (ws_prefix_det blank _ _ (p_text p1 ++ r1) (p_text p2 ++ r2) B1 B2 (B3 p1 r1 T1) (B3 p2 r2 T2) E)).
    destruct A1, A2. apply FIN; auto; try congruence.
    rewrite Eg in E. apply app_inv_head in E.
    destruct T1 as [T1|(T1 & T1')], T2 as [T2|(T2 & T2')]; rewrite T1, T2 in *; auto; simpl in E; exfalso.
    + rewrite <- E in T2'. destruct T2' as [Y|(c & r & Y & Yc)]; [discriminate|]. injection Y as <- _. lia.
    + rewrite E in T1'. destruct T1' as [Y|(c & r & Y & Yc)]; [discriminate|]. injection Y as <- _. lia.
Qed.

Lemma scanned_one : forall b o p ps after, scanned b o (p :: ps) after ->
  scanned b o [p] (flat ps ++ after) /\ scanned (p :: b) (o + length (p_gap p) + length (p_text p)) ps after.
Proof.
  intros b o p ps after H. inversion H; subst; split; auto.
  - apply Sc_tok; cbn [flat flat_map app]; auto. constructor.
  - apply Sc_semi; cbn [flat flat_map app]; auto. constructor.
Qed.

Lemma scans_complete : forall ps s b after, at_pieces s b -> rest s = flat ps ++ after -> scanned b (off s) ps after ->
  exists s', scans (length ps) s = (map p_tok ps, s') /\ rest s' = after.
Proof.
  induction ps as [|p ps IH]; intros s b after Ha Hr Hs.
  - exists s. split; [reflexivity|exact Hr].
  - destruct (scan_sound s b Ha) as (p1 & s1 & e1 & E & A1 & R1 & O1 & _ & _ & _ & _ & S1).
    apply scanned_one in Hs. destruct Hs as (Hs1 & Hs2).
    assert (X : scanned b (off s) [p1] (rest s1)) by (apply S1; [reflexivity|constructor]).
    rewrite flat_cons, <- !app_assoc in Hr.
    destruct (piece_det b (off s) p1 p (rest s1) (flat ps ++ after)) as (-> & Er); auto.
    { rewrite <- R1. apply rest_bytes. exact Hsrc. }
    { congruence. }
    rewrite <- O1 in Hs2. destruct (IH s1 (p :: b) after A1 Er Hs2) as (s' & E' & R').
    exists s'. cbn [ScanRun.scans length]. rewrite E, E'. auto.
Qed.
End Run.
