(** What the scanner does with //line comments. *)
From Verif Require Import Base Token Utf8 Utf8Proofs Scanner ScannerSpec ScannerProofs ScannerProofs2 ScannerProofs3 ScannerProofs4
  ScannerProofs5 ScanDet ScanRun ScanInit ScanObs ScanModes.

Section Lines.
Variables isL isD : Z -> bool.
Variable mSemis : bool.
Variable src : bytes.
Notation next := (next src).

(** ** Nothing else touches the line infos *)
Lemma i_newline : forall o s, infos (newline src o s) = infos s.
Proof. intros o s. unfold newline. destruct (_ =? _); reflexivity. Qed.
Lemma i_next : forall s, infos (next s) = infos s.
Proof.
  intro s. unfold Scanner.next. destruct (skipn (rd s) src) as [|b r]; [apply i_newline|]. destruct (b =? 0); [cbn; apply i_newline|].
  destruct (128 <=? b); [|cbn; apply i_newline]. destruct (DecodeRune (b :: r)) as [c w].
  destruct (_ && _); [cbn; apply i_newline|]. destruct (_ && _); cbn; apply i_newline.
Qed.
Lemma i_while : forall k p s, infos (while src k p s) = infos s.
Proof. induction k as [|k IH]; intros p s; unfold while; fold while; destruct (p (ch s)); try reflexivity. rewrite IH. apply i_next. Qed.
Lemma i_skip : forall s, infos (skipWhitespace src s) = infos s.
Proof. intro s. apply i_while. Qed.
Lemma i_mant : forall b s, infos (scanMantissa src b s) = infos s.
Proof. intros b s. apply i_while. Qed.
Lemma i_lcom : forall k cr s, infos (snd (lcom_loop src k cr s)) = infos s.
Proof. induction k as [|k IH]; intros cr s; simpl; destruct (_ && _); try reflexivity. rewrite IH. apply i_next. Qed.
Lemma i_bcom : forall k cr s, infos (snd (bcom_loop src k cr s)) = infos s.
Proof.
  induction k as [|k IH]; intros cr s; simpl; destruct (0 <=? ch s); try reflexivity. destruct (_ && _); cbn [snd]; [rewrite !i_next; reflexivity|].
  rewrite IH. apply i_next.
Qed.
Lemma i_fle_block : forall k s, infos (snd (fle_block src k s)) = infos s.
Proof.
  induction k as [|k IH]; intros s; simpl; destruct (0 <=? ch s); try reflexivity. destruct (ch s =? 10); [reflexivity|].
  destruct (_ && _); cbn [snd]; [rewrite !i_next; reflexivity|]. rewrite IH. apply i_next.
Qed.
Lemma i_fle : forall k s, infos (snd (fle_loop src k s)) = infos s.
Proof.
  induction k as [|k IH]; intros s; unfold fle_loop; fold fle_loop; destruct (ch s =? 47); try reflexivity; destruct (ch s =? 42); try reflexivity.
  pose proof (i_fle_block (fuel src) (next s)) as B. destruct (fle_block src (fuel src) (next s)) as [r s1]. cbn [snd] in B. rewrite i_next in B.
  destruct r; [exact B|]. destruct (_ || _); [cbn [snd]; rewrite i_skip; exact B|]. destruct (negb _); [cbn [snd]; rewrite i_skip; exact B|].
  rewrite IH, i_next, i_skip. exact B.
Qed.
Lemma i_fle_end : forall s, infos (snd (findLineEnd src s)) = infos s.
Proof. intro s. unfold findLineEnd. pose proof (i_fle (fuel src) s) as B. destruct (fle_loop src (fuel src) s) as [r s1]. cbn [snd] in *. rewrite i_next. exact B. Qed.
Lemma i_exp : forall k s, infos (snd (scan_exponent src k s)) = infos s.
Proof.
  intros k s. unfold scan_exponent. destruct (_ || _).
  - destruct (_ =? 105); cbn [snd]; rewrite ?i_next, i_mant; destruct (_ || _); rewrite ?i_next; reflexivity.
  - destruct (_ =? 105); cbn [snd]; rewrite ?i_next; reflexivity.
Qed.
Lemma i_frac : forall k s, infos (snd (scan_fraction src k s)) = infos s.
Proof. intros k s. unfold scan_fraction. destruct (_ =? 46); rewrite i_exp, ?i_mant, ?i_next; reflexivity. Qed.
Lemma i_number : forall d s, infos (snd (scanNumber src d s)) = infos s.
Proof.
  intros d s. unfold scanNumber. set (r := if d then _ else _). assert (H : infos (snd r) = infos s); [|destruct r; exact H]. subst r.
  destruct d; [rewrite i_exp, i_mant; reflexivity|]. destruct (ch s =? 48); [|rewrite i_frac, i_mant; reflexivity].
  destruct (_ || _); cbn [snd].
  - destruct (_ <=? _)%nat; cbn [infos error]; rewrite i_mant, !i_next; reflexivity.
  - destruct ((_ =? 56) || _); (destruct (_ || _); [rewrite i_frac|cbn [snd infos error]]; rewrite !i_mant, i_next; reflexivity).
Qed.
Lemma i_esc_loop : forall n base x s, infos (snd (esc_loop src n base x s)) = infos s.
Proof. induction n as [|n IH]; intros base x s; cbn [esc_loop]; [reflexivity|]. destruct (_ <=? _); [reflexivity|]. rewrite IH. apply i_next. Qed.
Lemma i_escape : forall q s, infos (snd (scanEscape src q s)) = infos s.
Proof.
  assert (D : forall n base max o s1, infos (snd (let '(r, s2) := esc_loop src n base 0 s1 in match r with None => (false, s2) | Some x =>
     if (max <? x) || ((55296 <=? x) && (x <? 57344)) then (false, error o EEscUnicode s2) else (true, s2) end)) = infos s1).
  { intros n base max o s1. pose proof (i_esc_loop n base 0 s1) as B. destruct (esc_loop src n base 0 s1) as [[x|] s2]; [|exact B]. destruct (_ || _); exact B. }
  intros q s. unfold scanEscape. destruct (_ || _); [apply i_next|]. destruct (_ && _); [apply D|]. destruct (_ =? _); [rewrite D; apply i_next|].
  destruct (_ =? _); [rewrite D; apply i_next|]. destruct (_ =? _); [rewrite D; apply i_next|]. reflexivity.
Qed.
Lemma i_rune_loop : forall k o v n s, infos (snd (rune_loop src k o v n s)) = infos s.
Proof.
  induction k as [|k IH]; intros o v n s; unfold rune_loop; fold rune_loop; cbv zeta; destruct (_ || _); try (destruct v; reflexivity); try reflexivity.
  destruct (_ =? 39); [apply i_next|]. destruct (_ =? 92); [|rewrite IH; apply i_next].
  pose proof (i_escape 39 (next s)) as B. destruct (scanEscape src 39 (next s)) as [ok s2]. rewrite IH, <- (i_next s). exact B.
Qed.
Lemma i_rune : forall s, infos (snd (scanRune src s)) = infos s.
Proof.
  intro s. unfold scanRune. pose proof (i_rune_loop (fuel src) (off s - 1) true 0 s) as B. destruct (rune_loop src (fuel src) (off s - 1) true 0 s) as [[v n] s1].
  cbn [snd] in *. destruct (_ && _); exact B.
Qed.
Lemma i_str_loop : forall k o s, infos (str_loop src k o s) = infos s.
Proof.
  induction k as [|k IH]; intros o s; unfold str_loop; fold str_loop; cbv zeta; destruct (_ || _); try reflexivity. destruct (_ =? 34); [apply i_next|].
  destruct (_ =? 92); [|rewrite IH; apply i_next]. pose proof (i_escape 34 (next s)) as B. destruct (scanEscape src 34 (next s)) as [ok s2]. rewrite IH, <- (i_next s). exact B.
Qed.
Lemma i_raw_loop : forall k o cr s, infos (snd (raw_loop src k o cr s)) = infos s.
Proof.
  induction k as [|k IH]; intros o cr s; simpl; destruct (_ <? 0); try reflexivity. destruct (_ =? 96); [apply i_next|]. rewrite IH. apply i_next.
Qed.
Lemma i_raw : forall s, infos (snd (scanRawString src s)) = infos s.
Proof. intro s. unfold scanRawString. pose proof (i_raw_loop (fuel src) (off s - 1) false s) as B. destruct (raw_loop _ _ _ _ s). exact B. Qed.
Lemma i_switch2 : forall a b s, infos (snd (switch2 src a b s)) = infos s.
Proof. intros. unfold switch2. destruct (_ =? _); [apply i_next|reflexivity]. Qed.
Lemma i_switch3 : forall a b c d s, infos (snd (switch3 src a b c d s)) = infos s.
Proof. intros. unfold switch3. destruct (_ =? _); [apply i_next|]. destruct (_ =? _); [apply i_next|reflexivity]. Qed.
Lemma i_switch4 : forall a b c d e s, infos (snd (switch4 src a b c d e s)) = infos s.
Proof. intros. unfold switch4. destruct (_ =? _); [apply i_next|]. destruct (_ =? _); [|reflexivity]. destruct (_ =? _); cbn [snd]; rewrite !i_next; reflexivity. Qed.

(** ** Where a comment is read *)
(** the text from here to the end of the line *)
Fixpoint line_text (l : bytes) : bytes := match l with [] => [] | c :: r => if c =? 10 then [] else c :: line_text r end.
(** the line infos after a comment with text [text] at the start of the line at [o] *)
Definition interp_text (o : nat) (text : bytes) (l : list (nat * bytes * Z)) : list (nat * bytes * Z) :=
  if beq (firstn 7 text) line_prefix then
    match last_colon text with
    | Some i => match posAtoi (skipn (S i) text) with Some n => AddLineInfo src (o + length text + 1) (sub text 7 i) n l | None => l end
    | None => l
    end
  else l.
Definition note (o : nat) (l : list (nat * bytes * Z)) : list (nat * bytes * Z) :=
  if (line_start src o =? o)%nat then interp_text o (line_text (skipn o src)) l else l.
Definition note_tok (l : list (nat * bytes * Z)) (t : token) : list (nat * bytes * Z) :=
  if tkind t =? COMMENT then note (tpos t - 1) l else l.

Lemma interpret_infos : forall text s, infos (interpretLineComment src text s) = interp_text (lineOff s) text (infos s).
Proof.
  intros text s. unfold interpretLineComment, interp_text. destruct (beq _ _); [|reflexivity]. destruct (last_colon text); [|reflexivity].
  destruct (posAtoi _); reflexivity.
Qed.
Lemma line_text_app : forall t r, ~ In 10 t -> at_line_end r -> line_text (t ++ r) = t.
Proof.
  induction t as [|c t IH]; intros r H Hr; cbn [app line_text].
  - destruct Hr as [->|(x & ->)]; reflexivity.
  - destruct (Z.eqb_spec c 10) as [E|E]; [exfalso; apply H; left; exact E|]. rewrite IH; auto. intro X. apply H. right. exact X.
Qed.
Lemma interp_other : forall o c d text l, (c =? 47) && (d =? 47) = false -> interp_text o (c :: d :: text) l = l.
Proof.
  intros o c d text l H. unfold interp_text. cbn [firstn]. unfold line_prefix. cbn [beq]. apply andb_false_iff in H.
  destruct (c =? 47); [|reflexivity]. destruct H as [H|H]; [discriminate|]. rewrite H. reflexivity.
Qed.
Lemma interp_short : forall o c l, interp_text o [c] l = l.
Proof. intros o c l. unfold interp_text, line_prefix. cbn [firstn beq]. destruct (c =? 47); reflexivity. Qed.
Lemma note_other : forall o c r l, skipn o src = c :: r -> (c = 47 -> forall r', r <> 47 :: r') -> note o l = l.
Proof.
  intros o c r l E H. unfold note. destruct (_ =? _)%nat; [|reflexivity]. rewrite E. cbn [line_text].
  destruct (c =? 10); [reflexivity|]. destruct r as [|d r]; cbn [line_text]; [apply interp_short|]. destruct (d =? 10) eqn:D; [apply interp_short|].
  apply interp_other. destruct (Z.eqb_spec c 47) as [->|]; [|reflexivity]. destruct (Z.eqb_spec d 47) as [->|]; [|reflexivity].
  exfalso. apply (H eq_refl r). reflexivity.
Qed.

Hypothesis Hsrc : Forall byte src.
Notation Inv := (Inv src).
Notation rest := (rest src).
Notation ext := (ext src).
Notation mv := (mv src).
Notation LO := (LO src).

Lemma mv_lo : forall s s' t Q, mv s s' t Q -> LO s -> LO s'.
Proof. intros s s' t Q (es & X & _). exact (ext_lo _ _ _ _ _ X). Qed.
Lemma mv_same_lo : forall s s' t Q, mv s s' t Q -> ~ In 10 t -> lineOff s' = lineOff s.
Proof. intros s s' t Q (es & X & _). exact (ext_same_lo _ _ _ _ _ X). Qed.

Lemma comment_infos : forall s0 s, LO s0 -> mv s0 s [47] True -> (ch s = 47 \/ ch s = 42) ->
  infos (snd (scanComment src s)) = note (off s0) (infos s).
Proof.
  intros s0 s HL M0 Hc. unfold scanComment. pose proof (mv_inv src _ _ _ _ M0) as HI. pose proof (mv_rest src _ _ _ _ M0) as R0. cbn [app] in R0.
  pose proof (mv_off src _ _ _ _ M0) as O0. cbn [length] in O0. replace (off s - 1)%nat with (off s0) by lia.
  pose proof (mv_ascii src Hsrc s (ch s) HI eq_refl ltac:(lia)) as M1. pose proof (mv_inv src _ _ _ _ M1) as I1. pose proof (mv_rest src _ _ _ _ M1) as R1. cbn [app] in R1.
  destruct (Z.eqb_spec (ch s) 47) as [E|E].
  - pose proof (i_lcom (fuel src) false (next s)) as B. destruct (lcom_mv src Hsrc (fuel src) false (next s) I1) as (cr & s' & t & El & M2 & H1 & H2 & H3).
    { pose proof (rest_le src (next s)). unfold fuel. lia. }
    rewrite El in *. cbn [snd] in B. rewrite i_next in B.
    assert (Lo : lineOff s' = line_start src (off s0)).
    { rewrite (mv_same_lo _ _ _ _ M2 H1), (mv_same_lo _ _ _ _ M1), (mv_same_lo _ _ _ _ M0); [exact HL| |]; intros [X|[]]; lia. }
    assert (T : sub src (off s0) (off s') = 47 :: 47 :: t).
    { assert (M : mv s s' (47 :: t) True) by (rewrite E in M1; change (47 :: t) with ([47] ++ t); eapply mv_app; eauto).
      pose proof (mv_sub1 src _ _ _ _ _ _ _ M0 M) as X. replace (off s - 1)%nat with (off s0) in X by lia. exact X. }
    assert (LT : line_text (rest s0) = 47 :: 47 :: t).
    { rewrite R0, R1, E, (mv_rest src _ _ _ _ M2). cbn [line_text Z.eqb Pos.eqb]. rewrite line_text_app; auto. }
    rewrite Lo, Nat.eqb_sym. unfold note. change (skipn (off s0) src) with (rest s0). rewrite LT.
    destruct (Nat.eqb_spec (line_start src (off s0)) (off s0)) as [Y|Y]; cbn [snd]; [|exact B]. rewrite interpret_infos, T, B, Lo, Y. reflexivity.
  - pose proof (i_bcom (fuel src) false (next s)) as B. destruct (bcom_loop src (fuel src) false (next s)) as [[cl cr] s1]. cbn [snd] in B. rewrite i_next in B.
    rewrite (note_other (off s0) 47 (rest s) _ R0); [|intros _ r' X; rewrite R1 in X; congruence]. destruct cl; exact B.
Qed.

(** ** One pass, and a run *)
Definition told (s0 : sc) (r : pass) : Prop :=
  match r with Tok t s' => infos s' = note_tok (infos s0) t | Again _ => True end.
Lemma told_finish : forall s0 pos b k lit s, (k =? COMMENT) = false -> infos s = infos s0 -> told s0 (finish mSemis pos b k lit s).
Proof. intros s0 pos b k lit s Hk E. unfold finish, told, note_tok. cbn [tkind]. rewrite Hk. destruct mSemis; exact E. Qed.
Lemma told_tok : forall s0 k pos lit s, (k =? COMMENT) = false -> infos s = infos s0 -> told s0 (Tok (mkTok k pos lit) s).
Proof. intros s0 k pos lit s Hk E. unfold told, note_tok. cbn [tkind]. rewrite Hk. exact E. Qed.
Lemma num_kind : forall d s, (fst (fst (scanNumber src d s)) =? COMMENT) = false.
Proof.
  assert (X : forall k s, (k =? COMMENT) = false -> (fst (scan_exponent src k s) =? COMMENT) = false).
  { intros k s Hk. unfold scan_exponent. destruct (_ || _); destruct (_ =? 105); try reflexivity. exact Hk. }
  assert (Y : forall k s, (k =? COMMENT) = false -> (fst (scan_fraction src k s) =? COMMENT) = false).
  { intros k s Hk. unfold scan_fraction. destruct (_ =? 46); apply X; [reflexivity|exact Hk]. }
  intros d s. unfold scanNumber. set (r := if d then _ else _). assert (H : (fst r =? COMMENT) = false); [|destruct r; exact H]. subst r.
  destruct d; [apply X; reflexivity|]. destruct (ch s =? 48); [|apply Y; reflexivity]. destruct (_ || _); [reflexivity|].
  destruct ((_ =? 56) || _); (destruct (_ || _); [apply Y; reflexivity|reflexivity]).
Qed.

Lemma pass_told : forall s0, Inv s0 -> LO s0 -> told s0 (scan_pass isL isD true mSemis src s0).
Proof.
  intros s0 HI0 HL0. unfold scan_pass. destruct (skip_mv src Hsrc s0 HI0) as (g & M0 & Hg & Hstop).
  pose proof (i_skip s0) as B0. set (s := skipWhitespace src s0) in *.
  pose proof (mv_inv src _ _ _ _ M0) as HI. pose proof (mv_lo _ _ _ _ M0 HL0) as HL.
  destruct (isLetter isL (ch s)).
  { pose proof (i_while (fuel src) (fun c => isLetter isL c || isDigit isD c) s) as B. unfold scanIdentifier.
    apply told_finish; [reflexivity|congruence]. }
  destruct ((48 <=? ch s) && (ch s <=? 57)).
  { pose proof (i_number false s) as B. pose proof (num_kind false s) as K. destruct (scanNumber src false s) as [[k lit] s1]. apply told_finish; [exact K|cbn [snd] in B; congruence]. }
  pose proof (i_next s) as B1. set (s1 := next s) in *. rewrite B0 in B1.
  assert (F : forall pos b k lit, (k =? COMMENT) = false -> told s0 (finish mSemis pos b k lit s1)) by (intros; apply told_finish; auto).
  assert (F1 : forall pos b k lit, (k =? COMMENT) = false -> told s0 (finish mSemis pos b k lit (next s1))) by (intros; apply told_finish; auto; rewrite i_next; auto).
  assert (W2 : forall pos b a a', (a =? COMMENT) = false -> (a' =? COMMENT) = false -> forall x, infos x = infos s0 -> told s0 (fin_op mSemis pos b (switch2 src a a' x))).
  { intros pos b a a' H1 H2 x Hx. apply told_finish; [|rewrite i_switch2; exact Hx]. unfold switch2. destruct (ch _ =? _); auto. }
  assert (W3 : forall pos b a a' c d, (a =? COMMENT) = false -> (a' =? COMMENT) = false -> (d =? COMMENT) = false -> told s0 (fin_op mSemis pos b (switch3 src a a' c d s1))).
  { intros pos b a a' c d H1 H2 H3. apply told_finish; [|rewrite i_switch3; exact B1]. unfold switch3. destruct (ch _ =? _); auto. destruct (ch _ =? _); auto. }
  assert (W4 : forall pos b a a' c d e, (a =? COMMENT) = false -> (a' =? COMMENT) = false -> (d =? COMMENT) = false -> (e =? COMMENT) = false ->
    told s0 (fin_op mSemis pos b (switch4 src a a' c d e s1))).
  { intros pos b a a' c d e H1 H2 H3 H4. apply told_finish; [|rewrite i_switch4; exact B1]. unfold switch4. destruct (ch _ =? _); auto. destruct (ch _ =? _); auto. destruct (ch _ =? _); auto. }
  destruct (ch s =? -1); [destruct (isemi s1); [apply told_tok; auto|apply F; auto]|].
  destruct (ch s =? 10); [apply told_tok; auto|].
  destruct (ch s =? 34). { unfold scanString. apply told_finish; [reflexivity|rewrite i_str_loop; exact B1]. }
  destruct (ch s =? 39). { pose proof (i_rune s1) as B. destruct (scanRune src s1) as [lit s2]. apply told_finish; [reflexivity|cbn [snd] in B; congruence]. }
  destruct (ch s =? 96). { pose proof (i_raw s1) as B. destruct (scanRawString src s1) as [lit s2]. apply told_finish; [reflexivity|cbn [snd] in B; congruence]. }
  destruct (ch s =? 58); [apply W2; auto|].
  destruct (ch s =? 46).
  { destruct (_ && _).
    - pose proof (i_number true s1) as B. pose proof (num_kind true s1) as K. destruct (scanNumber src true s1) as [[k lit] s2]. apply told_finish; [exact K|cbn [snd] in B; congruence].
    - destruct (_ =? 46); [|apply F; reflexivity]. destruct (_ =? 46); apply told_finish; try reflexivity; rewrite ?i_next; exact B1. }
  destruct (ch s =? 44); [apply F; reflexivity|]. destruct (ch s =? 59); [apply F; reflexivity|]. destruct (ch s =? 40); [apply F; reflexivity|].
  destruct (ch s =? 41); [apply F; reflexivity|]. destruct (ch s =? 91); [apply F; reflexivity|]. destruct (ch s =? 93); [apply F; reflexivity|].
  destruct (ch s =? 123); [apply F; reflexivity|]. destruct (ch s =? 125); [apply F; reflexivity|].
  destruct (ch s =? 43); [apply W3; reflexivity|]. destruct (ch s =? 45); [apply W3; reflexivity|]. destruct (ch s =? 42); [apply W2; auto|].
  destruct (Z.eqb_spec (ch s) 47) as [E|_].
  { pose proof (mv_ascii src Hsrc s 47 HI E ltac:(lia)) as M1. fold s1 in M1. destruct ((ch s1 =? 47) || (ch s1 =? 42)) eqn:G0; [|apply W2; auto].
    assert (Hc : ch s1 = 47 \/ ch s1 = 42) by (apply orb_true_iff in G0; rewrite !Z.eqb_eq in G0; exact G0).
    assert (exists le s2, (if isemi s1 then findLineEnd src s1 else (false, s1)) = (le, s2) /\ mv s s2 [47] True /\ infos s2 = infos s0) as (le & s2 & Ele & MF & Bf).
    { destruct (isemi s1) eqn:Es.
      - destruct (lineend_mv src Hsrc s s1 HI M1 Es) as (r & s2 & Er & MF & _). exists r, s2. split; [exact Er|]. split; [exact MF|].
        pose proof (i_fle_end s1) as B. rewrite Er in B. cbn [snd] in B. congruence.
      - exists false, s1. auto. }
    rewrite Ele. destruct le; [apply told_tok; [reflexivity|exact Bf]|].
    assert (Hc2 : ch s2 = 47 \/ ch s2 = 42).
    { pose proof (mv_inv src _ _ _ _ MF) as (_ & I2 & _). pose proof (mv_inv src _ _ _ _ M1) as (_ & I1 & _).
      pose proof (mv_rest src _ _ _ _ MF) as RF. rewrite (mv_rest src _ _ _ _ M1) in RF. injection RF as RF. rewrite RF in I1. rewrite I2, <- I1. exact Hc. }
    pose proof (comment_infos s s2 HL MF Hc2) as B. destruct (scanComment src s2) as [lit s3]. cbn [snd] in B. rewrite Bf in B.
    unfold finish, told, note_tok. cbn [tkind tpos]. replace (S (off s) - 1)%nat with (off s) by lia. destruct mSemis; exact B. }
  destruct (Z.eqb_spec (ch s) 35) as [E|_].
  { destruct (isemi s1); [apply told_tok; [reflexivity|exact B1]|]. unfold scanSharpComment.
    pose proof (i_while (fuel src) (fun c => negb ((c =? 10) || (c <? 0))) s1) as B. rewrite B1 in B.
    pose proof (mv_ascii src Hsrc s 35 HI E ltac:(lia)) as M1. pose proof (mv_rest src _ _ _ _ M1) as R1. cbn [app] in R1.
    unfold finish, told, note_tok. cbn [tkind tpos]. replace (S (off s) - 1)%nat with (off s) by lia. cbn [COMMENT Z.eqb].
    change (COMMENT =? COMMENT) with true. cbv iota. rewrite (note_other (off s) 35 _ _ R1) by (intro; discriminate). destruct mSemis; exact B. }
  destruct (ch s =? 37); [apply W2; auto|]. destruct (ch s =? 94); [apply W2; auto|].
  destruct (ch s =? 60). { destruct (_ =? 45); [apply F1; reflexivity|apply W4; reflexivity]. }
  destruct (ch s =? 62); [apply W4; reflexivity|]. destruct (ch s =? 61); [apply W2; auto|]. destruct (ch s =? 33); [apply W2; auto|].
  destruct (ch s =? 38). { destruct (_ =? 94); [apply W2; auto; rewrite i_next; exact B1|apply W3; reflexivity]. }
  destruct (ch s =? 124); [apply W3; reflexivity|]. destruct (ch s =? 63); [apply F; reflexivity|]. destruct (ch s =? 126); [apply F; reflexivity|].
  destruct (ch s =? 64); [apply F; reflexivity|]. destruct (ch s =? bom); apply told_finish; auto.
Qed.

Notation Scan_c := (Scan isL isD true mSemis src).
Lemma scan_told : forall s, Inv s -> Sinv mSemis s -> LO s -> forall t s', Scan_c s = (t, s') ->
  infos s' = note_tok (infos s) t /\ LO s' /\ Inv s' /\ Sinv mSemis s'.
Proof.
  intros s HI HS HL t s' E. pose proof (pass_told s HI HL) as T. destruct (pass_modes isL isD mSemis src Hsrc s HI HS) as (t0 & s1 & EC & _).
  rewrite EC in T. cbn [told] in T. pose proof (pass_spec isL isD true mSemis src Hsrc s HI HS) as P. rewrite EC in P. cbn [pspec] in P.
  unfold Scan, fuel in E. cbn [scan_loop] in E. rewrite EC in E. injection E as -> ->. split; [exact T|].
  destruct P as (g & text & _ & M & _). split; [exact (mv_lo _ _ _ _ M HL)|]. split; [exact (mv_inv src _ _ _ _ M)|].
  destruct (scan_step isL isD true mSemis src Hsrc s HI HS) as (g' & text' & es & t1 & s2 & E2 & _ & HS' & HI').
  assert (X : Scan_c s = (t, s')) by (unfold Scan, fuel; cbn [scan_loop]; rewrite EC; reflexivity). rewrite X in E2. injection E2 as -> ->. exact HS'.
Qed.

Lemma scans_told : forall n s, Inv s -> Sinv mSemis s -> LO s ->
  let r := scans isL isD true mSemis src n s in
  infos (snd r) = fold_left note_tok (fst r) (infos s) /\ LO (snd r) /\ Inv (snd r) /\ Sinv mSemis (snd r).
Proof.
  cbv zeta. induction n as [|n IH]; intros s HI HS HL; [cbn; auto|]. destruct (IH s HI HS HL) as (I1 & L1 & V1 & S1). rewrite scans_snoc. cbn [fst snd].
  destruct (Scan_c (snd (scans isL isD true mSemis src n s))) as [t s'] eqn:E. cbn [fst snd].
  destruct (scan_told _ V1 S1 L1 t s' E) as (A & B & C & D). rewrite fold_left_app. cbn [fold_left]. rewrite <- I1. auto.
Qed.

Lemma init_lo : forall old, LO (Init src old) /\ infos (Init src old) = [].
Proof.
  intro old. unfold Init. set (s0 := mkSc 32 0 0 0 false 0 [] [0%nat] [] false).
  assert (E1 : next s0 = set_cur (first src) 0 (width src) (add_errs (char_errs src 0) s0)) by (rewrite next_eq by (simpl; lia); reflexivity).
  assert (I1 : Inv (next s0)) by (rewrite E1; unfold ScannerProofs.Inv, ScannerProofs.rest; simpl; repeat split; lia).
  assert (L1 : LO (next s0)) by (rewrite E1; reflexivity).
  assert (N1 : infos (next s0) = []) by (rewrite i_next; reflexivity).
  destruct (ch (next s0) =? bom) eqn:E; [|auto]. apply Z.eqb_eq in E. split; [|rewrite i_next; exact N1].
  destruct (mv_any src Hsrc (next s0) I1) as (t & M & _); [rewrite E; discriminate|]. exact (mv_lo _ _ _ _ M L1).
Qed.
End Lines.
