(** The scanning functions: what each of them consumes. *)
From Verif Require Import Base Token Utf8 Utf8Proofs Scanner ScannerSpec ScannerProofs.

Arguments Scanner.while : simpl never.
Arguments Scanner.fuel : simpl never.

Section Proofs.
Variable src : bytes.
Hypothesis Hsrc : Forall byte src.

Notation next := (next src).
Notation fuel := (fuel src).
Notation while := (while src).
Notation rest := (rest src).
Notation Inv := (Inv src).
Notation ext := (ext src).
Notation rest_bytes := (rest_bytes src Hsrc).
Notation next_any := (next_any src Hsrc).
Notation next_ascii := (next_ascii src Hsrc).
Notation ch_range := (ch_range src Hsrc).
Notation ch_ascii := (ch_ascii src Hsrc).

Ltac zb := repeat match goal with
  | H : (_ =? _) = true |- _ => apply Z.eqb_eq in H
  | H : (_ =? _) = false |- _ => apply Z.eqb_neq in H
  | H : (_ <=? _) = true |- _ => apply Z.leb_le in H
  | H : (_ <=? _) = false |- _ => apply Z.leb_gt in H
  | H : (_ <? _) = true |- _ => apply Z.ltb_lt in H
  | H : (_ <? _) = false |- _ => apply Z.ltb_ge in H
  | H : (_ && _) = true |- _ => apply andb_true_iff in H; destruct H
  | H : (_ || _) = false |- _ => apply orb_false_iff in H; destruct H
  | H : (_ && _) = false |- _ => apply andb_false_iff in H
  | H : (_ || _) = true |- _ => apply orb_true_iff in H
  | H : negb _ = true |- _ => apply negb_true_iff in H
  | H : negb _ = false |- _ => apply negb_false_iff in H
  | H : _ = true \/ _ |- _ => destruct H
  | H : _ = false \/ _ |- _ => destruct H
  end.

(** [mv s s' t Q]: a move over [t]; if it reports no error then [Q]. *)
Definition mv (s s' : sc) (t : bytes) (Q : Prop) : Prop := exists es, ext s s' t es /\ (es = [] -> Q).

Lemma mv_trans : forall s s1 s2 t1 t2 (Q1 Q2 Q : Prop), mv s s1 t1 Q1 -> mv s1 s2 t2 Q2 -> (Q1 -> Q2 -> Q) ->
  mv s s2 (t1 ++ t2) Q.
Proof.
  intros s s1 s2 t1 t2 Q1 Q2 Q (e1 & H1 & K1) (e2 & H2 & K2) HQ. exists (e1 ++ e2).
  split; [eapply ext_trans; eauto|]. intro E. apply app_eq_nil in E. destruct E. auto.
Qed.

Lemma mv_app : forall s s1 s2 t1 t2 (Q1 Q2 : Prop), mv s s1 t1 Q1 -> mv s1 s2 t2 Q2 -> mv s s2 (t1 ++ t2) True.
Proof. intros. eapply mv_trans; eauto. Qed.
Lemma mv_ext : forall s s' t (Q : Prop), mv s s' t Q -> exists es, ext s s' t es.
Proof. intros s s' t Q (es & H & _). eauto. Qed.
Lemma mv_inv : forall s s' t (Q : Prop), mv s s' t Q -> Inv s'.
Proof. intros s s' t Q (es & H & _). eapply ext_inv; eauto. Qed.
Lemma mv_rest : forall s s' t (Q : Prop), mv s s' t Q -> rest s = t ++ rest s'.
Proof. intros s s' t Q (es & H & _). eapply ext_rest; eauto. Qed.
Lemma mv_off : forall s s' t (Q : Prop), mv s s' t Q -> off s' = (off s + length t)%nat.
Proof. intros s s' t Q (es & H & _). eapply ext_off; eauto. Qed.
Lemma mv_isemi : forall s s' t (Q : Prop), mv s s' t Q -> isemi s' = isemi s.
Proof. intros s s' t Q (es & H & _). eapply ext_isemi; eauto. Qed.
Lemma mv_len : forall s s' t (Q : Prop), mv s s' t Q -> t <> [] -> (length (rest s') < length (rest s))%nat.
Proof. intros s s' t Q (es & H & _). eapply ext_len; eauto. Qed.
Lemma mv_len' : forall s s' t (Q : Prop), mv s s' t Q -> (length (rest s') <= length (rest s))%nat.
Proof. intros s s' t Q H. rewrite (mv_rest _ _ _ _ H), app_length. lia. Qed.
Lemma mv_bytes : forall s s' t (Q : Prop), mv s s' t Q -> Forall byte t.
Proof. intros s s' t Q (es & H & _). eapply (ext_bytes src Hsrc); eauto. Qed.
Lemma mv_refl : forall s (Q : Prop), Inv s -> Q -> mv s s [] Q.
Proof. intros. exists []. split; [apply ext_refl; assumption|auto]. Qed.
Lemma mv_weak : forall s s' t (Q Q' : Prop), mv s s' t Q -> (Q -> Q') -> mv s s' t Q'.
Proof. intros s s' t Q Q' (es & H & K) W. exists es. auto. Qed.
Lemma mv_error : forall s o m Q, Inv s -> mv s (error o m s) [] Q.
Proof. intros. exists [(o, m)]. split; [apply ext_error; assumption|discriminate]. Qed.
(** followed by a report in place *)
Lemma mv_then_error : forall s s' t Q o m Q', mv s s' t Q -> mv s (error o m s') t Q'.
Proof.
  intros. rewrite <- (app_nil_r t). eapply mv_trans; [exact H| |].
  - apply (mv_error s' o m False). eapply mv_inv; eauto.
  - tauto.
Qed.

Lemma mv_ascii : forall s c, Inv s -> ch s = c -> 0 <= c < 128 -> mv s (next s) [c] True.
Proof. intros s c HI Hc H. destruct (next_ascii s c HI Hc H) as (es & He). exists es. auto. Qed.

Lemma mv_any : forall s, Inv s -> 0 <= ch s -> exists t, mv s (next s) t True /\
  t = firstn (width (rest s)) (rest s) /\ t <> [] /\
  ((ch s < 128 /\ t = [ch s]) \/ (128 <= ch s /\ Forall (fun b => 128 <= b) t)).
Proof.
  intros s HI Hc. destruct (next_any s HI Hc) as (t & es & He & H1 & H2 & H3).
  exists t. split; [exists es; auto|auto].
Qed.

Lemma mv_sub : forall s s' t (Q : Prop), mv s s' t Q -> sub src (off s) (off s') = t.
Proof. intros s s' t Q (es & H & _). eapply ext_sub; eauto. Qed.
Lemma mv_sub1 : forall s s' s'' c t (Q Q' : Prop), mv s s' [c] Q -> mv s' s'' t Q' -> sub src (off s' - 1) (off s'') = c :: t.
Proof. intros s s' s'' c t Q Q' (es & H & _) (es' & H' & _). eapply ext_sub1; eauto. Qed.

(** A text made of one character that is not the byte [x]. *)
Lemma char_no : forall s t x, ((ch s < 128 /\ t = [ch s]) \/ (128 <= ch s /\ Forall (fun b => 128 <= b) t)) ->
  x < 128 -> ch s <> x -> ~ In x t.
Proof.
  intros s t x [(H1 & ->)|(H1 & H2)] Hx Hc Hin.
  - destruct Hin as [E|[]]. congruence.
  - rewrite Forall_forall in H2. apply H2 in Hin. simpl in Hin. lia.
Qed.

Lemma while_mv : forall p, p (-1) = false -> forall s, Inv s ->
  exists t, mv s (while fuel p s) t True /\ p (ch (while fuel p s)) = false /\ chars (fun c => p c = true) t /\
    (t <> [] -> first t = ch s).
Proof.
  intros p Hp s HI. destruct (while_spec src Hsrc p Hp fuel s HI) as (t & es & H & H1 & H2 & H3).
  - pose proof (rest_le src s). unfold Scanner.fuel. lia.
  - exists t. split; [exists es; auto|auto].
Qed.

(** ** white space *)
Lemma skip_mv : forall s, Inv s -> exists t, mv s (skipWhitespace src s) t True /\
  Forall (fun c => is_white (isemi s) c = true) t /\ is_white (isemi s) (ch (skipWhitespace src s)) = false.
Proof.
  intros s HI. unfold skipWhitespace.
  destruct (while_mv (is_white (isemi s))) with (s := s) as (t & H & H1 & H2 & _); [|exact HI|].
  - unfold is_white. simpl. destruct (isemi s); reflexivity.
  - exists t. split; [exact H|]. split; [|exact H1].
    apply (chars_ascii (fun c => is_white (isemi s) c = true)); [eapply mv_bytes; eauto|exact H2|].
    intros c Hc. unfold is_white in Hc. zb; lia.
Qed.

(** ** identifiers *)
Section Ident.
Variables isL isD : Z -> bool.
Lemma isLetter_iff : forall c, isLetter isL c = true <-> letter isL c.
Proof.
  intro c. unfold isLetter, letter. rewrite !orb_true_iff, !andb_true_iff, !Z.leb_le, Z.eqb_eq. tauto.
Qed.
Lemma isDigit_iff : forall c, isDigit isD c = true <-> digit c \/ (128 <= c /\ isD c = true).
Proof.
  intro c. unfold isDigit, digit. rewrite !orb_true_iff, !andb_true_iff, !Z.leb_le. tauto.
Qed.

Lemma chars_impl : forall (p q : Z -> Prop) t, (forall c, p c -> q c) -> chars p t -> chars q t.
Proof. intros p q t H C. induction C; constructor; auto. Qed.

Lemma ident_mv : forall s, Inv s -> isLetter isL (ch s) = true ->
  exists t, mv s (snd (scanIdentifier isL isD src s)) t True /\ fst (scanIdentifier isL isD src s) = t /\
    ident isL isD t /\ ~ letter_or_digit isL isD (ch (snd (scanIdentifier isL isD src s))).
Proof.
  intros s HI HL. unfold scanIdentifier. cbn [fst snd].
  destruct (while_mv (fun c => isLetter isL c || isDigit isD c) ltac:(reflexivity) s HI) as (t & H & H1 & H2 & H3).
  exists t. split; [exact H|]. split; [eapply mv_sub; exact H|].
  assert (Hne : t <> []).
  { intros ->. pose proof (mv_rest _ _ _ _ H) as Hr. simpl in Hr.
    pose proof (mv_inv _ _ _ _ H) as (_ & HI' & _). rewrite <- Hr in HI'.
    destruct HI as (_ & HI2 & _). rewrite HI', <- HI2, HL in H1. discriminate. }
  assert (HC : chars (letter_or_digit isL isD) t).
  { eapply chars_impl; [|exact H2]. cbn beta. intros c Hc. apply orb_true_iff in Hc.
    rewrite isLetter_iff, isDigit_iff in Hc. unfold letter_or_digit. tauto. }
  split; [split; [|split; [|exact HC]]|].
  - exact Hne.
  - rewrite H3 by exact Hne. apply isLetter_iff. exact HL.
  - rewrite orb_false_iff in H1. destruct H1 as (H1 & H1'). intro X. unfold letter_or_digit in X.
    rewrite <- isDigit_iff, <- isLetter_iff in X. destruct X; congruence.
Qed.

End Ident.

(** ** numbers *)
(** A deterministic automaton for the language of numbers. *)
Inductive nst := N0 | NP | NZ | ND | NH | NF | NE | NX | NI.
Definition dig (c : Z) : bool := (48 <=? c) && (c <=? 57).
Definition nstep (q : nst) (c : Z) : option nst :=
  let tail :=
    if (c =? 101) || (c =? 69) then Some NE else if c =? 105 then Some NI else None in
  match q with
  | N0 => if c =? 48 then Some NZ else if dig c then Some ND else if c =? 46 then Some NP else None
  | NP => if dig c then Some NF else None
  | NZ => if (c =? 120) || (c =? 88) then Some NH else if dig c then Some ND else if c =? 46 then Some NF else tail
  | ND => if dig c then Some ND else if c =? 46 then Some NF else tail
  | NH => if digitVal c <? 16 then Some NH else None
  | NF => if dig c then Some NF else tail
  | NE => if dig c || (c =? 43) || (c =? 45) then Some NX else if c =? 105 then Some NI else None
  | NX => if dig c then Some NX else if c =? 105 then Some NI else None
  | NI => None
  end.
Fixpoint nrun (q : nst) (l : bytes) : option nst :=
  match l with
  | [] => Some q
  | c :: l' => match nstep q c with Some q' => nrun q' l' | None => None end
  end.

Lemma nrun_app : forall a b q, nrun q (a ++ b) = match nrun q a with Some q' => nrun q' b | None => None end.
Proof. induction a as [|c a IH]; intros b q; simpl; auto. destruct (nstep q c); auto. Qed.

Lemma dig_iff : forall c, dig c = true <-> digit c.
Proof. intro c. unfold dig, digit. rewrite andb_true_iff, !Z.leb_le. tauto. Qed.
Lemma dig_val : forall c, (digitVal c <? 10) = dig c.
Proof.
  intro c. unfold digitVal, dig. destruct ((48 <=? c) && (c <=? 57)) eqn:E.
  - zb. apply Z.ltb_lt. lia.
  - apply Z.ltb_ge. destruct ((97 <=? c) && _) eqn:E1; [zb; lia|].
    destruct ((65 <=? c) && _) eqn:E2; [zb; lia|]. lia.
Qed.
Lemma hex_iff : forall c, (digitVal c <? 16) = true <-> hexdigit c.
Proof.
  intro c. unfold digitVal, hexdigit, digit. rewrite Z.ltb_lt.
  destruct ((48 <=? c) && (c <=? 57)) eqn:E; [zb; lia|].
  destruct ((97 <=? c) && (c <=? 102)) eqn:E1; [zb; lia|].
  destruct ((65 <=? c) && (c <=? 70)) eqn:E2; [zb; lia|]. zb; lia.
Qed.
Lemma oct_iff : forall c, (digitVal c <? 8) = true <-> 48 <= c <= 55.
Proof.
  intro c. unfold digitVal. rewrite Z.ltb_lt.
  destruct ((48 <=? c) && (c <=? 57)) eqn:E; [zb; lia|].
  destruct ((97 <=? c) && (c <=? 102)) eqn:E1; [zb; lia|].
  destruct ((65 <=? c) && (c <=? 70)) eqn:E2; [zb; lia|]. zb; lia.
Qed.
Lemma hexval_digitVal : forall c, hexdigit c -> hexval c = digitVal c.
Proof.
  intros c H. unfold digitVal, hexval, hexdigit, digit in *.
  destruct ((48 <=? c) && (c <=? 57)) eqn:E; [|destruct ((97 <=? c) && (c <=? 102)) eqn:E1; [|destruct ((65 <=? c) && (c <=? 70)) eqn:E2]];
  destruct (c <=? 57) eqn:E3; try destruct (c <=? 70) eqn:E4; zb; lia.
Qed.

Lemma nrun_digits : forall q ds, (q = ND \/ q = NF \/ q = NX) -> Forall digit ds -> nrun q ds = Some q.
Proof.
  intros q ds Hq H. induction H as [|c l Hc H IH]; [reflexivity|]. simpl.
  assert (E : nstep q c = Some q).
  { apply dig_iff in Hc. destruct Hq as [-> | [-> | ->]]; simpl; rewrite Hc; reflexivity. }
  rewrite E. exact IH.
Qed.
Lemma nrun_hex : forall ds, Forall hexdigit ds -> nrun NH ds = Some NH.
Proof.
  intros ds H. induction H as [|c l Hc H IH]; [reflexivity|]. simpl. apply hex_iff in Hc. rewrite Hc. exact IH.
Qed.
Lemma nrun_tail : forall q ex im, (forall c, c = 101 \/ c = 69 -> nstep q c = Some NE) -> nstep q 105 = Some NI ->
  exponent ex -> imag im -> exists q', nrun q (ex ++ im) = Some q'.
Proof.
  intros q ex im He Hi Hex Him. rewrite nrun_app.
  assert (exists q1, nrun q ex = Some q1 /\ nstep q1 105 = Some NI) as (q1 & E & E1).
  { destruct Hex as [-> | (e & sg & ds & -> & H1 & H2 & H3)]; [exists q; auto|].
    simpl. rewrite (He e H1).
    destruct H2 as [-> | [-> | ->]]; simpl.
    - destruct H3 as [|d ds Hd H3]; [exists NE; auto|]. simpl. apply dig_iff in Hd. rewrite Hd. simpl.
      exists NX. rewrite nrun_digits; auto.
    - exists NX. rewrite nrun_digits; auto.
    - exists NX. rewrite nrun_digits; auto. }
  rewrite E. destruct Him as [-> | ->]; simpl; [eauto|]. rewrite E1. eauto.
Qed.

Lemma nrun_number : forall k t, number k t -> exists q, nrun N0 t = Some q.
Proof.
  intros k t H. destruct H as [x hs Hx Hh|ds fr ex im Hne Hd Hf He Hi|d ds ex im Hd Hds He Hi].
  - simpl. destruct Hx as [-> | ->]; simpl; rewrite nrun_hex; eauto.
  - destruct ds as [|d ds]; [contradiction|]. inversion Hd as [|d' ds' Hd1 Hd2]; subst.
    assert (exists q, nrun N0 (d :: ds) = Some q /\ (q = NZ \/ q = ND)) as (q & E & Hq).
    { simpl. destruct (d =? 48) eqn:E0.
      - destruct Hd2 as [|d2 ds Hd2 Hds]; [exists NZ; auto|]. simpl.
        replace ((d2 =? 120) || (d2 =? 88)) with false.
        2: { symmetry. apply orb_false_iff. unfold digit in Hd2. split; apply Z.eqb_neq; lia. }
        apply dig_iff in Hd2. rewrite Hd2. exists ND. rewrite nrun_digits; auto.
      - apply dig_iff in Hd1. rewrite Hd1. exists ND. rewrite nrun_digits; auto. }
    rewrite nrun_app, E. rewrite nrun_app. destruct Hf as [-> | (fs & -> & Hfs)].
    + simpl. apply nrun_tail; auto; [intros c Hc|]; destruct Hq as [-> | ->]; try destruct Hc as [-> | ->]; reflexivity.
    + assert (E1 : nrun q (46 :: fs) = Some NF).
      { destruct Hq as [-> | ->]; simpl; apply nrun_digits; auto. }
      rewrite E1. apply nrun_tail; auto. intros c Hc. destruct Hc as [-> | ->]; reflexivity.
  - simpl. apply dig_iff in Hd. rewrite Hd. rewrite nrun_app, nrun_digits by auto.
    apply nrun_tail; auto. intros c Hc. destruct Hc as [-> | ->]; reflexivity.
Qed.

Lemma nstep_high : forall q c, (c < 0 \/ 128 <= c) -> nstep q c = None.
Proof.
  intros q c H. assert (Hd : dig c = false) by (unfold dig; apply andb_false_iff; rewrite !Z.leb_gt; lia).
  assert (Hh : digitVal c <? 16 = false).
  { destruct (digitVal c <? 16) eqn:E; auto. apply hex_iff in E. unfold hexdigit, digit in E. lia. }
  assert (He : forall x, 0 <= x < 128 -> (c =? x) = false) by (intros; apply Z.eqb_neq; lia).
  destruct q; simpl; rewrite ?Hd, ?Hh, ?He by lia; reflexivity.
Qed.

Lemma number_longest : forall k t s q, Inv s -> number k t -> nrun N0 t = Some q -> nstep q (ch s) = None ->
  longest (fun t => exists k, number k t) t (rest s).
Proof.
  intros k t s q HI Hn Hr Hs. split; [eauto|]. intros x y Hxy Hne (k' & Hk').
  destruct (nrun_number _ _ Hk') as (q' & Hq'). rewrite nrun_app, Hr in Hq'.
  destruct x as [|b x]; [contradiction|]. simpl in Hq'.
  assert (E : nstep q b = None).
  { destruct HI as (_ & HI & _). rewrite HI, Hxy in Hs. cbn [app] in Hs.
    destruct (Z.lt_ge_cases b 128) as [Hlt|Hge].
    - rewrite first_ascii in Hs by exact Hlt. exact Hs.
    - apply nstep_high. auto. }
  rewrite E in Hq'. discriminate.
Qed.

Lemma mant_mv : forall base s, base <= 16 -> Inv s -> exists t, mv s (scanMantissa src base s) t True /\
  Forall (fun c => (digitVal c <? base) = true) t /\ (digitVal (ch (scanMantissa src base s)) <? base) = false.
Proof.
  intros base s Hb HI. unfold scanMantissa.
  destruct (while_mv (fun c => digitVal c <? base)) with (s := s) as (t & H & H1 & H2 & _); [|exact HI|].
  - simpl. apply Z.ltb_ge. unfold digitVal. simpl. lia.
  - exists t. split; [exact H|]. split; [|exact H1].
    apply (chars_ascii (fun c => (digitVal c <? base) = true)); [eapply mv_bytes; eauto|exact H2|].
    intros c Hc. assert (Hc' : digitVal c <? 16 = true) by (apply Z.ltb_lt in Hc; apply Z.ltb_lt; lia).
    apply hex_iff in Hc'. unfold hexdigit, digit in Hc'. lia.
Qed.
Lemma mant10 : forall s, Inv s -> exists t, mv s (scanMantissa src 10 s) t True /\
  Forall digit t /\ dig (ch (scanMantissa src 10 s)) = false.
Proof.
  intros s HI. destruct (mant_mv 10 s ltac:(lia) HI) as (t & H & H1 & H2). exists t. split; [exact H|].
  rewrite dig_val in H2. split; [|exact H2]. eapply Forall_impl; [|exact H1]. intros c Hc.
  cbn beta in Hc. rewrite dig_val in Hc. apply dig_iff. exact Hc.
Qed.

Definition tailstep (c : Z) : option nst :=
  if (c =? 101) || (c =? 69) then Some NE else if c =? 105 then Some NI else None.

Lemma imag_mv : forall tok s q, Inv s -> nstep q (ch s) = (if ch s =? 105 then Some NI else None) ->
  let r := if ch s =? 105 then (IMAG, next s) else (tok, s) in
  exists im q', mv s (snd r) im True /\ imag im /\ fst r = (if is_nil im then tok else IMAG) /\
    nrun q im = Some q' /\ nstep q' (ch (snd r)) = None.
Proof.
  intros tok s q HI Hq r. unfold r. destruct (ch s =? 105) eqn:E.
  - zb. exists [105], NI. split; [apply mv_ascii; auto; lia|]. split; [right; reflexivity|].
    split; [reflexivity|]. simpl. rewrite E in Hq. rewrite Hq. split; reflexivity.
  - exists [], q. split; [apply mv_refl; auto|]. split; [left; reflexivity|]. split; [reflexivity|]. split; [reflexivity|exact Hq].
Qed.

Lemma exp_mv : forall tok s q, Inv s -> nstep q (ch s) = tailstep (ch s) ->
  let r := scan_exponent src tok s in
  exists ex im q', mv s (snd r) (ex ++ im) True /\ exponent ex /\ imag im /\
    fst r = (if is_nil im then if is_nil ex then tok else FLOAT else IMAG) /\
    nrun q (ex ++ im) = Some q' /\ nstep q' (ch (snd r)) = None.
Proof.
  intros tok s q HI Hq r. unfold r, scan_exponent. unfold tailstep in Hq.
  destruct ((ch s =? 101) || (ch s =? 69)) eqn:E.
  - assert (Hc : ch s = 101 \/ ch s = 69) by (zb; auto).
    pose proof (mv_ascii s (ch s) HI eq_refl ltac:(lia)) as M1. pose proof (mv_inv _ _ _ _ M1) as I1.
    set (s1 := next s) in *.
    assert (exists sg, mv s1 (if (ch s1 =? 45) || (ch s1 =? 43) then next s1 else s1) sg True /\
       (sg = [] /\ ch s1 <> 45 /\ ch s1 <> 43 /\ (if (ch s1 =? 45) || (ch s1 =? 43) then next s1 else s1) = s1 \/ sg = [43] \/ sg = [45]))
      as (sg & M2 & Hsg).
    { destruct ((ch s1 =? 45) || (ch s1 =? 43)) eqn:E1.
      - clear E. exists [ch s1]. assert (H : ch s1 = 45 \/ ch s1 = 43) by (zb; auto).
        split; [apply mv_ascii; auto; lia|]. destruct H as [E2 | E2]; rewrite E2; auto.
      - clear E. zb. exists []. split; [apply mv_refl; auto|]. left. split; [reflexivity|]. split; [assumption|]. split; [assumption|reflexivity]. }
    set (s2 := if (ch s1 =? 45) || (ch s1 =? 43) then next s1 else s1) in *.
    destruct (mant10 s2 (mv_inv _ _ _ _ M2)) as (ds & M3 & Hds & Hstop).
    set (s3 := scanMantissa src 10 s2) in *.
    set (q3 := match sg ++ ds with [] => NE | _ => NX end).
    assert (R : nrun q (ch s :: sg ++ ds) = Some q3 /\ nstep q3 (ch s3) = (if ch s3 =? 105 then Some NI else None)).
    { simpl. rewrite Hq. destruct Hsg as [(-> & H1 & H2 & H3)|Hsg].
      - simpl in q3. destruct ds as [|d ds].
        + simpl. split; [reflexivity|]. pose proof (mv_rest _ _ _ _ M3) as Hr. simpl in Hr.
          rewrite H3 in Hr. simpl.
          destruct (mv_inv _ _ _ _ M3) as (_ & HI3 & _). rewrite <- Hr in HI3.
          destruct I1 as (_ & HI1 & _). rewrite <- HI1 in HI3.
          rewrite Hstop. rewrite HI3. simpl.
          replace (ch s1 =? 43) with false by (symmetry; apply Z.eqb_neq; auto).
          replace (ch s1 =? 45) with false by (symmetry; apply Z.eqb_neq; auto). reflexivity.
        + inversion Hds; subst. simpl. assert (Hd : dig d = true) by (apply dig_iff; auto). rewrite Hd. simpl.
          rewrite nrun_digits by auto. split; [reflexivity|]. simpl. rewrite Hstop. reflexivity.
      - assert (q3 = NX) by (unfold q3; destruct Hsg as [-> | ->]; reflexivity).
        rewrite H. split.
        + destruct Hsg as [-> | ->]; simpl; rewrite nrun_digits; auto.
        + simpl. rewrite Hstop. reflexivity. }
    destruct R as (R1 & R2).
    destruct (imag_mv FLOAT s3 q3 (mv_inv _ _ _ _ M3) R2) as (im & q' & M4 & Him & Hk & Hr & Hs).
    exists (ch s :: sg ++ ds), im, q'. repeat split.
    + replace ((ch s :: sg ++ ds) ++ im) with ([ch s] ++ sg ++ ds ++ im) by (simpl; rewrite <- app_assoc; reflexivity).
      eapply mv_app; [exact M1|]. eapply mv_app; [exact M2|]. eapply mv_app; [exact M3|exact M4].
    + right. exists (ch s), sg, ds. repeat split; auto.
      destruct Hsg as [(-> & _)|Hsg]; auto.
    + exact Him.
    + simpl is_nil. exact Hk.
    + rewrite nrun_app, R1. exact Hr.
    + exact Hs.
  - destruct (imag_mv tok s q HI Hq) as (im & q' & M4 & Him & Hk & Hr & Hs).
    exists [], im, q'. repeat split; auto. left. reflexivity.
Qed.

Lemma frac_mv : forall s q, Inv s -> nstep q (ch s) = (if ch s =? 46 then Some NF else tailstep (ch s)) ->
  let r := scan_fraction src INT s in
  exists fr ex im q', mv s (snd r) (fr ++ ex ++ im) True /\ fraction fr /\ exponent ex /\ imag im /\
    fst r = number_kind fr ex im /\
    nrun q (fr ++ ex ++ im) = Some q' /\ nstep q' (ch (snd r)) = None.
Proof.
  intros s q HI Hq r. unfold r, scan_fraction. destruct (ch s =? 46) eqn:E.
  - zb. pose proof (mv_ascii s 46 HI E ltac:(lia)) as M1. pose proof (mv_inv _ _ _ _ M1) as I1.
    destruct (mant10 (next s) I1) as (ds & M2 & Hds & Hstop).
    destruct (exp_mv FLOAT (scanMantissa src 10 (next s)) NF (mv_inv _ _ _ _ M2)) as (ex & im & q' & M3 & He & Hi & Hk & Hr & Hs).
    { simpl. rewrite Hstop. reflexivity. }
    exists (46 :: ds), ex, im, q'. repeat split; auto.
    + replace ((46 :: ds) ++ ex ++ im) with ([46] ++ ds ++ ex ++ im) by reflexivity.
      eapply mv_app; [exact M1|]. eapply mv_app; [exact M2|exact M3].
    + right. eauto.
    + rewrite Hk. unfold number_kind. simpl. destruct (is_nil im), (is_nil ex); reflexivity.
    + rewrite nrun_app. replace (nrun q (46 :: ds)) with (Some NF); [exact Hr|].
      simpl. rewrite E in Hq. rewrite Hq. symmetry. apply nrun_digits; auto.
  - destruct (exp_mv INT s q HI Hq) as (ex & im & q' & M3 & He & Hi & Hk & Hr & Hs).
    exists [], ex, im, q'. repeat split; auto.
    + left. reflexivity.
    + rewrite Hk. unfold number_kind. simpl. destruct (is_nil im), (is_nil ex); reflexivity.
Qed.

Definition no_octal_error (k : Z) (t : bytes) : Prop :=
  k = INT -> t <> [48; 120] /\ t <> [48; 88] /\ ~ bad_octal t.

Lemma point_mv : forall s0 s, mv s0 s [46] True -> digit (ch s) ->
  exists k t s', scanNumber src true s = (k, 46 :: t, s') /\ mv s s' t True /\ number k (46 :: t) /\ k <> INT /\
    longest (fun t => exists k, number k t) (46 :: t) (rest s').
Proof.
  intros s0 s M0 Hd. unfold scanNumber. pose proof (mv_inv _ _ _ _ M0) as HI.
  destruct (mant10 s HI) as (ds & M1 & Hds & Hstop).
  set (s1 := scanMantissa src 10 s) in *.
  destruct (exp_mv FLOAT s1 NF (mv_inv _ _ _ _ M1)) as (ex & im & q' & M2 & He & Hi & Hk & Hr & Hs).
  { simpl. rewrite Hstop. reflexivity. }
  destruct (scan_exponent src FLOAT s1) as (k, s') eqn:E. cbn [fst snd] in *.
  assert (M : mv s s' (ds ++ ex ++ im) True) by (eapply mv_app; [exact M1|exact M2]).
  exists k, (ds ++ ex ++ im), s'. rewrite (mv_sub1 _ _ _ _ _ _ _ M0 M). split; [reflexivity|]. split; [exact M|].
  destruct ds as [|d ds].
  { exfalso. pose proof (mv_rest _ _ _ _ M1) as Hr1. simpl in Hr1.
    destruct (mv_inv _ _ _ _ M1) as (_ & H1 & _). rewrite <- Hr1 in H1. destruct HI as (_ & H0 & _).
    rewrite <- H0 in H1. rewrite H1 in Hstop. apply dig_iff in Hd. congruence. }
  inversion Hds as [|? ? Hd1 Hd2]; subst.
  assert (Hn : number (if is_nil im then FLOAT else IMAG) (46 :: (d :: ds) ++ ex ++ im)) by (apply Num_point; auto).
  replace (if is_nil im then if is_nil ex then FLOAT else FLOAT else IMAG) with (if is_nil im then FLOAT else IMAG)
    by (destruct (is_nil im), (is_nil ex); reflexivity).
  split; [exact Hn|]. split; [destruct (is_nil im); discriminate|].
  eapply number_longest; [eapply mv_inv; eauto|exact Hn| |exact Hs].
  simpl. apply dig_iff in Hd1. rewrite Hd1. rewrite nrun_app, nrun_digits by auto. exact Hr.
Qed.

Lemma kind_INT : forall fr ex im, number_kind fr ex im = INT -> fr = [] /\ ex = [] /\ im = [].
Proof.
  intros [|f fr] [|e ex] [|j im]; unfold number_kind; simpl; try discriminate; auto.
Qed.

Lemma mv_nil_ch : forall s s' Q, Inv s -> mv s s' [] Q -> ch s' = ch s.
Proof.
  intros s s' Q (_ & H & _) M. pose proof (mv_rest _ _ _ _ M) as Hr. simpl in Hr.
  destruct (mv_inv _ _ _ _ M) as (_ & H' & _). rewrite H, H', Hr. reflexivity.
Qed.

Lemma num_mv : forall s, Inv s -> digit (ch s) ->
  exists k t s', scanNumber src false s = (k, t, s') /\ mv s s' t (no_octal_error k t) /\ number k t /\ t <> [] /\
    longest (fun t => exists k, number k t) t (rest s').
Proof.
  intros s HI Hd. unfold scanNumber. destruct (ch s =? 48) eqn:E0.
  - zb. pose proof (mv_ascii s 48 HI E0 ltac:(lia)) as M1. pose proof (mv_inv _ _ _ _ M1) as I1.
    set (s1 := next s) in *. destruct ((ch s1 =? 120) || (ch s1 =? 88)) eqn:Ex.
    + (* hexadecimal *)
      assert (Hx : ch s1 = 120 \/ ch s1 = 88) by (zb; auto). clear Ex.
      pose proof (mv_ascii s1 (ch s1) I1 eq_refl ltac:(lia)) as M2. pose proof (mv_inv _ _ _ _ M2) as I2.
      set (s2 := next s1) in *.
      destruct (mant_mv 16 s2 ltac:(lia) I2) as (hs & M3 & Hhs & Hstop).
      set (s3 := scanMantissa src 16 s2) in *.
      assert (Hh : Forall hexdigit hs) by (eapply Forall_impl; [|exact Hhs]; intros c Hc; apply hex_iff; exact Hc).
      assert (M : mv s s3 (48 :: ch s1 :: hs) True).
      { change (48 :: ch s1 :: hs) with ([48] ++ [ch s1] ++ hs).
        eapply mv_app; [exact M1|]. eapply mv_app; [exact M2|exact M3]. }
      assert (Hoff : off s3 = (off s + 2 + length hs)%nat) by (rewrite (mv_off _ _ _ _ M); simpl; lia).
      set (s4 := if (off s3 - off s <=? 2)%nat then error (off s) EHex s3 else s3).
      assert (M' : mv s s4 (48 :: ch s1 :: hs) (no_octal_error INT (48 :: ch s1 :: hs))).
      { unfold s4. destruct (off s3 - off s <=? 2)%nat eqn:El.
        - eapply mv_then_error. exact M.
        - apply Nat.leb_gt in El. eapply mv_weak; [exact M|]. intros _ _.
          destruct hs as [|h hs]; [simpl in Hoff; lia|]. split; [discriminate|]. split; [discriminate|].
          intros (ds & Hds & Hf & _). injection Hds as Hds. rewrite <- Hds in Hf. inversion Hf; subst.
          unfold digit in *. lia. }
      assert (Hn : number INT (48 :: ch s1 :: hs)) by (apply Num_hex; auto).
      exists INT, (48 :: ch s1 :: hs), s4. rewrite (mv_sub _ _ _ _ M'). split; [reflexivity|].
      split; [exact M'|]. split; [exact Hn|]. split; [discriminate|].
      eapply number_longest with (q := NH); [eapply mv_inv; exact M'|exact Hn| |].
      * destruct Hx as [-> | ->]; simpl; apply nrun_hex; exact Hh.
      * assert (Ec : ch s4 = ch s3) by (unfold s4; destruct (_ <=? _)%nat; reflexivity).
        rewrite Ec. simpl. rewrite Hstop. reflexivity.
    + (* octal or decimal *)
      zb. destruct (mant_mv 8 s1 ltac:(lia) I1) as (d8 & M2 & Hd8 & Hstop8).
      set (s2 := scanMantissa src 8 s1) in *. pose proof (mv_inv _ _ _ _ M2) as I2.
      assert (H8 : Forall (fun c => 48 <= c <= 55) d8) by (eapply Forall_impl; [|exact Hd8]; intros c Hc; apply oct_iff; exact Hc).
      assert (exists seen s3 d9, (if (ch s2 =? 56) || (ch s2 =? 57) then (true, scanMantissa src 10 s2) else (false, s2)) = (seen, s3)
        /\ mv s2 s3 d9 True /\ Forall digit d9 /\ dig (ch s3) = false /\ (seen = false -> d9 = [])) as (seen & s3 & d9 & E3 & M3 & H9 & Hs9 & Hseen).
      { destruct ((ch s2 =? 56) || (ch s2 =? 57)) eqn:E8.
        - destruct (mant10 s2 I2) as (d9 & M3 & H9 & Hs9). exists true, (scanMantissa src 10 s2), d9.
          repeat split; auto. discriminate.
        - zb. exists false, s2, []. repeat split; auto; [apply mv_refl; auto|].
          destruct (dig (ch s2)) eqn:Ed; [|reflexivity]. exfalso. apply dig_iff in Ed. unfold digit in Ed.
          apply Z.ltb_ge in Hstop8. assert (~ 48 <= ch s2 <= 55).
          { intro X. apply oct_iff in X. apply Z.ltb_lt in X. lia. } lia. }
      rewrite E3. pose proof (mv_inv _ _ _ _ M3) as I3.
      assert (Hds : Forall digit (d8 ++ d9)).
      { apply Forall_app. split; [|exact H9]. eapply Forall_impl; [|exact H8]. intros c Hc. unfold digit. simpl in Hc. lia. }
      assert (M : mv s s3 (48 :: d8 ++ d9) True).
      { change (48 :: d8 ++ d9) with ([48] ++ d8 ++ d9). eapply mv_app; [exact M1|]. eapply mv_app; [exact M2|exact M3]. }
      set (ds := 48 :: d8 ++ d9) in *.
      assert (Hdd : Forall digit ds) by (constructor; [unfold digit; lia|exact Hds]).
      set (q := match d8 ++ d9 with [] => NZ | _ => ND end).
      assert (Rq : nrun N0 ds = Some q).
      { unfold ds, q. simpl. destruct (d8 ++ d9) as [|d l]; [reflexivity|]. inversion Hds; subst. simpl.
        replace ((d =? 120) || (d =? 88)) with false.
        2: { symmetry. apply orb_false_iff. unfold digit in *. split; apply Z.eqb_neq; lia. }
        match goal with H : digit d |- _ => apply dig_iff in H; rewrite H end. apply nrun_digits; auto. }
      assert (Hq : nstep q (ch s3) = (if ch s3 =? 46 then Some NF else tailstep (ch s3))).
      { unfold q. destruct (d8 ++ d9) as [|d l] eqn:Eapp.
        - apply app_eq_nil in Eapp. destruct Eapp as (-> & ->).
          pose proof (mv_nil_ch _ _ _ I1 M2) as C2. pose proof (mv_nil_ch _ _ _ I2 M3) as C3.
          simpl. rewrite Hs9. rewrite C3, C2.
          replace (ch s1 =? 120) with false by (symmetry; apply Z.eqb_neq; auto).
          replace (ch s1 =? 88) with false by (symmetry; apply Z.eqb_neq; auto). reflexivity.
        - simpl. rewrite Hs9. reflexivity. }
      destruct ((ch s3 =? 46) || (ch s3 =? 101) || (ch s3 =? 69) || (ch s3 =? 105)) eqn:Et.
      * destruct (frac_mv s3 q I3 Hq) as (fr & ex & im & q' & M4 & Hf & He & Hi & Hk & Hr & Hs).
        destruct (scan_fraction src INT s3) as [k s'] eqn:Ef. cbn [fst snd] in *.
        assert (Hn : number (number_kind fr ex im) (ds ++ fr ++ ex ++ im)) by (apply Num_dec; auto; discriminate).
        assert (MM : mv s s' (ds ++ fr ++ ex ++ im) True) by (eapply mv_app; [exact M|exact M4]).
        exists k, (ds ++ fr ++ ex ++ im), s'. rewrite (mv_sub _ _ _ _ MM). split; [reflexivity|]. split.
        { eapply mv_weak; [exact MM|]. intros _ HkI. exfalso. rewrite Hk in HkI. apply kind_INT in HkI.
          destruct HkI as (-> & -> & ->). simpl in Hr. injection Hr as <-.
          rewrite (mv_nil_ch _ _ _ I3 M4) in Hs. rewrite Hq in Hs. unfold tailstep in Hs.
          destruct (ch s3 =? 46), (ch s3 =? 101), (ch s3 =? 69), (ch s3 =? 105); simpl in *; discriminate. }
        rewrite Hk. split; [exact Hn|]. split; [discriminate|].
        eapply number_longest; [eapply mv_inv; exact MM|exact Hn| |exact Hs].
        rewrite nrun_app, Rq. exact Hr.
      * zb. set (s4 := if seen then error (off s) EOctal s3 else s3).
        assert (M' : mv s s4 ds (no_octal_error INT ds)).
        { unfold s4. destruct seen; [eapply mv_then_error; exact M|].
          eapply mv_weak; [exact M|]. intros _ _. unfold ds. rewrite (Hseen eq_refl). rewrite app_nil_r.
          assert (Hno : forall x, 56 <= x -> ~ In x d8).
          { intros x Hx Hin. rewrite Forall_forall in H8. apply H8 in Hin. lia. }
          split; [|split].
          - intro X. injection X as X. apply (Hno 120); [lia|]. rewrite X. left. reflexivity.
          - intro X. injection X as X. apply (Hno 88); [lia|]. rewrite X. left. reflexivity.
          - intros (l & Hl & _ & Hin). injection Hl as <-. destruct Hin as [Hin|Hin]; eapply Hno; try exact Hin; lia. }
        assert (Hn : number INT ds).
        { replace ds with (ds ++ [] ++ [] ++ []) by (rewrite !app_nil_r; reflexivity).
          apply (Num_dec ds [] [] []); auto; try discriminate; left; reflexivity. }
        exists INT, ds, s4. rewrite (mv_sub _ _ _ _ M'). split; [reflexivity|]. split; [exact M'|]. split; [exact Hn|].
        split; [discriminate|].
        eapply number_longest; [eapply mv_inv; exact M'|exact Hn|exact Rq|].
        assert (Ec : ch s4 = ch s3) by (unfold s4; destruct seen; reflexivity).
        rewrite Ec, Hq. unfold tailstep.
        repeat match goal with H : ch s3 <> ?x |- _ => apply Z.eqb_neq in H; rewrite H; clear H end. reflexivity.
  - (* decimal *)
    zb. destruct (mant10 s HI) as (ds & M & Hds & Hstop). set (s3 := scanMantissa src 10 s) in *.
    pose proof (mv_inv _ _ _ _ M) as I3.
    destruct ds as [|d ds].
    { rewrite (mv_nil_ch _ _ _ HI M) in Hstop. apply dig_iff in Hd. congruence. }
    inversion Hds as [|? ? Hd1 Hd2]; subst.
    assert (Hd0 : d = ch s).
    { destruct (ch_ascii s HI) as [(A & _)|(r & A)]; [unfold digit in *; lia|unfold digit in *; lia|].
      rewrite (mv_rest _ _ _ _ M) in A. simpl in A. congruence. }
    assert (Rq : nrun N0 (d :: ds) = Some ND).
    { simpl. replace (d =? 48) with false by (symmetry; apply Z.eqb_neq; congruence).
      apply dig_iff in Hd1. rewrite Hd1. apply nrun_digits; auto. }
    destruct (frac_mv s3 ND I3) as (fr & ex & im & q' & M4 & Hf & He & Hi & Hk & Hr & Hs).
    { simpl. rewrite Hstop. reflexivity. }
    destruct (scan_fraction src INT s3) as [k s'] eqn:Ef. cbn [fst snd] in *.
    assert (Hn : number (number_kind fr ex im) ((d :: ds) ++ fr ++ ex ++ im)) by (apply Num_dec; auto; discriminate).
    assert (MM : mv s s' ((d :: ds) ++ fr ++ ex ++ im) True) by (eapply mv_app; [exact M|exact M4]).
    exists k, ((d :: ds) ++ fr ++ ex ++ im), s'. rewrite (mv_sub _ _ _ _ MM). split; [reflexivity|]. split.
    { eapply mv_weak; [exact MM|]. intros _ _. simpl. rewrite Hd0.
      split; [intro X; injection X; congruence|]. split; [intro X; injection X; congruence|].
      intros (l & X & _). injection X. congruence. }
    rewrite Hk. split; [exact Hn|]. split; [discriminate|].
    eapply number_longest; [eapply mv_inv; exact MM|exact Hn| |exact Hs].
    rewrite nrun_app, Rq. exact Hr.
Qed.

(** ** comments *)
Lemma line_end_ch : forall s, Inv s -> (ch s = 10 \/ ch s < 0) -> at_line_end (rest s).
Proof.
  intros s HI H. destruct (ch_ascii s HI) as [(A & B)|(r & A)]; [lia|left; exact B|].
  right. destruct (ch_range s HI) as [(E & E1)|E]; [congruence|]. exists r. rewrite A. f_equal. lia.
Qed.

Lemma ch_of_rest : forall s b r, Inv s -> rest s = b :: r -> b < 128 -> ch s = b.
Proof. intros s b r (_ & H & _) Hr Hb. rewrite H, Hr. apply first_ascii. exact Hb. Qed.

Lemma lcom_mv : forall k cr s, Inv s -> (length (rest s) <= k)%nat ->
  exists cr' s' t, lcom_loop src k cr s = (cr', s') /\ mv s s' t True /\ ~ In 10 t /\ at_line_end (rest s') /\
    (cr' = false -> cr = false /\ ~ In 13 t).
Proof.
  induction k as [|k IH]; intros cr s HI Hk; simpl;
    destruct (negb (ch s =? 10) && (0 <=? ch s)) eqn:E.
  - zb. destruct (rest s) eqn:Er; [|simpl in Hk; lia]. destruct HI as (_ & HI & _). rewrite Er in HI. simpl in HI. lia.
  - exists cr, s, []. split; [reflexivity|]. split; [apply mv_refl; auto|]. split; [auto|].
    split; [apply line_end_ch; auto; zb; auto|auto].
  - zb. destruct (mv_any s HI) as (t & M & _ & Hne & Ht); [lia|].
    pose proof (mv_len _ _ _ _ M Hne).
    destruct (IH (cr || (ch s =? 13)) (next s) (mv_inv _ _ _ _ M)) as (cr' & s' & t' & E' & M' & K1 & K2 & K3); [lia|].
    exists cr', s', (t ++ t'). split; [exact E'|]. split; [eapply mv_app; eauto|]. split; [|split; [exact K2|]].
    + intro X. apply in_app_or in X. destruct X as [X|X]; [|contradiction].
      revert X. apply (char_no s); auto. lia.
    + intro Hc. destruct (K3 Hc) as (K4 & K5). apply orb_false_iff in K4. destruct K4 as (K4 & K6). zb.
      split; [exact K4|]. intro X. apply in_app_or in X. destruct X as [X|X]; [|contradiction].
      revert X. apply (char_no s); auto. lia.
  - exists cr, s, []. split; [reflexivity|]. split; [apply mv_refl; auto|]. split; [auto|].
    split; [apply line_end_ch; auto; zb; auto|auto].
Qed.

Lemma has_close_cons : forall b x, has_close (b :: x) -> has_close x \/ (b = 42 /\ exists r, x = 47 :: r).
Proof.
  intros b x (u & v & H). destruct u as [|a u]; simpl in H; injection H as H1 H2.
  - right. subst. eauto.
  - left. exists u, v. exact H2.
Qed.
Lemma has_close_chars : forall t x, Forall (fun b => 128 <= b) t -> has_close (t ++ x) -> has_close x.
Proof.
  intros t x H. induction H as [|b t Hb H IH]; simpl; auto. intro X.
  apply has_close_cons in X. destruct X as [X|(X & _)]; [auto|lia].
Qed.
Lemma has_close_app : forall a b, has_close a -> has_close (a ++ b).
Proof. intros a b (u & v & ->). exists u, (v ++ b). rewrite <- app_assoc. reflexivity. Qed.
(** a character in front does not close the comment *)
Lemma no_close_char : forall s s1 t x y, Inv s1 ->
  ((ch s < 128 /\ t = [ch s]) \/ (128 <= ch s /\ Forall (fun b => 128 <= b) t)) ->
  (ch s = 42 -> ch s1 <> 47) -> rest s1 = x ++ y -> ~ has_close x -> ~ has_close (t ++ x).
Proof.
  intros s s1 t x y HI [(H1 & ->)|(H1 & H2)] Hc Hr Hx X.
  - simpl in X. apply has_close_cons in X. destruct X as [X|(X & r & ->)]; [contradiction|].
    apply (Hc X). eapply ch_of_rest; [exact HI|exact Hr|lia].
  - apply Hx. eapply has_close_chars; eauto.
Qed.

Lemma bcom_mv : forall k cr s, Inv s -> (length (rest s) <= k)%nat ->
  exists closed cr' s' t, bcom_loop src k cr s = (closed, cr', s') /\ mv s s' t True /\
    (cr' = false -> cr = false /\ ~ In 13 t) /\
    (if closed then exists body, t = body ++ [42; 47] /\ ~ has_close (body ++ [42])
     else rest s' = [] /\ ~ has_close t).
Proof.
  assert (Hnil : ~ has_close []) by (intros ([|] & ? & X); discriminate).
  induction k as [|k IH]; intros cr s HI Hk; simpl; destruct (0 <=? ch s) eqn:E.
  - zb. destruct (rest s) eqn:Er; [|simpl in Hk; lia]. destruct HI as (_ & HI & _). rewrite Er in HI. simpl in HI. lia.
  - zb. exists false, cr, s, []. split; [reflexivity|]. split; [apply mv_refl; auto|]. split; [auto|].
    destruct (ch_range s HI) as [(_ & ->)|X]; [auto|lia].
  - zb. destruct (mv_any s HI) as (t & M & _ & Hne & Ht); [lia|].
    pose proof (mv_len _ _ _ _ M Hne). pose proof (mv_inv _ _ _ _ M) as I1.
    set (s1 := next s) in *.
    destruct ((ch s =? 42) && (ch s1 =? 47)) eqn:E1.
    + zb. pose proof (mv_ascii s1 47 I1 ltac:(assumption) ltac:(lia)) as M2.
      destruct Ht as [(_ & ->)|(X & _)]; [|lia].
      eexists true, _, _, [42; 47]. split; [reflexivity|]. split.
      { change [42; 47] with ([42] ++ [47]). rewrite <- H0. eapply mv_app; [exact M|exact M2]. }
      split.
      { intro X. apply orb_false_iff in X. destruct X as (X & _). split; [exact X|].
        simpl. lia. }
      exists []. split; [reflexivity|]. simpl. intro X. apply has_close_cons in X.
      destruct X as [X|(_ & r & X)]; [contradiction|discriminate].
    + destruct (IH (cr || (ch s =? 13)) s1 I1) as (closed & cr' & s' & t' & E' & M' & H3 & H4); [lia|].
      exists closed, cr', s', (t ++ t'). split; [exact E'|]. split; [eapply mv_app; eauto|].
      split.
      { intro Hc. destruct (H3 Hc) as (H5 & H6). apply orb_false_iff in H5. destruct H5 as (H5 & H7).
        apply Z.eqb_neq in H7.
        split; [exact H5|]. intro X. apply in_app_or in X. destruct X as [X|X]; [|contradiction].
        revert X. apply (char_no s); auto. lia. }
      assert (Hcc : ch s = 42 -> ch s1 <> 47) by (intros X Y; rewrite X, Y in E1; discriminate).
      pose proof (mv_rest _ _ _ _ M') as Hr.
      destruct closed.
      * destruct H4 as (body & -> & Hb). exists (t ++ body). split; [rewrite app_assoc; reflexivity|].
        rewrite <- app_assoc. eapply no_close_char with (s1 := s1) (y := 47 :: rest s'); eauto.
        rewrite Hr, <- !app_assoc. reflexivity.
      * destruct H4 as (H4 & H5). split; [exact H4|]. eapply no_close_char; eauto.
  - zb. exists false, cr, s, []. split; [reflexivity|]. split; [apply mv_refl; auto|]. split; [auto|].
    destruct (ch_range s HI) as [(_ & ->)|X]; [auto|lia].
Qed.

Lemma filter_cr : forall l, ~ In 13 l -> stripCR l = l.
Proof.
  intros l H. unfold stripCR. induction l as [|b l IH]; [reflexivity|]. simpl.
  assert (b <> 13) by (intro X; apply H; left; exact X). apply Z.eqb_neq in H0. rewrite H0. simpl.
  rewrite IH; auto. intro X. apply H. right. exact X.
Qed.

Lemma fuel_ok : forall s, (length (rest s) <= fuel)%nat.
Proof. intro s. pose proof (rest_le src s). unfold Scanner.fuel. lia. Qed.

Definition set_infos (l : list (nat * bytes * Z)) (s : sc) : sc :=
  mkSc (ch s) (off s) (rd s) (lineOff s) (isemi s) (ecount s) (errs s) (lines s) l (stuck s).
Lemma info_same : forall t s, exists l, interpretLineComment src t s = set_infos l s.
Proof.
  intros t s. assert (E : s = set_infos (infos s) s) by (destruct s; reflexivity). unfold interpretLineComment.
  destruct (beq _ _); [|eauto]. destruct (last_colon t); [|eauto]. destruct (posAtoi _); [|eauto]. eexists. reflexivity.
Qed.
Lemma mv_infos : forall s s' t (Q : Prop) l, mv s s' t Q -> mv s (set_infos l s') t Q.
Proof. intros s s' t Q l (es & [] & HQ). exists es. split; [|exact HQ]. constructor; assumption. Qed.

Lemma comment_mv : forall s0 s, mv s0 s [47] True -> (ch s = 47 \/ ch s = 42) ->
  exists t s', scanComment src s = (stripCR (47 :: t), s') /\
    mv s s' t (line_comment (47 :: t) \/ closed_comment (47 :: t)) /\
    comment (47 :: t) (rest s').
Proof.
  intros s0 s M0 Hc. unfold scanComment. pose proof (mv_inv _ _ _ _ M0) as HI.
  pose proof (mv_ascii s (ch s) HI eq_refl ltac:(lia)) as M1. pose proof (mv_inv _ _ _ _ M1) as I1.
  set (s1 := next s) in *. destruct (ch s =? 47) eqn:E.
  - zb. rewrite E in M1. destruct (lcom_mv fuel false s1 I1 (fuel_ok _)) as (cr & s' & t & El & M2 & H1 & H2 & H3).
    rewrite El.
    assert (M : mv s s' (47 :: t) True) by (change (47 :: t) with ([47] ++ t); eapply mv_app; eauto).
    assert (Is : exists l, (if (off s - 1 =? lineOff s')%nat then interpretLineComment src (sub src (off s - 1) (off s')) s' else s') = set_infos l s').
    { destruct (_ =? _)%nat; [apply info_same|]. exists (infos s'). destruct s'; reflexivity. }
    destruct Is as (li & ->). apply (mv_infos _ _ _ _ li) in M. change (off s') with (off (set_infos li s')).
    change (rest s') with (rest (set_infos li s')) in H2. revert M H2. generalize (set_infos li s'). clear s' El M2. intros s' M H2.
    rewrite (mv_sub1 _ _ _ _ _ _ _ M0 M). exists (47 :: t), s'.
    assert (HL : line_comment (47 :: 47 :: t)) by (exists t; auto).
    split; [|split; [eapply mv_weak; [exact M|]; intros _; left; exact HL|]].
    + f_equal. destruct cr; [reflexivity|]. symmetry. apply filter_cr. destruct (H3 eq_refl) as (_ & H4).
      simpl. intros [X|[X|X]]; try lia. contradiction.
    + left. split; [left; exact HL|exact H2].
  - zb. destruct Hc as [Hc|Hc]; [lia|]. rewrite Hc in M1.
    destruct (bcom_mv fuel false s1 I1 (fuel_ok _)) as (closed & cr & s' & t & El & M2 & H1 & H2). rewrite El.
    assert (M : mv s s' (42 :: t) True) by (change (42 :: t) with ([42] ++ t); eapply mv_app; eauto).
    assert (Hcr : forall l, (if cr then stripCR (47 :: 42 :: t) else 47 :: 42 :: t) = l -> l = stripCR (47 :: 42 :: t)).
    { intros l <-. destruct cr; [reflexivity|]. symmetry. apply filter_cr. destruct (H1 eq_refl) as (_ & H4).
      simpl. intros [X|[X|X]]; try lia. contradiction. }
    destruct closed.
    + destruct H2 as (body & -> & Hb). rewrite (mv_sub1 _ _ _ _ _ _ _ M0 M).
      assert (HC : closed_comment (47 :: 42 :: body ++ [42; 47])) by (exists body; auto).
      eexists _, s'. split; [f_equal; apply Hcr; reflexivity|].
      split; [eapply mv_weak; [exact M|]; intros _; right; exact HC|]. right. left. exact HC.
    + destruct H2 as (H2 & H4). cbn [off error].
      rewrite (mv_sub1 _ _ _ _ _ _ _ M0 M).
      eexists _, _. split; [f_equal; apply Hcr; reflexivity|]. split.
      * apply mv_then_error with (Q := True). exact M.
      * right. right. split; [exists t; auto|]. exact H2.
Qed.

Lemma sharp_mv : forall s0 s, mv s0 s [35] True ->
  exists t s', scanSharpComment src s = (35 :: t, s') /\ mv s s' t True /\ sharp_comment (35 :: t) /\ at_line_end (rest s').
Proof.
  intros s0 s M0. unfold scanSharpComment. pose proof (mv_inv _ _ _ _ M0) as HI.
  destruct (while_mv (fun c => negb ((c =? 10) || (c <? 0))) eq_refl s HI) as (t & M & H1 & H2 & _).
  set (s' := while fuel _ s) in *. rewrite (mv_sub1 _ _ _ _ _ _ _ M0 M). exists t, s'. split; [reflexivity|].
  split; [exact M|]. split.
  - exists t. split; [reflexivity|]. eapply chars_without; [eapply mv_bytes; eauto|exact H2|lia|]. simpl. discriminate.
  - apply line_end_ch; [eapply mv_inv; eauto|]. zb; auto.
Qed.

(** ** quoted literals *)
Lemma value_app : forall base a d, value base (a ++ [d]) = value base a * base + hexval d.
Proof. intros. unfold value. rewrite fold_left_app. reflexivity. Qed.

Lemma esc_loop_mv : forall n base x s, base <= 16 -> Inv s ->
  exists r s' t, esc_loop src n base x s = (r, s') /\
    mv s s' t (r <> None) /\ Forall (fun c => (digitVal c <? base) = true) t /\
    (forall y, r = Some y -> length t = n /\ y = fold_left (fun x d => x * base + hexval d) t x).
Proof.
  induction n as [|n IH]; intros base x s Hb HI; simpl.
  - exists (Some x), s, []. split; [reflexivity|]. split; [apply mv_refl; auto; discriminate|]. split; [constructor|].
    intros y Hy. injection Hy as <-. auto.
  - destruct (base <=? digitVal (ch s)) eqn:E.
    + eexists None, _, []. split; [reflexivity|]. split; [apply mv_error; exact HI|]. split; [constructor|discriminate].
    + zb. assert (Hh : hexdigit (ch s)) by (apply hex_iff; apply Z.ltb_lt; lia).
      assert (Hr : 0 <= ch s < 128) by (unfold hexdigit, digit in Hh; lia).
      pose proof (mv_ascii s (ch s) HI eq_refl Hr) as M.
      destruct (IH base (x * base + digitVal (ch s)) (next s) Hb (mv_inv _ _ _ _ M)) as (r & s' & t & E' & M' & H1 & H2).
      exists r, s', (ch s :: t). split; [exact E'|]. split.
      { change (ch s :: t) with ([ch s] ++ t). eapply mv_trans; [exact M|exact M'|auto]. }
      split; [constructor; [apply Z.ltb_lt; exact E|exact H1]|].
      intros y Hy. destruct (H2 y Hy) as (H3 & H4). split; [simpl; lia|]. simpl. rewrite hexval_digitVal; auto.
Qed.

Lemma escape_mv : forall q s, (q = 34 \/ q = 39) -> Inv s ->
  exists ok s' t, scanEscape src q s = (ok, s') /\ mv s s' t (ok = true) /\ (ok = true -> esc q t) /\
    ((t = [] /\ ch s <> q /\ ch s <> 92 /\ ok = false) \/ exists c ds, t = c :: ds /\ c <> 10 /\ Forall hexdigit ds).
Proof.
  intros q s Hq HI. unfold scanEscape.
  destruct ((ch s =? 97) || (ch s =? 98) || (ch s =? 102) || (ch s =? 110) || (ch s =? 114) || (ch s =? 116) ||
    (ch s =? 118) || (ch s =? 92) || (ch s =? q)) eqn:E.
  - assert (Hin : In (ch s) [97; 98; 102; 110; 114; 116; 118; 92; q]) by (zb; simpl; lia).
    assert (Hr : 0 <= ch s < 128 /\ ch s <> 10) by (simpl in Hin; lia).
    exists true, (next s), [ch s]. split; [reflexivity|].
    split; [eapply mv_weak; [apply mv_ascii; auto; lia|auto]|]. split; [intros _; constructor; exact Hin|].
    right. exists (ch s), []. split; [reflexivity|]. split; [lia|constructor].
  - assert (Hno : ch s <> q /\ ch s <> 92) by (zb; auto). clear E.
    assert (Hdig : forall n base mx pre s1, base <= 16 -> mv s s1 pre True -> ~ In 10 pre -> (pre <> [] -> Forall hexdigit (tl pre)) ->
      (pre = [] -> (digitVal (ch s) <? base) = true /\ (0 < n)%nat) ->
      (forall ds, length ds = n -> Forall (fun c => (digitVal c <? base) = true) ds ->
         value base ds <= mx -> ~ (55296 <= value base ds < 57344) -> esc q (pre ++ ds)) ->
      exists ok s' t, (let '(r, s2) := esc_loop src n base 0 s1 in
        match r with
        | None => (false, s2)
        | Some x => if (mx <? x) || ((55296 <=? x) && (x <? 57344)) then (false, error (off s) EEscUnicode s2) else (true, s2)
        end) = (ok, s') /\ mv s s' t (ok = true) /\ (ok = true -> esc q t) /\
        ((t = [] /\ ch s <> q /\ ch s <> 92 /\ ok = false) \/ exists c ds, t = c :: ds /\ c <> 10 /\ Forall hexdigit ds)).
    { intros n base mx pre s1 Hb M1 Hpre Hpre2 Hpre3 Hesc.
      destruct (esc_loop_mv n base 0 s1 Hb (mv_inv _ _ _ _ M1)) as (r & s2 & t & E & M2 & H1 & H2). rewrite E.
      assert (Hh : Forall hexdigit t).
      { eapply Forall_impl; [|exact H1]. intros c Hc. cbn beta in Hc. apply hex_iff. apply Z.ltb_lt in Hc. apply Z.ltb_lt. lia. }
      assert (Hshape : (pre ++ t = [] /\ ch s <> q /\ ch s <> 92 /\ pre = [] /\ t = []) \/
                exists c ds, pre ++ t = c :: ds /\ c <> 10 /\ Forall hexdigit ds).
      { destruct pre as [|p pre].
        - destruct t as [|c t]; [left; tauto|]. right. exists c, t. inversion Hh; subst. split; [reflexivity|].
          split; [unfold hexdigit, digit in *; lia|assumption].
        - right. exists p, (pre ++ t). split; [reflexivity|]. split; [intro X; apply Hpre; left; exact X|].
          apply Forall_app. split; [apply Hpre2; discriminate|exact Hh]. }
      assert (Hnn : pre ++ t = [] -> r = None).
      { intro X. apply app_eq_nil in X. destruct X as (-> & ->). destruct (Hpre3 eq_refl) as (Y & Z).
        destruct r as [y|]; [|reflexivity]. destruct (H2 y eq_refl) as (L & _). simpl in L. lia. }
      destruct r as [x|].
      - destruct (H2 x eq_refl) as (HL & Hv). fold (value base t) in Hv.
        destruct Hshape as [(X & _)|Hshape]; [apply Hnn in X; discriminate|].
        destruct ((mx <? x) || _) eqn:Ex.
        + eexists false, _, (pre ++ t). split; [reflexivity|].
          split; [apply mv_then_error with (Q := True); eapply mv_app; eauto|]. split; [discriminate|right; exact Hshape].
        + assert (Hgood : esc q (pre ++ t)).
          { apply Hesc; auto; rewrite <- Hv; apply orb_false_iff in Ex; destruct Ex as (Ex1 & Ex2).
            - apply Z.ltb_ge in Ex1. exact Ex1.
            - apply andb_false_iff in Ex2. rewrite Z.leb_gt, Z.ltb_ge in Ex2. lia. }
          exists true, s2, (pre ++ t). split; [reflexivity|]. split; [eapply mv_trans; [exact M1|exact M2|auto]|]. split; auto.
      - exists false, s2, (pre ++ t). split; [reflexivity|].
        split; [eapply mv_trans; [exact M1|exact M2|intros; congruence]|].
        split; [discriminate|]. destruct Hshape as [(X1 & X2 & X3 & _)|Hshape]; auto. }
    destruct ((48 <=? ch s) && (ch s <=? 55)) eqn:E1.
    { apply (Hdig 3%nat 8 255 []); try lia.
      - apply mv_refl; auto.
      - auto.
      - contradiction.
      - intros _. split; [apply oct_iff; zb; lia|lia].
      - intros ds HL Hd Hv _. simpl. destruct ds as [|a [|b [|c [|]]]]; try discriminate. apply Esc_oct; [|exact Hv].
        eapply Forall_impl; [|exact Hd]. intros x Hx. apply oct_iff. exact Hx. }
    clear E1.
    assert (Hhx : forall ds, Forall (fun c => (digitVal c <? 16) = true) ds -> Forall hexdigit ds).
    { intros ds Hd. eapply Forall_impl; [|exact Hd]. intros x Hx. apply hex_iff. exact Hx. }
    destruct (ch s =? 120) eqn:E2; [zb|clear E2].
    { apply (Hdig 2%nat 16 255 [120]); try lia; try discriminate.
      - apply mv_ascii; auto; lia.
      - simpl. lia.
      - intros _. constructor.
      - intros ds HL Hd Hv _. simpl. apply Esc_x; auto. }
    destruct (ch s =? 117) eqn:E3; [zb|clear E3].
    { apply (Hdig 4%nat 16 1114111 [117]); try lia; try discriminate.
      - apply mv_ascii; auto; lia.
      - simpl. lia.
      - intros _. constructor.
      - intros ds HL Hd Hv Hv2. simpl. apply Esc_u; auto. split; assumption. }
    destruct (ch s =? 85) eqn:E4; [zb|clear E4].
    { apply (Hdig 8%nat 16 1114111 [85]); try lia; try discriminate.
      - apply mv_ascii; auto; lia.
      - simpl. lia.
      - intros _. constructor.
      - intros ds HL Hd Hv Hv2. simpl. apply Esc_U; auto. split; assumption. }
    eexists false, _, []. split; [reflexivity|]. split; [apply mv_error; exact HI|]. split; [discriminate|].
    left. destruct Hno. auto.
Qed.

Lemma quoted_app : forall q a b, quoted q a -> quoted q b -> quoted q (a ++ b).
Proof. intros q a b H. induction H; simpl; auto; intro; [apply Q_plain|apply Q_esc]; auto. Qed.
Lemma quoted_hex : forall q ds, (q = 34 \/ q = 39) -> Forall hexdigit ds -> quoted q ds.
Proof.
  intros q ds Hq H. induction H as [|c ds Hc H IH]; constructor; auto; unfold hexdigit, digit in Hc; lia.
Qed.
Lemma quoted_high : forall q ds, (q = 34 \/ q = 39) -> Forall (fun b => 128 <= b) ds -> quoted q ds.
Proof.
  intros q ds Hq H. induction H as [|c ds Hc H IH]; constructor; auto; lia.
Qed.

(** What remains of a quoted literal. *)
Definition qtail (q : Z) (t after : bytes) : Prop :=
  (exists body, t = body ++ [q] /\ quoted q body) \/
  (exists body, (t = body \/ t = body ++ [92]) /\ quoted q body /\ at_line_end after).

Lemma qtail_app : forall q a t after, quoted q a -> qtail q t after -> qtail q (a ++ t) after.
Proof.
  intros q a t after Ha [(body & -> & Hb)|(body & H & Hb & He)].
  - left. exists (a ++ body). rewrite app_assoc. split; [reflexivity|apply quoted_app; auto].
  - right. exists (a ++ body). split; [|split; [apply quoted_app; auto|exact He]].
    destruct H as [-> | ->]; [left; reflexivity|right; apply app_assoc].
Qed.

(** A plain character in front. *)
Lemma char_quoted : forall q s t, (q = 34 \/ q = 39) ->
  ((ch s < 128 /\ t = [ch s]) \/ (128 <= ch s /\ Forall (fun b => 128 <= b) t)) ->
  ch s <> q -> ch s <> 92 -> ch s <> 10 -> quoted q t.
Proof.
  intros q s t Hq [(H & ->)|(H & H1)] A B C; [|apply quoted_high; auto].
  repeat constructor; auto.
Qed.

(** The escape without a consumed character: the loop goes on with the character behind the backslash. *)
Lemma qtail_bare : forall q s t after, Inv s -> (q = 34 \/ q = 39) -> rest s = t ++ after ->
  ch s <> q -> ch s <> 92 -> qtail q t after -> qtail q (92 :: t) after.
Proof.
  intros q s t after HI Hq Hr Hc1 Hc2 H.
  assert (Hhd : forall b r, t = b :: r -> b <> q /\ b <> 92).
  { intros b r ->. simpl in Hr. destruct (Z.lt_ge_cases b 128) as [Hlt|Hge]; [|lia].
    rewrite <- (ch_of_rest s b (r ++ after) HI Hr Hlt). auto. }
  destruct H as [(body & -> & Hb)|(body & H & Hb & He)].
  - destruct Hb as [|b l H1 H2 H3 Hb|c l H1 Hb].
    + exfalso. destruct (Hhd q [] eq_refl). congruence.
    + left. exists (92 :: b :: l). split; [reflexivity|]. apply Q_esc; auto.
    + exfalso. destruct (Hhd 92 ((c :: l) ++ [q]) eq_refl). congruence.
  - destruct Hb as [|b l H1 H2 H3 Hb|c l H1 Hb].
    + right. destruct H as [-> | ->].
      * exists []. split; [right; reflexivity|]. split; [constructor|exact He].
      * exfalso. destruct (Hhd 92 [] eq_refl). congruence.
    + right. exists (92 :: b :: l). split; [|split; [apply Q_esc; auto|exact He]].
      destruct H as [-> | ->]; [left|right]; reflexivity.
    + exfalso. destruct H as [-> | ->]; [destruct (Hhd 92 (c :: l) eq_refl)|destruct (Hhd 92 ((c :: l) ++ [92]) eq_refl)]; congruence.
Qed.

Definition good_tail (q : Z) (n : nat) (t : bytes) : Prop := exists body, t = body ++ [q] /\ good_quoted q n body.

Lemma good_char : forall q n s t l, Forall byte (rest s) -> Inv s -> t = firstn (width (rest s)) (rest s) -> t <> [] ->
  ch s <> q -> ch s <> 92 -> ch s <> 10 -> good_tail q n l -> good_tail q (S n) (t ++ l).
Proof.
  intros q n s t l Hb HI Et Hne H1 H2 H3 (body & -> & Hg).
  destruct (rest s) as [|b r] eqn:Er; [subst t; contradiction|].
  assert (Hbb : byte b) by (inversion Hb; assumption). pose proof (width_bounds b r Hbb) as Hw.
  destruct (decode_firstn (b :: r) (width (b :: r)) Hb (le_n _) ltac:(lia)) as (D1 & D2).
  destruct HI as (_ & HI & _). rewrite Er in HI. rewrite HI in *.
  exists (t ++ body). split; [apply app_assoc|].
  constructor; auto; rewrite Et; rewrite ?D1; auto. rewrite D2, firstn_length. lia.
Qed.

Lemma good_esc : forall q n e l, esc q e -> good_tail q n l -> good_tail q (S n) (92 :: e ++ l).
Proof.
  intros q n e l He (body & -> & Hg). exists (92 :: e ++ body).
  split; [simpl; rewrite app_assoc; reflexivity|constructor; auto].
Qed.

Lemma str_mv : forall k offs s, Inv s -> (length (rest s) <= k)%nat ->
  exists t, mv s (str_loop src k offs s) t (exists n, good_tail 34 n t) /\ qtail 34 t (rest (str_loop src k offs s)).
Proof.
  induction k as [|k IH]; intros offs s HI Hk; simpl; destruct ((ch s =? 10) || (ch s <? 0)) eqn:E.
  1, 3: exists []; split; [apply mv_error; exact HI|]; right; exists []; split; [auto|];
    split; [constructor|]; apply line_end_ch; [destruct HI as (A & B & C & D); unfold ScannerProofs.Inv, ScannerProofs.rest in *; simpl; auto|];
    simpl; zb; auto.
  - zb. destruct (rest s) eqn:Er; [|simpl in Hk; lia]. destruct HI as (_ & HI & _). rewrite Er in HI. simpl in HI. lia.
  - zb. destruct (mv_any s HI) as (t & M & Et & Hne & Ht); [lia|].
    pose proof (mv_len _ _ _ _ M Hne). pose proof (mv_inv _ _ _ _ M) as I1. set (s1 := next s) in *.
    destruct (ch s =? 34) eqn:E1; zb.
    + exists t. assert (t = [34]) by (destruct Ht as [(_ & ->)|(X & _)]; [congruence|lia]). clear Et. subst t.
      split; [eapply mv_weak; [exact M|]; intros _; exists 0%nat, []; split; [reflexivity|constructor]|].
      left. exists []. split; [reflexivity|constructor].
    + destruct (ch s =? 92) eqn:E2; zb.
      * assert (t = [92]) by (destruct Ht as [(_ & ->)|(X & _)]; [congruence|lia]). clear Et. subst t.
        destruct (escape_mv 34 s1 ltac:(auto) I1) as (ok & s2 & e & Ee & M2 & K1 & K2). rewrite Ee.
        pose proof (mv_len' _ _ _ _ M2).
        destruct (IH offs s2 (mv_inv _ _ _ _ M2)) as (t' & M3 & K3); [lia|].
        exists (92 :: e ++ t'). split.
        { change (92 :: e ++ t') with ([92] ++ (e ++ t')).
          pose proof (mv_trans _ _ _ _ _ _ _ _ M2 M3 (fun a b => conj a b)) as M23.
          eapply mv_trans; [exact M|exact M23|].
          intros _ (A & n & B). exists (S n). exact (good_esc 34 n e t' (K1 A) B). }
        destruct K2 as [(-> & A & B & _)|(c & ds & -> & Hc & Hds)].
        -- simpl. eapply qtail_bare; eauto. pose proof (mv_rest _ _ _ _ M2) as R2. simpl in R2. rewrite R2.
           exact (mv_rest _ _ _ _ M3).
        -- change (92 :: (c :: ds) ++ t') with ((92 :: c :: ds) ++ t'). apply qtail_app; [|exact K3].
           apply Q_esc; auto. apply quoted_hex; auto.
      * destruct (IH offs s1 I1) as (t' & M3 & K3); [lia|]. exists (t ++ t'). split.
        { eapply mv_trans; [exact M|exact M3|]. intros _ (n & B). exists (S n).
          apply (good_char 34 n s t t' (rest_bytes s)); auto. }
        apply qtail_app; [|exact K3]. eapply char_quoted; eauto.
Qed.

Lemma string_mv : forall s0 s, mv s0 s [34] True ->
  exists t s', scanString src s = (34 :: t, s') /\ mv s s' t (exists n, good_tail 34 n t) /\ quoted_lit 34 (34 :: t) (rest s').
Proof.
  intros s0 s M0. unfold scanString. pose proof (mv_inv _ _ _ _ M0) as HI.
  destruct (str_mv fuel (off s - 1) s HI (fuel_ok _)) as (t & M & H).
  rewrite (mv_sub1 _ _ _ _ _ _ _ M0 M). exists t, (str_loop src fuel (off s - 1) s). split; [reflexivity|].
  split; [exact M|]. destruct H as [(body & -> & Hb)|(body & H & Hb & He)].
  - left. exists body. auto.
  - right. exists body. split; [|auto]. destruct H as [-> | ->]; auto.
Qed.

Lemma rune_mv : forall k offs valid n s, Inv s -> (length (rest s) <= k)%nat ->
  exists v' n' s' t, rune_loop src k offs valid n s = (v', n', s') /\
    mv s s' t (valid = true -> v' = true /\ exists m, n' = (n + m)%nat /\ good_tail 39 m t) /\ qtail 39 t (rest s').
Proof.
  induction k as [|k IH]; intros offs valid n s HI Hk; simpl; destruct ((ch s =? 10) || (ch s <? 0)) eqn:E.
  1, 3: assert (HL : at_line_end (rest s)) by (apply line_end_ch; [exact HI|zb; auto]);
    assert (HQ : qtail 39 [] (rest s)) by (right; exists []; split; [auto|split; [constructor|exact HL]]);
    destruct valid;
    [ eexists false, n, _, []; split; [reflexivity|]; split; [apply mv_error; exact HI|exact HQ]
    | exists false, n, s, []; split; [reflexivity|]; split; [apply mv_refl; [exact HI|discriminate]|exact HQ] ].
  - zb. destruct (rest s) eqn:Er; [|simpl in Hk; lia]. destruct HI as (_ & HI & _). rewrite Er in HI. simpl in HI. lia.
  - zb. destruct (mv_any s HI) as (t & M & Et & Hne & Ht); [lia|].
    pose proof (mv_len _ _ _ _ M Hne). pose proof (mv_inv _ _ _ _ M) as I1. set (s1 := next s) in *.
    destruct (ch s =? 39) eqn:E1; zb.
    + exists valid, n, s1, t. assert (t = [39]) by (destruct Ht as [(_ & ->)|(X & _)]; [congruence|lia]). clear Et. subst t.
      split; [reflexivity|].
      split; [eapply mv_weak; [exact M|]; intros _ Hv; split; [exact Hv|]; exists 0%nat; split; [lia|]; exists []; split; [reflexivity|constructor]|].
      left. exists []. split; [reflexivity|constructor].
    + destruct (ch s =? 92) eqn:E2; zb.
      * assert (t = [92]) by (destruct Ht as [(_ & ->)|(X & _)]; [congruence|lia]). clear Et. subst t.
        destruct (escape_mv 39 s1 ltac:(auto) I1) as (ok & s2 & e & Ee & M2 & K1 & K2). rewrite Ee.
        pose proof (mv_len' _ _ _ _ M2).
        destruct (IH offs (valid && ok) (S n) s2 (mv_inv _ _ _ _ M2)) as (v' & n' & s' & t' & El & M3 & K3); [lia|].
        exists v', n', s', (92 :: e ++ t'). split; [exact El|]. split.
        { change (92 :: e ++ t') with ([92] ++ (e ++ t')).
          pose proof (mv_trans _ _ _ _ _ _ _ _ M2 M3 (fun a b => conj a b)) as M23.
          eapply mv_trans; [exact M|exact M23|].
          intros _ (A & B) Hv. rewrite Hv, A in B. destruct (B eq_refl) as (B1 & m & B2 & B3).
            split; [exact B1|]. exists (S m). split; [lia|]. exact (good_esc 39 m e t' (K1 A) B3). }
        destruct K2 as [(-> & A & B & _)|(c & ds & -> & Hc & Hds)].
        -- simpl. eapply qtail_bare; eauto. pose proof (mv_rest _ _ _ _ M2) as R2. simpl in R2. rewrite R2.
           exact (mv_rest _ _ _ _ M3).
        -- change (92 :: (c :: ds) ++ t') with ((92 :: c :: ds) ++ t'). apply qtail_app; [|exact K3].
           apply Q_esc; auto. apply quoted_hex; auto.
      * destruct (IH offs valid (S n) s1 I1) as (v' & n' & s' & t' & El & M3 & K3); [lia|].
        exists v', n', s', (t ++ t'). split; [exact El|]. split.
        { eapply mv_trans; [exact M|exact M3|]. intros _ B Hv. destruct (B Hv) as (B1 & m & B2 & B3).
          split; [exact B1|]. exists (S m). split; [lia|]. apply (good_char 39 m s t t' (rest_bytes s)); auto. }
        apply qtail_app; [|exact K3]. eapply char_quoted; eauto.
Qed.

Lemma char_mv : forall s0 s, mv s0 s [39] True ->
  exists t s', scanRune src s = (39 :: t, s') /\ mv s s' t (good_tail 39 1 t) /\ quoted_lit 39 (39 :: t) (rest s').
Proof.
  intros s0 s M0. unfold scanRune. pose proof (mv_inv _ _ _ _ M0) as HI.
  destruct (rune_mv fuel (off s - 1) true 0 s HI (fuel_ok _)) as (v & n & s1 & t & El & M & H). rewrite El.
  set (s2 := if v && negb (n =? 1)%nat then error (off s - 1) ERune s1 else s1).
  assert (M' : mv s s2 t (good_tail 39 1 t)).
  { unfold s2. destruct (v && negb (n =? 1)%nat) eqn:E; [eapply mv_then_error; exact M|].
    eapply mv_weak; [exact M|]. intro B. destruct (B eq_refl) as (Hv & m & Hm & Hg). rewrite Hv in E. simpl in E.
    apply negb_false_iff in E. apply Nat.eqb_eq in E. assert (m = 1%nat) by lia. subst m. exact Hg. }
  rewrite (mv_sub1 _ _ _ _ _ _ _ M0 M'). exists t, s2. split; [reflexivity|]. split; [exact M'|].
  assert (Er : rest s2 = rest s1) by (unfold s2; destruct (v && _); reflexivity). rewrite Er.
  destruct H as [(body & -> & Hb)|(body & H & Hb & He)].
  - left. exists body. auto.
  - right. exists body. split; [|auto]. destruct H as [-> | ->]; auto.
Qed.

Lemma raw_mv : forall k offs cr s, Inv s -> (length (rest s) <= k)%nat ->
  exists cr' s' t, raw_loop src k offs cr s = (cr', s') /\ (cr' = false -> cr = false /\ ~ In 13 t) /\
    mv s s' t (exists body, t = body ++ [96] /\ ~ In 96 body) /\
    ((exists body, t = body ++ [96] /\ ~ In 96 body) \/ (~ In 96 t /\ rest s' = [])).
Proof.
  induction k as [|k IH]; intros offs cr s HI Hk; simpl; destruct (ch s <? 0) eqn:E.
  1, 3: zb; exists cr, (error offs ERawTerm s), []; split; [reflexivity|]; split; [auto|]; split; [apply mv_error; exact HI|];
    right; split; [auto|]; destruct (ch_range s HI) as [(_ & X)|X]; [exact X|lia].
  - zb. destruct (rest s) eqn:Er; [|simpl in Hk; lia]. destruct HI as (_ & HI & _). rewrite Er in HI. simpl in HI. lia.
  - zb. destruct (mv_any s HI) as (t & M & Et & Hne & Ht); [lia|].
    pose proof (mv_len _ _ _ _ M Hne). pose proof (mv_inv _ _ _ _ M) as I1. set (s1 := next s) in *.
    destruct (ch s =? 96) eqn:E1; zb.
    + exists cr, s1, t. assert (t = [96]) by (destruct Ht as [(_ & ->)|(X & _)]; [congruence|lia]). clear Et. subst t.
      split; [reflexivity|]. split; [intros ->; split; [reflexivity|simpl; lia]|].
      assert (X : exists body, [96] = body ++ [96] /\ ~ In 96 body) by (exists []; auto).
      split; [eapply mv_weak; [exact M|auto]|left; exact X].
    + destruct (IH offs (cr || (ch s =? 13)) s1 I1) as (cr' & s' & t' & El & Hcr & M3 & K3); [lia|].
      exists cr', s', (t ++ t'). split; [exact El|].
      assert (Hno : forall x, x < 128 -> ch s <> x -> ~ In x t) by (intros; apply (char_no s); auto).
      assert (Hb : (exists body, t' = body ++ [96] /\ ~ In 96 body) -> exists body, t ++ t' = body ++ [96] /\ ~ In 96 body).
      { intros (body & -> & Hb). exists (t ++ body). split; [apply app_assoc|]. intro X. apply in_app_or in X.
        destruct X as [X|X]; [revert X; apply Hno; [lia|auto]|contradiction]. }
      split.
      { intro Hc. destruct (Hcr Hc) as (A & B). apply orb_false_iff in A. destruct A as (A & A'). apply Z.eqb_neq in A'.
        split; [exact A|]. intro X. apply in_app_or in X. destruct X as [X|X]; [|contradiction].
        revert X. apply Hno; [lia|exact A']. }
      split; [eapply mv_trans; [exact M|exact M3|auto]|].
      destruct K3 as [K3|(K3 & K4)]; [left; auto|right]. split; [|exact K4].
      intro X. apply in_app_or in X. destruct X as [X|X]; [|contradiction]. revert X. apply Hno; [lia|auto].
Qed.

Lemma rawstring_mv : forall s0 s, mv s0 s [96] True ->
  exists t s', scanRawString src s = (stripCR (96 :: t), s') /\
    mv s s' t (exists body, t = body ++ [96] /\ ~ In 96 body) /\ raw_lit (96 :: t) (rest s').
Proof.
  intros s0 s M0. unfold scanRawString. pose proof (mv_inv _ _ _ _ M0) as HI.
  destruct (raw_mv fuel (off s - 1) false s HI (fuel_ok _)) as (cr & s' & t & El & Hcr & M & H). rewrite El.
  rewrite (mv_sub1 _ _ _ _ _ _ _ M0 M). exists t, s'. split; [|split; [exact M|]].
  - f_equal. destruct cr; [reflexivity|]. symmetry. apply filter_cr. destruct (Hcr eq_refl) as (_ & X).
    simpl. intros [Y|Y]; [lia|contradiction].
  - destruct H as [(body & -> & Hb)|(H1 & H2)]; [left; exists body; auto|right; exists t; auto].
Qed.
End Proofs.
