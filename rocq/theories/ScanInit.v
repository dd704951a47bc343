(** Init, and complete scans. *)
From Verif Require Import Base Token Utf8 Utf8Proofs Scanner ScannerSpec ScannerProofs ScannerProofs2 ScannerProofs3 ScannerProofs4
  ScannerProofs5 ScanDet ScanRun.

Lemma op_kinds : forall k t, op_spelling k t -> k <> EOF /\ k <> COMMENT /\ k <> ILLEGAL /\ k <> IDENT /\ k <> STRING /\ k <> CHAR /\
  k <> INT /\ k <> FLOAT /\ k <> IMAG /\ t <> [].
Proof.
  intros k t H. apply op_out in H.
  assert (C : forallb (fun p => negb (existsb (Z.eqb (fst p)) [EOF; COMMENT; ILLEGAL; IDENT; STRING; CHAR; INT; FLOAT; IMAG]) &&
     negb (beq (snd p) [])) optab = true) by (vm_compute; reflexivity).
  rewrite forallb_forall in C. specialize (C _ H). cbn [fst snd] in C. apply andb_true_iff in C. destruct C as (C & D).
  apply negb_true_iff in C, D. apply beq_neq in D.
  assert (N : forall x, In x [EOF; COMMENT; ILLEGAL; IDENT; STRING; CHAR; INT; FLOAT; IMAG] -> k <> x).
  { intros x Hx ->. apply not_true_iff_false in C. apply C. apply existsb_exists. exists x. split; [exact Hx|apply Z.eqb_refl]. }
  repeat split; try (apply N; simpl; tauto). exact D.
Qed.

Section Init.
Variables isL isD : Z -> bool.
Variables mComments mSemis : bool.
Variable src : bytes.
Hypothesis Hsrc : Forall byte src.
Notation rest := (rest src).
Notation Inv := (Inv src).
Notation Scan := (Scan isL isD mComments mSemis src).
Notation scans := (scans isL isD mComments mSemis src).
Notation at_pieces := (at_pieces mSemis src).

Lemma first_bom : forall l, Forall byte l -> first l = bom -> exists r, l = bom_text ++ r /\ width l = 3%nat.
Proof.
  intros [|b l] Hl H; [discriminate|]. inversion Hl as [|? ? Hb _]; subst.
  pose proof (decode_cases b l Hb) as D. unfold first, width in *. destruct (DecodeRune (b :: l)) as [r w]. cbn [fst snd] in *. subst r.
  destruct D as [(D1 & D2 & D3)|[(D1 & D2 & D3)|(D1 & D2 & D3 & D4 & D5 & D6)]].
  - unfold bom in D2. lia.
  - discriminate.
  - assert (E : EncodeRune bom = bom_text) by (vm_compute; reflexivity). rewrite E in D4.
    assert (L : length (firstn w (b :: l)) = 3%nat) by (rewrite <- D4; reflexivity). rewrite firstn_length in L.
    assert (w = 3%nat) by lia. subst w. exists (skipn 3 (b :: l)). split; [|reflexivity].
    rewrite D4. symmetry. apply firstn_skipn.
Qed.
Lemma bom_first : forall r, first (bom_text ++ r) = bom.
Proof. intro r. reflexivity. Qed.

Lemma init_spec : forall old, exists b, src = b ++ rest (Init src old) /\ has_bom b (rest (Init src old)) /\
  off (Init src old) = length b /\ at_pieces (Init src old) [] /\ Linv src (Init src old) /\
  ecount (Init src old) = Z.of_nat (length (errs (Init src old))) /\
  (errs (Init src old) = [] -> okc src (Init src old)).
Proof.
  intro old. unfold Init. set (s0 := mkSc 32 0 0 0 false 0 [] [0%nat] [] false).
  assert (E1 : next src s0 = set_cur (first src) 0 (width src) (add_errs (char_errs src 0) s0)).
  { rewrite next_eq by (simpl; lia). reflexivity. }
  assert (I1 : Inv (next src s0)).
  { rewrite E1. unfold ScannerProofs.Inv, ScannerProofs.rest. simpl. repeat split; lia. }
  assert (R1 : rest (next src s0) = src) by (rewrite E1; reflexivity).
  assert (L1 : Linv src (next src s0)) by (rewrite E1; reflexivity).
  assert (P1 : isemi (next src s0) = false) by (rewrite E1; reflexivity).
  assert (C1 : ecount (next src s0) = Z.of_nat (length (errs (next src s0)))) by (rewrite E1; reflexivity).
  assert (AT : forall s, Inv s -> isemi s = false -> at_pieces s []).
  { intros s HI Hs. constructor; auto.
    - intro. exact Hs.
    - rewrite Hs. simpl. split; [discriminate|tauto]. }
  destruct (ch (next src s0) =? bom) eqn:Eb.
  - apply Z.eqb_eq in Eb. pose proof I1 as (_ & Hch & _). rewrite R1 in Hch. rewrite Hch in Eb.
    destruct (first_bom src Hsrc Eb) as (r & Er & Ew).
    assert (Hsh : exists b l, rest (next src s0) = b :: l) by (rewrite R1, Er; simpl; eauto).
    destruct Hsh as (b0 & l0 & Hsh). destruct (next_move src Hsrc _ b0 l0 I1 Hsh) as (X & Rx & Ox & _).
    rewrite R1, Ew in *. assert (O0 : off (next src s0) = 0%nat) by (rewrite E1; reflexivity).
    exists bom_text. split; [rewrite Rx, Er; reflexivity|]. split; [left; reflexivity|]. split; [rewrite Ox, O0; reflexivity|].
    split; [apply AT; [exact (ext_inv _ _ _ _ _ X)|rewrite (ext_isemi _ _ _ _ _ X); exact P1]|].
    split; [apply (ext_lines _ _ _ _ _ X); exact L1|].
    assert (C0 : char_errs src 0 = []).
    { unfold char_errs. simpl. rewrite Er. reflexivity. }
    pose proof (ext_errs _ _ _ _ _ X) as Y. pose proof (ext_count _ _ _ _ _ X) as Z.
    assert (Y0 : errs (next src s0) = []) by (rewrite E1; cbn [errs set_cur add_errs]; rewrite C0; reflexivity).
    rewrite Y0 in Y, C1. cbn [app] in Y. split; [rewrite Z, C1, Y; reflexivity|].
    intro En. rewrite Y in En. split; [|rewrite Ox, O0; simpl; lia]. rewrite Ox. exact En.
  - apply Z.eqb_neq in Eb. exists []. split; [rewrite R1; reflexivity|]. split.
    { right. split; [reflexivity|]. intros x Hx. apply Eb. pose proof I1 as (_ & Hch & _). rewrite Hch, Hx. apply bom_first. }
    split; [rewrite E1; reflexivity|]. split; [apply AT; assumption|]. split; [exact L1|]. split; [exact C1|].
    intro En. rewrite E1 in En. cbn [errs set_cur add_errs s0 app] in En. split; [rewrite E1; exact En|].
    intro Y. contradiction.
Qed.

(** ** Progress *)
Definition measure (s : sc) : nat := 2 * length (rest s) + (if isemi s then 1 else 0).

Lemma lexeme_eof : forall lit text after, lexeme isL isD EOF lit text after -> lit = [] /\ text = [] /\ after = [].
Proof.
  intros lit text after H. inversion H; subst; try discriminate; auto.
  - exfalso. destruct (number_kinds _ _ H0) as [X|[X|X]]; discriminate.
  - exfalso. apply op_kinds in H1. tauto.
Qed.
Lemma lexeme_empty : forall k lit after, Forall byte after -> lexeme isL isD k lit [] after -> k = EOF.
Proof.
  intros k lit after Hb H. inversion H; subst; auto; exfalso.
  - match goal with X : ident _ _ _ |- _ => destruct X as (X & _); congruence end.
  - match goal with X : number _ _ |- _ => destruct (number_head _ _ X) as [(? & ? & Y & _)|(? & ? & Y & _)]; discriminate end.
  - match goal with X : quoted_lit _ _ _ |- _ => destruct (quoted_len 34 _ _ ltac:(lia) ltac:(lia) X) as (? & Y & _); discriminate end.
  - match goal with X : quoted_lit _ _ _ |- _ => destruct (quoted_len 39 _ _ ltac:(lia) ltac:(lia) X) as (? & Y & _); discriminate end.
  - match goal with X : raw_lit _ _ |- _ => destruct (raw_len _ _ X) as (? & Y & _); discriminate end.
  - match goal with X : op_spelling _ _ |- _ => apply op_kinds in X; tauto end.
  - simpl app in *. destruct after as [|b r].
    + match goal with X : stray _ |- _ => unfold stray in X; simpl in X; lia end.
    + inversion Hb; subst. pose proof (width_bounds b r ltac:(assumption)) as W.
      match goal with X : [] = firstn _ _ |- _ => destruct (width (b :: r)); [lia|discriminate X] end.
  - match goal with X : comment _ _ |- _ => apply comment_head in X; destruct X as (? & ? & X & _); discriminate end.
  - match goal with X : sharp_comment _ |- _ => destruct X as (? & X & _); discriminate end.
Qed.

Lemma scan_measure : forall s, Inv s -> Sinv mSemis s -> forall t s', Scan s = (t, s') ->
  tkind t = EOF \/ (measure s' < measure s)%nat.
Proof.
  intros s HI HS t s' E. destruct (scan_step isL isD mComments mSemis src Hsrc s HI HS) as (g & text & es & t0 & s0 & E0 & ST & HS' & HI').
  rewrite E0 in E. injection E as -> ->. destruct ST as [X G W C P A L].
  pose proof (ext_rest _ _ _ _ _ X) as R. change (rest (set_isemi (isemi s') s)) with (rest s) in R.
  assert (HR : (length (rest s) = length g + length text + length (rest s'))%nat) by (rewrite R, !app_length; lia).
  unfold measure.
  assert (Hd : (isemi s = true /\ line_ends (rest s)) \/ ~ (isemi s = true /\ line_ends (rest s))).
  { destruct (line_ends_dec isL isD mSemis src Hsrc s HI HS) as [D|[D|D]]; [|right; tauto|right; intros (Y & _); congruence].
    destruct (isemi s); [left; auto|right; intros (Y & _); discriminate]. }
  destruct Hd as [(D1 & D2)|D].
  - destruct (A D1 D2) as (_ & _ & A3 & _). rewrite A3, D1. right. lia.
  - destruct (L D) as (L1 & _). destruct text as [|c text].
    + left. eapply lexeme_empty; [|exact L1]. apply rest_bytes. exact Hsrc.
    + right. simpl length in HR. destruct (isemi s'), (isemi s); lia.
Qed.

Lemma scan_eof : forall s, Inv s -> Sinv mSemis s -> forall t s', Scan s = (t, s') -> tkind t = EOF ->
  rest s' = [] /\ isemi s' = false /\ tpos t = S (length src) /\ tlit t = [].
Proof.
  intros s HI HS t s' E K. destruct (scan_step isL isD mComments mSemis src Hsrc s HI HS) as (g & text & es & t0 & s0 & E0 & ST & HS' & HI').
  rewrite E0 in E. injection E as -> ->. destruct ST as [X G W C P A L].
  assert (D : ~ (isemi s = true /\ line_ends (rest s))).
  { intros (D1 & D2). destruct (A D1 D2) as (A1 & _). rewrite K in A1. discriminate. }
  destruct (L D) as (L1 & L2 & L3 & L4). rewrite K in L1. destruct (lexeme_eof _ _ _ L1) as (-> & -> & R').
  split; [exact R'|]. split.
  - destruct (isemi s') eqn:Ei; [|reflexivity]. exfalso. destruct (proj1 L4 eq_refl) as (_ & [Y|(Y & _)]).
    + rewrite K in Y. unfold line_final in Y. repeat (destruct Y as [Y|Y]; [discriminate|]). discriminate.
    + rewrite K in Y. discriminate.
  - rewrite P. split; [|reflexivity]. pose proof (ext_off _ _ _ _ _ X) as O. cbn [off set_isemi] in O. rewrite app_nil_r in O.
    apply (rest_nil src s' HI') in R'. lia.
Qed.

(** At the end of the text only EOF tokens follow. *)
Lemma scan_at_end : forall s, Inv s -> Sinv mSemis s -> rest s = [] -> isemi s = false ->
  exists s', Scan s = (mkTok EOF (S (length src)) [], s') /\ rest s' = [] /\ isemi s' = false /\ Inv s' /\ Sinv mSemis s' /\ errs s' = errs s.
Proof.
  intros s HI HS Hr Hs. destruct (scan_step isL isD mComments mSemis src Hsrc s HI HS) as (g & text & es & t & s' & E & ST & HS' & HI').
  pose proof (st_ext _ _ _ _ _ _ _ _ _ _ _ ST) as X. pose proof (ext_rest _ _ _ _ _ X) as R. change (rest (set_isemi (isemi s') s)) with (rest s) in R.
  rewrite Hr in R. symmetry in R. apply app_eq_nil in R. destruct R as (R1 & R2). apply app_eq_nil in R1. destruct R1 as (-> & ->).
  assert (D : ~ (isemi s = true /\ line_ends (rest s))) by (intros (Y & _); congruence).
  destruct (st_lex _ _ _ _ _ _ _ _ _ _ _ ST D) as (L1 & _). rewrite R2 in L1.
  assert (K : tkind t = EOF) by (eapply lexeme_empty; [|exact L1]; constructor).
  destruct (scan_eof s HI HS t s' E K) as (Y1 & Y2 & Y3 & Y4). exists s'. rewrite E.
  split; [destruct t as [k p l]; simpl in *; congruence|]. split; [exact Y1|]. split; [exact Y2|]. split; [exact HI'|]. split; [exact HS'|].
  (* no error at the end of the text *)
  assert (Hch : ch s = -1) by (destruct HI as (_ & Y & _); rewrite Hr in Y; exact Y).
  unfold Scanner.Scan, Scanner.fuel, Scanner.scan_loop in E.
  assert (SK : skipWhitespace src s = s).
  { assert (WH : forall n p x, p (ch x) = false -> while src n p x = x) by (intros [|n] p x Hp; unfold while; rewrite Hp; reflexivity).
    apply WH. rewrite Hch, Hs. reflexivity. }
  unfold scan_pass in E. rewrite SK, Hch in E. cbn in E.
  destruct (next_eof src s HI Hr) as (NX & _ & _).
  rewrite (ext_isemi _ _ _ _ _ NX), Hs in E. unfold finish in E.
  assert (Es : errs s' = errs (next src s)).
  { destruct mSemis; injection E as _ <-; reflexivity. }
  rewrite Es, (ext_errs _ _ _ _ _ NX). apply app_nil_r.
Qed.
End Init.
