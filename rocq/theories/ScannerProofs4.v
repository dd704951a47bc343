(** One pass of Scan, and Scan. *)
From Verif Require Import Base Token Utf8 Utf8Proofs Scanner ScannerSpec ScannerProofs ScannerProofs2 ScannerProofs3.

Section Proofs.
Variables isL isD : Z -> bool.
Variables mComments mSemis : bool.
Variable src : bytes.
Hypothesis Hsrc : Forall byte src.

Notation next := (next src).
Notation rest := (rest src).
Notation Inv := (Inv src).
Notation ext := (ext src).
Notation mv := (mv src).
Notation scan_pass := (scan_pass isL isD mComments mSemis src).
Notation finish := (finish mSemis).
Notation fin_op := (fin_op mSemis).
Notation lexeme := (lexeme isL isD).

(** Semicolons are only pending in InsertSemis mode. *)
Definition Sinv (s : sc) : Prop := mSemis = false -> isemi s = false.

(** The token [t] found between [s] and [s'] is the lexeme [text] of the source. *)
Definition is_lexeme (s s' : sc) (t : token) (text : bytes) : Prop :=
  lexeme (tkind t) (tlit t) text (rest s') /\
  (isemi s = true -> ~ line_ends (rest s)) /\
  (tkind t = COMMENT -> mComments = true) /\
  (isemi s' = true <-> mSemis = true /\
     (line_final (tkind t) \/ (tkind t = ILLEGAL /\ tlit t <> [] /\ isemi s = true))).
(** ... or a semicolon inserted at the end of a line *)
Definition is_autosemi (s s' : sc) (t : token) (text : bytes) : Prop :=
  isemi s = true /\ line_ends (rest s) /\ tkind t = SEMICOLON /\ tlit t = [10] /\ isemi s' = false /\
  (text = [10] \/ (text = [] /\ (rest s' = [] \/ exists c r, rest s' = c :: r /\ (c = 47 \/ c = 35)))).

Definition tspec (s s' : sc) (t : token) : Prop :=
  exists g text, Forall (fun c => is_white (isemi s) c = true) g /\
    mv (set_isemi (isemi s') s) s' (g ++ text) (okc src s -> is_lexeme s s' t text -> well_formed (tkind t) text) /\
    tpos t = S (off s + length g) /\
    (is_lexeme s s' t text \/ is_autosemi s s' t text).

Definition aspec (s s' : sc) : Prop :=
  exists g c, Forall (fun c => is_white (isemi s) c = true) g /\ c <> [] /\ comment c (rest s') /\
    mv (set_isemi false s) s' (g ++ c) (line_comment c \/ sharp_comment c \/ closed_comment c) /\
    isemi s' = false /\ mComments = false /\ (isemi s = true -> ~ line_ends (rest s)).

Definition pspec (s : sc) (r : pass) : Prop :=
  match r with Tok t s' => tspec s s' t | Again s' => aspec s s' end.

Lemma ext_set_isemi : forall b s s' t es, ext s s' t es -> ext (set_isemi b s) (set_isemi b s') t es.
Proof.
  intros b s s' t es H. destruct H. constructor; auto; try reflexivity.
Qed.
Lemma mv_set_isemi : forall b s s' t Q, mv s s' t Q -> mv (set_isemi b s) (set_isemi b s') t Q.
Proof. intros b s s' t Q (es & H & K). exists es. split; [apply ext_set_isemi; exact H|exact K]. Qed.
Lemma set_isemi_same : forall s, set_isemi (isemi s) s = s.
Proof. intros []. reflexivity. Qed.
Lemma set_isemi_twice : forall b c s, set_isemi b (set_isemi c s) = set_isemi b s.
Proof. reflexivity. Qed.
Lemma mv_finish : forall s s' t Q, mv s s' t Q -> mv (set_isemi (isemi s') s) s' t Q.
Proof.
  intros s s' t Q H. apply (mv_set_isemi (isemi s')) in H. rewrite (set_isemi_same s') in H. exact H.
Qed.

(** The remaining input decides about the line end, white space apart. *)
Lemma no_line_end : forall s s1 g c l, isemi s = true -> Forall (fun c => is_white (isemi s) c = true) g ->
  rest s = g ++ rest s1 -> rest s1 = c :: l -> is_white (isemi s) c = false -> c <> 10 -> c <> 47 -> c <> 35 -> ~ line_ends (rest s).
Proof.
  intros s s1 g c l Hs Hg Hr Hr1 Hw H1 H2 H3 X. rewrite Hs in *.
  assert (Hg' : Forall blank g) by (eapply Forall_impl; [|exact Hg]; intros x Hx; apply white_blank; exact Hx).
  rewrite Hr in X. apply LEx_blanks_iff in X; [|exact Hg']. rewrite Hr1 in X. apply LE_head in X.
  destruct X as [X|X]; [|lia]. apply white_blank in X. congruence.
Qed.

(** Finishing with an ordinary token. *)
Lemma fin_lex : forall s s1 s2 g text Q k lit b,
  Sinv s -> Forall (fun c => is_white (isemi s) c = true) g -> mv s s1 g True -> mv s1 s2 text Q ->
  lexeme k lit text (rest s2) -> (isemi s = true -> ~ line_ends (rest s)) -> (k = COMMENT -> mComments = true) ->
  (b = true <-> line_final k \/ (k = ILLEGAL /\ lit <> [] /\ isemi s = true)) ->
  (okc src s1 -> Q -> well_formed k text) -> pspec s (finish (S (off s1)) b k lit s2).
Proof.
  intros s s1 s2 g text Q k lit b HS Hg M1 M2 HL Hle Hcm Hb HQ.
  unfold Scanner.finish. cbn [pspec].
  set (s3 := if mSemis then set_isemi b s2 else s2).
  assert (Er : rest s3 = rest s2) by (unfold s3; destruct mSemis; reflexivity).
  assert (Ei : isemi s3 = if mSemis then b else isemi s).
  { unfold s3. destruct mSemis; [reflexivity|]. rewrite (mv_isemi src _ _ _ _ M2). exact (mv_isemi src _ _ _ _ M1). }
  assert (IL : is_lexeme s s3 (mkTok k (S (off s1)) lit) text).
  { unfold is_lexeme. cbn [tkind tlit]. rewrite Er. split; [exact HL|]. split; [exact Hle|]. split; [exact Hcm|].
    rewrite Ei. unfold Sinv in HS. destruct mSemis; [rewrite Hb; tauto|]. rewrite HS by reflexivity. split; [discriminate|tauto]. }
  exists g, text. split; [exact Hg|]. split; [|split; [|left; exact IL]].
  - assert (MM : mv (set_isemi (isemi s3) s) (set_isemi (isemi s3) s2) (g ++ text)
       (okc src s -> is_lexeme s s3 (mkTok k (S (off s1)) lit) text -> well_formed k text)).
    { apply mv_set_isemi. destruct M1 as (e1 & X1 & _). destruct M2 as (e2 & X2 & K2). exists (e1 ++ e2).
      split; [eapply ext_trans; eauto|]. intros E Ho _. apply app_eq_nil in E. destruct E as (-> & ->).
      apply HQ; [|apply K2; reflexivity]. apply (ext_clean _ _ _ _ _ X1); auto. }
    assert (E3 : set_isemi (isemi s3) s2 = s3).
    { unfold s3. destruct mSemis; [reflexivity|]. apply set_isemi_same. }
    rewrite E3 in MM. exact MM.
  - cbn [tpos]. rewrite (mv_off src _ _ _ _ M1). reflexivity.
Qed.

(** Finishing with a semicolon inserted before position [s1]. *)
Lemma fin_auto : forall s s1 s2 g text,
  Forall (fun c => is_white (isemi s) c = true) g -> mv s s1 g True -> mv s1 s2 text True ->
  isemi s = true -> line_ends (rest s) ->
  (text = [10] \/ (text = [] /\ (rest s2 = [] \/ exists c r, rest s2 = c :: r /\ (c = 47 \/ c = 35)))) ->
  pspec s (Tok (mkTok SEMICOLON (S (off s1)) [10]) (set_isemi false s2)).
Proof.
  intros s s1 s2 g text Hg M1 M2 Hs Hle Ht. cbn [pspec]. exists g, text. split; [exact Hg|].
  assert (IA : is_autosemi s (set_isemi false s2) (mkTok SEMICOLON (S (off s1)) [10]) text).
  { unfold is_autosemi. cbn [tkind tlit isemi set_isemi]. repeat split; auto. }
  split; [|split; [|right; exact IA]].
  - cbn [isemi set_isemi]. apply mv_set_isemi. eapply mv_trans; [exact M1|exact M2|].
    intros _ _ _ (_ & X & _). contradiction (X Hs Hle).
  - cbn [tpos]. rewrite (mv_off src _ _ _ _ M1). reflexivity.
Qed.

(** A plain well-formedness: kinds without conditions. *)
Lemma wf_plain : forall k t, k <> STRING -> k <> CHAR -> k <> INT -> k <> COMMENT -> k <> ILLEGAL -> well_formed k t.
Proof. intros. unfold well_formed. repeat split; intro; contradiction. Qed.

Definition final_kind (k : Z) : bool :=
  existsb (Z.eqb k) [IDENT; INT; FLOAT; IMAG; CHAR; STRING; RPAREN; RBRACK; RBRACE; INC; DEC].
Lemma final_iff : forall k, final_kind k = true <-> line_final k.
Proof.
  intro k. unfold final_kind, line_final. simpl. rewrite !orb_true_iff, !Z.eqb_eq. intuition congruence.
Qed.

(** An operator [t]. *)
Lemma fin_oper : forall s s1 s2 g text k b,
  Sinv s -> Forall (fun c => is_white (isemi s) c = true) g -> mv s s1 g True -> mv s1 s2 text True ->
  (isemi s = true -> ~ line_ends (rest s)) ->
  existsb (fun p => (fst p =? k) && beq (snd p) text) optab = true -> existsb (Z.eqb (ch s2)) (op_next text) = false -> forallb (fun c => c <? 128) (op_next text) = true ->
  b = final_kind k -> (negb (k =? SEMICOLON) && negb (k =? STRING) && negb (k =? CHAR) && negb (k =? INT) &&
    negb (k =? COMMENT) && negb (k =? ILLEGAL)) = true -> op_alone text (ch s2) ->
  pspec s (finish (S (off s1)) b k [] s2).
Proof.
  intros s s1 s2 g text k b HS Hg M1 M2 Hle Hop' Hn Ha -> Hk Hal.
  assert (Hop : In (k, text) optab).
  { apply existsb_exists in Hop'. destruct Hop' as ((k' & t') & Hin & H). cbn [fst snd] in H.
    apply andb_true_iff in H. destruct H as (H1 & H2). apply Z.eqb_eq in H1. apply beq_eq in H2. subst. exact Hin. }
  rewrite !andb_true_iff, !negb_true_iff, !Z.eqb_neq in Hk. destruct Hk as (((((K1 & K2) & K3) & K4) & K5) & K6).
  eapply fin_lex with (text := text); eauto.
  - apply Lx_op; auto; [apply op_in; exact Hop| |pose proof (mv_inv src _ _ _ _ M2) as (_ & X & _); rewrite <- X; exact Hal]. eapply op_longest; [apply op_in; exact Hop|].
    intros c r Hr Hin. rewrite forallb_forall in Ha. pose proof (Ha _ Hin) as Hc. cbn beta in Hc. apply Z.ltb_lt in Hc.
    assert (E : ch s2 = c) by (eapply ch_of_rest; [eapply mv_inv; eauto|exact Hr|exact Hc]).
    assert (existsb (Z.eqb (ch s2)) (op_next text) = true).
    { apply existsb_exists. exists c. split; [exact Hin|]. apply Z.eqb_eq. exact E. }
    congruence.
  - rewrite final_iff. split; [auto|]. intros [X|(X & _)]; [exact X|contradiction].
  - intros _ _. apply wf_plain; auto.
Qed.

(** Characters handled by no case of the switch. *)
Definition handled : list Z :=
  [32; 9; 10; 13; 34; 39; 96; 58; 46; 44; 59; 40; 41; 91; 93; 123; 125; 43; 45; 42; 47; 35; 37; 94; 60; 62; 61; 33; 38; 124; 63; 126; 64].
Lemma stray_of : forall c, 0 <= c -> (128 <= c \/ ~ (97 <= c <= 122 \/ 65 <= c <= 90 \/ c = 95)) -> ~ (48 <= c <= 57) ->
  ~ In c handled -> stray c.
Proof.
  intros c H0 H1 H2 H3. destruct (Z.lt_ge_cases c 128) as [Hlt|Hge]; [|left; lia].
  assert (Hb : forallb (fun n => let c := Z.of_nat n in
     existsb (Z.eqb c) handled || ((97 <=? c) && (c <=? 122)) || ((65 <=? c) && (c <=? 90)) || (c =? 95) || ((48 <=? c) && (c <=? 57)) ||
     (c <=? 8) || (c =? 11) || (c =? 12) || ((14 <=? c) && (c <=? 31)) || (c =? 36) || (c =? 92) || (c =? 127)) (seq 0 128) = true)
    by (vm_compute; reflexivity).
  rewrite forallb_forall in Hb. specialize (Hb (Z.to_nat c)). cbv zeta in Hb. rewrite Z2Nat.id in Hb by lia.
  assert (Hi : In (Z.to_nat c) (seq 0 128)) by (apply in_seq; lia). specialize (Hb Hi).
  rewrite !orb_true_iff, !andb_true_iff, !Z.leb_le, !Z.eqb_eq in Hb.
  assert (Hx : existsb (Z.eqb c) handled <> true).
  { intro X. apply existsb_exists in X. destruct X as (x & X & Y). apply Z.eqb_eq in Y. subst x. contradiction. }
  unfold stray. clear H3 Hi. intuition lia.
Qed.

Lemma pass_spec : forall s0, Inv s0 -> Sinv s0 -> pspec s0 (scan_pass s0).
Proof.
  intros s0 HI0 HS. unfold Scanner.scan_pass.
  destruct (skip_mv src Hsrc s0 HI0) as (g & M0 & Hg & Hstop).
  set (s := skipWhitespace src s0) in *.
  pose proof (mv_inv src _ _ _ _ M0) as HI. pose proof (mv_rest src _ _ _ _ M0) as R0.
  pose proof (mv_isemi src _ _ _ _ M0) as S0.
  (* a first character other than newline, slash and sharp: no line end *)
  assert (NLE : ch s <> -1 -> ch s <> 10 -> ch s <> 47 -> ch s <> 35 -> isemi s0 = true -> ~ line_ends (rest s0)).
  { intros Hm H1 H2 H3 Hs. destruct (rest s) as [|c l] eqn:Er.
    - destruct HI as (_ & X & _). rewrite Er in X. simpl in X. contradiction.
    - assert (Hb : byte c). { pose proof (rest_bytes src Hsrc s) as Y. rewrite Er in Y. inversion Y; auto. }
      destruct (Z.lt_ge_cases c 128) as [Hlt|Hge].
      + assert (E : ch s = c) by (eapply ch_of_rest; eauto).
        apply (no_line_end s0 s g c l); auto; try congruence.
      + apply (no_line_end s0 s g c l); auto; try lia; try congruence.
        unfold is_white. repeat (apply orb_false_iff; split); try (apply Z.eqb_neq; lia).
        apply andb_false_iff. left. apply Z.eqb_neq. lia. }
  destruct (isLetter isL (ch s)) eqn:EL.
  { destruct (ident_mv src Hsrc isL isD s HI EL) as (t & M & E & Hid & Hnx).
    destruct (scanIdentifier isL isD src s) as [lit s1]. cbn [fst snd] in *. subst lit.
    assert (Hl : letter isL (ch s)) by (apply (isLetter_iff isL isD); exact EL). unfold letter in Hl.
    eapply fin_lex with (text := t); eauto; try (intros; discriminate).
    - apply Lx_ident; [exact Hid|]. destruct (mv_inv src _ _ _ _ M) as (_ & X & _). rewrite <- X. exact Hnx.
    - apply NLE; lia.
    - unfold line_final. tauto.
    - intros _ _. apply wf_plain; discriminate. }
  assert (HnL : ~ letter isL (ch s)) by (rewrite <- (isLetter_iff isL isD); congruence). clear EL.
  destruct ((48 <=? ch s) && (ch s <=? 57)) eqn:ED.
  { apply andb_true_iff in ED. rewrite !Z.leb_le in ED.
    destruct (num_mv src Hsrc s HI ED) as (k & t & s1 & E & M & Hn & Hne & Hlong). rewrite E.
    assert (Hk : k = INT \/ k = FLOAT \/ k = IMAG).
    { destruct Hn; unfold number_kind; auto; repeat destruct (is_nil _); simpl; auto. }
    eapply fin_lex with (text := t); eauto.
    - apply Lx_number; auto.
    - apply NLE; lia.
    - destruct Hk as [-> | [-> | ->]]; discriminate.
    - unfold line_final. tauto.
    - intros _ HQ. unfold well_formed. destruct Hk as [-> | [-> | ->]]; repeat split; try discriminate; apply HQ; reflexivity. }
  destruct (ch s =? -1) eqn:E1.
  { apply Z.eqb_eq in E1. assert (Er : rest s = []) by (destruct (ch_range src Hsrc s HI) as [(_ & X)|X]; [exact X|lia]).
    destruct (next_eof src s HI Er) as (X & _ & Er1).
    assert (M1 : mv s (next s) [] True) by (eexists; split; [exact X|auto]).
    pose proof (mv_isemi src _ _ _ _ M1) as S1.
    destruct (isemi (next s)) eqn:Es.
    - eapply fin_auto with (text := []); eauto; try congruence.
      rewrite R0, Er. assert (Hs : isemi s0 = true) by congruence. rewrite Hs in Hg.
        apply LEx_blanks_iff; [eapply Forall_impl; [|exact Hg]; intros x Hx; apply white_blank; exact Hx|]. left. apply LE_eof.
    - eapply fin_lex with (text := []); eauto; try (intros; discriminate).
      + rewrite Er1. apply Lx_eof.
      + intro Y. congruence.
      + split; [discriminate|]. unfold line_final. intros [Y|(Y & _)]; [|discriminate].
        repeat (destruct Y as [Y|Y]; [discriminate|]). discriminate.
      + intros _ _. apply wf_plain; discriminate. }
  apply Z.eqb_neq in E1.
  assert (HC : 0 <= ch s) by (destruct (ch_range src Hsrc s HI) as [(X & _)|X]; [contradiction|exact X]).
  destruct (mv_any src Hsrc s HI HC) as (tc & MC & EC & HneC & HtC).
  assert (Htc : ch s < 128 -> tc = [ch s]) by (intro X; destruct HtC as [(_ & Y)|(Y & _)]; [exact Y|lia]).
  pose proof (mv_inv src _ _ _ _ MC) as I1. pose proof (mv_isemi src _ _ _ _ MC) as S1.
  set (s1 := next s) in *.
  assert (M1 : forall c, ch s = c -> c < 128 -> mv s s1 [c] True) by (intros c <- Hc; rewrite <- (Htc Hc); exact MC).
  destruct (ch s =? 10) eqn:E2.
  { apply Z.eqb_eq in E2. rewrite E2 in Hstop. unfold is_white in Hstop. simpl in Hstop.
    destruct (isemi s0) eqn:Es; [|discriminate].
    pose proof (M1 10 E2 ltac:(lia)) as M1'.
    eapply fin_auto with (text := [10]) (g := g); eauto; try (rewrite Es; exact Hg).
    rewrite R0. apply LEx_blanks_iff; [eapply Forall_impl; [|exact Hg]; intros x Hx; apply white_blank; exact Hx|]. left.
      rewrite (mv_rest src _ _ _ _ M1'). apply LE_nl. }
  apply Z.eqb_neq in E2.
  destruct (ch s =? 34) eqn:E; [apply Z.eqb_eq in E|apply Z.eqb_neq in E].
  { pose proof (M1 _ E ltac:(lia)) as M1'. destruct (string_mv src Hsrc s s1 M1') as (t & s2 & Et & M2 & Hq). rewrite Et.
    pose proof (mv_trans src _ _ _ _ _ _ _ _ M1' M2 (fun _ b => b)) as MT. cbn [app] in MT.
    eapply fin_lex with (text := 34 :: t) (s2 := s2); [exact HS|exact Hg|exact M0|exact MT| | |intro; discriminate| |].
    - apply Lx_string. exact Hq.
    - apply NLE; lia.
    - unfold line_final. tauto.
    - intros _ (n & body & -> & Hb). unfold well_formed. repeat split; try discriminate. intros _. left. exists n, body. auto. }
  rename E into F1. destruct (ch s =? 39) eqn:E; [apply Z.eqb_eq in E|apply Z.eqb_neq in E].
  { pose proof (M1 _ E ltac:(lia)) as M1'. destruct (char_mv src Hsrc s s1 M1') as (t & s2 & Et & M2 & Hq). rewrite Et.
    pose proof (mv_trans src _ _ _ _ _ _ _ _ M1' M2 (fun _ b => b)) as MT. cbn [app] in MT.
    eapply fin_lex with (text := 39 :: t) (s2 := s2); [exact HS|exact Hg|exact M0|exact MT| | |intro; discriminate| |].
    - apply Lx_char. exact Hq.
    - apply NLE; lia.
    - unfold line_final. tauto.
    - intros _ (body & -> & Hb). unfold well_formed. repeat split; try discriminate. intros _. exists body. auto. }
  rename E into F2. destruct (ch s =? 96) eqn:E; [apply Z.eqb_eq in E|apply Z.eqb_neq in E].
  { pose proof (M1 _ E ltac:(lia)) as M1'. destruct (rawstring_mv src Hsrc s s1 M1') as (t & s2 & Et & M2 & Hq). rewrite Et.
    pose proof (mv_trans src _ _ _ _ _ _ _ _ M1' M2 (fun _ b => b)) as MT. cbn [app] in MT.
    eapply fin_lex with (text := 96 :: t) (s2 := s2); [exact HS|exact Hg|exact M0|exact MT| | |intro; discriminate| |].
    - apply Lx_raw. exact Hq.
    - apply NLE; lia.
    - unfold line_final. tauto.
    - intros _ (body & -> & Hb). unfold well_formed. repeat split; try discriminate. intros _. right. exists body. auto. }
  rename E into F3.

  (* operators *)
  Ltac nextchar c E := destruct (ch _ =? c) eqn:E.
  Ltac fin_with t M :=
    let L := eval vm_compute in (op_next t) in
    eapply (fin_oper _ _ _ _ t); [eassumption|eassumption|eassumption|exact M| |vm_compute; reflexivity
      |change (op_next t) with L; cbn [existsb];
       repeat match goal with H : (ch _ =? _) = false |- _ => rewrite H end; reflexivity
      |vm_compute; reflexivity|reflexivity|vm_compute; reflexivity|try (split; intro; discriminate)].
  assert (M2 : forall c d, ch s = c -> c < 128 -> ch s1 = d -> 0 <= d < 128 -> mv s (next s1) [c; d] True).
  { intros c d Hc Hc1 Hd Hd1. change [c; d] with ([c] ++ [d]).
    eapply mv_app; [apply M1; assumption|apply mv_ascii; assumption]. }
  assert (M3 : forall c d e, ch s = c -> c < 128 -> ch s1 = d -> 0 <= d < 128 -> ch (next s1) = e -> 0 <= e < 128 ->
     mv s (next (next s1)) [c; d; e] True).
  { intros c d e Hc Hc1 Hd Hd1 He He1. change [c; d; e] with ([c; d] ++ [e]).
    eapply mv_app; [apply M2; assumption|]. apply mv_ascii; auto.
    eapply (mv_inv src s); apply (M2 c d); assumption. }
  unfold Scanner.fin_op, switch2, switch3, switch4.
  (* : *)
  destruct (ch s =? 58) eqn:E.
  { apply Z.eqb_eq in E. destruct (ch s1 =? 61) eqn:G1; cbn [fst snd].
    - apply Z.eqb_eq in G1. fin_with [58; 61] (M2 _ _ E ltac:(lia) G1 ltac:(lia)). apply NLE; lia.
    - fin_with [58] (M1 _ E ltac:(lia)). apply NLE; lia. }

  rename E into F4. destruct (ch s =? 46) eqn:E.
  { apply Z.eqb_eq in E. pose proof (M1 _ E ltac:(lia)) as M1'.
    destruct ((48 <=? ch s1) && (ch s1 <=? 57)) eqn:G0.
    - apply andb_true_iff in G0. rewrite !Z.leb_le in G0.
      destruct (point_mv src Hsrc s s1 M1' G0) as (k & t & s2 & Et & MM & Hn & HkI & Hlong). rewrite Et.
      assert (Hk : k = INT \/ k = FLOAT \/ k = IMAG).
      { destruct Hn; unfold number_kind; auto; repeat destruct (is_nil _); simpl; auto. }
      pose proof (mv_app src _ _ _ _ _ _ _ M1' MM) as MT. cbn [app] in MT.
      eapply fin_lex with (text := 46 :: t); [exact HS|exact Hg|exact M0|exact MT| | | | |].
      + apply Lx_number; auto.
      + apply NLE; lia.
      + destruct Hk as [-> | [-> | ->]]; discriminate.
      + unfold line_final. tauto.
      + intros _ _. unfold well_formed. destruct Hk as [-> | [-> | ->]]; repeat split; try discriminate; contradiction.
    - destruct (ch s1 =? 46) eqn:G1.
      + apply Z.eqb_eq in G1. destruct (ch (next s1) =? 46) eqn:G2.
        * apply Z.eqb_eq in G2. fin_with [46; 46; 46] (M3 _ _ _ E ltac:(lia) G1 ltac:(lia) G2 ltac:(lia)). apply NLE; lia.
        * pose proof (M2 _ _ E ltac:(lia) G1 ltac:(lia)) as M2'.
          eapply fin_lex with (text := [46; 46]); [exact HS|exact Hg|exact M0|exact M2'| | | | |].
          -- apply Lx_dots. intros r X. apply Z.eqb_neq in G2. apply G2.
             eapply ch_of_rest; [eapply mv_inv; exact M2'|exact X|lia].
          -- apply NLE; lia.
          -- discriminate.
          -- split; [discriminate|]. unfold line_final. intros [Y|(_ & Y & _)]; [|contradiction].
             repeat (destruct Y as [Y|Y]; [discriminate|]). discriminate.
          -- intros _ _. unfold well_formed. repeat split; try discriminate.
      + fin_with [46] M1'; [apply NLE; lia|]. split; [|intro; discriminate]. intros _. apply Z.eqb_neq in G1.
        split; [exact G1|]. unfold digit. apply andb_false_iff in G0. rewrite !Z.leb_gt in G0. lia. }
  rename E into F5. destruct (ch s =? 44) eqn:E.
  { apply Z.eqb_eq in E. fin_with [44] (M1 _ E ltac:(lia)). apply NLE; lia. }
  rename E into F6. destruct (ch s =? 59) eqn:E.
  { apply Z.eqb_eq in E. pose proof (M1 _ E ltac:(lia)) as M1'. eapply fin_lex with (text := [59]); [exact HS|exact Hg|exact M0|exact M1'| | | | |].
    - apply Lx_semi.
    - apply NLE; lia.
    - discriminate.
    - split; [discriminate|]. unfold line_final. intros [Y|(Y & _)]; [|discriminate].
      repeat (destruct Y as [Y|Y]; [discriminate|]). discriminate.
    - intros _ _. apply wf_plain; discriminate. }
  rename E into F7. destruct (ch s =? 40) eqn:E.
  { apply Z.eqb_eq in E. fin_with [40] (M1 _ E ltac:(lia)). apply NLE; lia. }
  rename E into F8. destruct (ch s =? 41) eqn:E.
  { apply Z.eqb_eq in E. fin_with [41] (M1 _ E ltac:(lia)). apply NLE; lia. }
  rename E into F9. destruct (ch s =? 91) eqn:E.
  { apply Z.eqb_eq in E. fin_with [91] (M1 _ E ltac:(lia)). apply NLE; lia. }
  rename E into F10. destruct (ch s =? 93) eqn:E.
  { apply Z.eqb_eq in E. fin_with [93] (M1 _ E ltac:(lia)). apply NLE; lia. }
  rename E into F11. destruct (ch s =? 123) eqn:E.
  { apply Z.eqb_eq in E. fin_with [123] (M1 _ E ltac:(lia)). apply NLE; lia. }
  rename E into F12. destruct (ch s =? 125) eqn:E.
  { apply Z.eqb_eq in E. fin_with [125] (M1 _ E ltac:(lia)). apply NLE; lia. }
  rename E into F13. destruct (ch s =? 43) eqn:E.
  { apply Z.eqb_eq in E. destruct (ch s1 =? 61) eqn:G1; [|destruct (ch s1 =? 43) eqn:G2]; cbn [fst snd].
    - apply Z.eqb_eq in G1. fin_with [43; 61] (M2 _ _ E ltac:(lia) G1 ltac:(lia)). apply NLE; lia.
    - apply Z.eqb_eq in G2. fin_with [43; 43] (M2 _ _ E ltac:(lia) G2 ltac:(lia)). apply NLE; lia.
    - fin_with [43] (M1 _ E ltac:(lia)). apply NLE; lia. }
  rename E into F14. destruct (ch s =? 45) eqn:E.
  { apply Z.eqb_eq in E. destruct (ch s1 =? 61) eqn:G1; [|destruct (ch s1 =? 45) eqn:G2]; cbn [fst snd].
    - apply Z.eqb_eq in G1. fin_with [45; 61] (M2 _ _ E ltac:(lia) G1 ltac:(lia)). apply NLE; lia.
    - apply Z.eqb_eq in G2. fin_with [45; 45] (M2 _ _ E ltac:(lia) G2 ltac:(lia)). apply NLE; lia.
    - fin_with [45] (M1 _ E ltac:(lia)). apply NLE; lia. }
  rename E into F15. destruct (ch s =? 42) eqn:E.
  { apply Z.eqb_eq in E. destruct (ch s1 =? 61) eqn:G1; cbn [fst snd].
    - apply Z.eqb_eq in G1. fin_with [42; 61] (M2 _ _ E ltac:(lia) G1 ltac:(lia)). apply NLE; lia.
    - fin_with [42] (M1 _ E ltac:(lia)). apply NLE; lia. }
  rename E into F16. destruct (ch s =? 47) eqn:E.
  { apply Z.eqb_eq in E. pose proof (M1 _ E ltac:(lia)) as M1'.
    destruct ((ch s1 =? 47) || (ch s1 =? 42)) eqn:G0.
    - assert (Hc : ch s1 = 47 \/ ch s1 = 42) by (apply orb_true_iff in G0; rewrite !Z.eqb_eq in G0; exact G0).
      assert (exists le s2, (if isemi s1 then findLineEnd src s1 else (false, s1)) = (le, s2) /\ mv s s2 [47] True /\
        (if isemi s0 then (le = true <-> line_ends (rest s0)) else le = false)) as (le & s2 & Ele & MF & Hle).
      { rewrite S1, S0. destruct (isemi s0) eqn:Es.
        - destruct (lineend_mv src Hsrc s s1 HI M1' ltac:(congruence)) as (r & s2 & Er & MF & Hr).
          exists r, s2. split; [exact Er|]. split; [exact MF|]. rewrite Hr, R0.
          rewrite LEx_blanks_iff by (eapply Forall_impl; [|exact Hg]; intros x Hx; apply white_blank; exact Hx).
          split; [intro X; left; exact X|]. pose proof (mv_rest src _ _ _ _ M1') as Rs. simpl in Rs. rewrite Rs.
          apply LE_slash_c.
        - exists false, s1. auto. }
      rewrite Ele. destruct le.
      + destruct (isemi s0) eqn:Es; [|discriminate].
        pose proof (mv_back src s s2 47 [] True HI MF ltac:(simpl; lia) ltac:(lia)) as MB.
        apply (fin_auto s0 s (set_cur 47 (off s) (off s + 1) s2) g []); auto.
        * rewrite Es. exact Hg.
        * apply Hle. reflexivity.
        * right. split; [reflexivity|]. right. exists 47, (rest s2). split; [|auto].
          rewrite <- (mv_rest src _ _ _ _ MB : rest s = rest _). exact (mv_rest src _ _ _ _ MF).
      + assert (Hnle : isemi s0 = true -> ~ line_ends (rest s0)).
        { intros Es X. rewrite Es in Hle. apply Hle in X. discriminate. }
        assert (Hc2 : ch s2 = 47 \/ ch s2 = 42).
        { pose proof (mv_inv src _ _ _ _ MF) as (_ & I2 & _). destruct I1 as (_ & I1 & _).
          pose proof (mv_rest src _ _ _ _ MF) as RF. rewrite (mv_rest src _ _ _ _ M1') in RF. injection RF as RF.
          rewrite RF in I1. rewrite I2, <- I1. exact Hc. }
        destruct (comment_mv src Hsrc s s2 MF Hc2) as (t & s3 & Et & MM & Hcom). rewrite Et.
        assert (MC' : mv s s3 (47 :: t) (line_comment (47 :: t) \/ closed_comment (47 :: t))).
        { change (47 :: t) with ([47] ++ t). eapply mv_trans; [exact MF|exact MM|]. auto. }
        destruct mComments eqn:Em.
        * eapply fin_lex with (text := 47 :: t); [exact HS|exact Hg|exact M0|exact MC'| |exact Hnle|auto| |].
          -- apply Lx_comment; [exact Hcom|]. intros b X. discriminate.
          -- split; [discriminate|]. unfold line_final. intros [Y|(Y & _)]; [|discriminate].
             repeat (destruct Y as [Y|Y]; [discriminate|]). discriminate.
          -- intros _ HQ. unfold well_formed. repeat split; try discriminate. intros _. tauto.
        * cbn [pspec]. exists g, (47 :: t). split; [exact Hg|]. split; [discriminate|]. split; [exact Hcom|].
          split; [|auto]. apply mv_set_isemi. eapply mv_trans; [exact M0|exact MC'|]. intros _ [X|X]; auto.
    - apply orb_false_iff in G0. destruct G0 as (G0 & G0').
      assert (Hnle : isemi s0 = true -> ~ line_ends (rest s0)).
      { intros Es X. rewrite R0 in X. rewrite Es in Hg.
        apply LEx_blanks_iff in X; [|eapply Forall_impl; [|exact Hg]; intros x Hx; apply white_blank; exact Hx].
        pose proof (mv_rest src _ _ _ _ M1') as Rs. simpl in Rs. rewrite Rs in X. apply LE_slash_c in X. apply LE_slash in X.
        apply Z.eqb_neq in G0. apply Z.eqb_neq in G0'.
        destruct X as [(r & X)|(Y & X & _)]; [apply G0|apply G0']; eapply ch_of_rest; eauto; lia. }
      destruct (ch s1 =? 61) eqn:G1; cbn [fst snd].
      + apply Z.eqb_eq in G1. fin_with [47; 61] (M2 _ _ E ltac:(lia) G1 ltac:(lia)). exact Hnle.
      + fin_with [47] M1'; [exact Hnle|]. split; [intro; discriminate|]. intros _. rewrite !Z.eqb_neq in *. auto. }
  rename E into F17. destruct (ch s =? 35) eqn:E.
  { apply Z.eqb_eq in E. pose proof (M1 _ E ltac:(lia)) as M1'. rewrite S1, S0. destruct (isemi s0) eqn:Es.
    - pose proof (mv_back src s s1 35 [] True HI M1' ltac:(simpl; lia) ltac:(lia)) as MB.
      apply (fin_auto s0 s (set_cur 35 (off s) (off s + 1) s1) g []); auto.
      + rewrite Es. exact Hg.
      + rewrite R0. apply LEx_blanks_iff; [eapply Forall_impl; [|exact Hg]; intros x Hx; apply white_blank; exact Hx|].
        right. exists [], (rest s1). split; [exact (mv_rest src _ _ _ _ M1')|constructor].
      + right. split; [reflexivity|]. right. exists 35, (rest s1). split; [|auto].
        rewrite <- (mv_rest src _ _ _ _ MB : rest s = rest _). exact (mv_rest src _ _ _ _ M1').
    - destruct (sharp_mv src Hsrc s s1 M1') as (t & s2 & Et & MM & Hsh & Hend). rewrite Et.
      assert (MC' : mv s s2 (35 :: t) True) by (change (35 :: t) with ([35] ++ t); eapply mv_app; [exact M1'|exact MM]).
      destruct mComments eqn:Em.
      + eapply fin_lex with (text := 35 :: t); [exact HS|rewrite Es; exact Hg|exact M0|exact MC'| | |auto| |].
        -- apply Lx_sharp; assumption.
        -- rewrite Es. discriminate.
        -- split; [discriminate|]. unfold line_final. intros [Y|(Y & _)]; [|discriminate].
           repeat (destruct Y as [Y|Y]; [discriminate|]). discriminate.
        -- intros _ _. unfold well_formed. repeat split; try discriminate. intros _. auto.
      + cbn [pspec]. exists g, (35 :: t). rewrite Es. split; [exact Hg|]. split; [discriminate|].
        split; [left; split; [right; exact Hsh|exact Hend]|].
        assert (Es2 : isemi s2 = false) by (rewrite (mv_isemi src _ _ _ _ MC'); congruence).
        split; [|split; [exact Es2|split; [exact Em|discriminate]]].
        rewrite <- Es2. apply mv_finish. eapply mv_trans; [exact M0|exact MC'|]. auto. }
  rename E into F18. destruct (ch s =? 37) eqn:E.
  { apply Z.eqb_eq in E. destruct (ch s1 =? 61) eqn:G1; cbn [fst snd].
    - apply Z.eqb_eq in G1. fin_with [37; 61] (M2 _ _ E ltac:(lia) G1 ltac:(lia)). apply NLE; lia.
    - fin_with [37] (M1 _ E ltac:(lia)). apply NLE; lia. }
  rename E into F19. destruct (ch s =? 94) eqn:E.
  { apply Z.eqb_eq in E. destruct (ch s1 =? 61) eqn:G1; cbn [fst snd].
    - apply Z.eqb_eq in G1. fin_with [94; 61] (M2 _ _ E ltac:(lia) G1 ltac:(lia)). apply NLE; lia.
    - fin_with [94] (M1 _ E ltac:(lia)). apply NLE; lia. }
  rename E into F20. destruct (ch s =? 60) eqn:E.
  { apply Z.eqb_eq in E. destruct (ch s1 =? 45) eqn:G0; [|destruct (ch s1 =? 61) eqn:G1; [|destruct (ch s1 =? 60) eqn:G2;
      [destruct (ch (next s1) =? 61) eqn:G3|]]]; cbn [fst snd].
    - apply Z.eqb_eq in G0. fin_with [60; 45] (M2 _ _ E ltac:(lia) G0 ltac:(lia)). apply NLE; lia.
    - apply Z.eqb_eq in G1. fin_with [60; 61] (M2 _ _ E ltac:(lia) G1 ltac:(lia)). apply NLE; lia.
    - apply Z.eqb_eq in G2. apply Z.eqb_eq in G3. fin_with [60; 60; 61] (M3 _ _ _ E ltac:(lia) G2 ltac:(lia) G3 ltac:(lia)). apply NLE; lia.
    - apply Z.eqb_eq in G2. fin_with [60; 60] (M2 _ _ E ltac:(lia) G2 ltac:(lia)). apply NLE; lia.
    - fin_with [60] (M1 _ E ltac:(lia)). apply NLE; lia. }
  rename E into F21. destruct (ch s =? 62) eqn:E.
  { apply Z.eqb_eq in E. destruct (ch s1 =? 61) eqn:G1; [|destruct (ch s1 =? 62) eqn:G2;
      [destruct (ch (next s1) =? 61) eqn:G3|]]; cbn [fst snd].
    - apply Z.eqb_eq in G1. fin_with [62; 61] (M2 _ _ E ltac:(lia) G1 ltac:(lia)). apply NLE; lia.
    - apply Z.eqb_eq in G2. apply Z.eqb_eq in G3. fin_with [62; 62; 61] (M3 _ _ _ E ltac:(lia) G2 ltac:(lia) G3 ltac:(lia)). apply NLE; lia.
    - apply Z.eqb_eq in G2. fin_with [62; 62] (M2 _ _ E ltac:(lia) G2 ltac:(lia)). apply NLE; lia.
    - fin_with [62] (M1 _ E ltac:(lia)). apply NLE; lia. }
  rename E into F22. destruct (ch s =? 61) eqn:E.
  { apply Z.eqb_eq in E. destruct (ch s1 =? 61) eqn:G1; cbn [fst snd].
    - apply Z.eqb_eq in G1. fin_with [61; 61] (M2 _ _ E ltac:(lia) G1 ltac:(lia)). apply NLE; lia.
    - fin_with [61] (M1 _ E ltac:(lia)). apply NLE; lia. }
  rename E into F23. destruct (ch s =? 33) eqn:E.
  { apply Z.eqb_eq in E. destruct (ch s1 =? 61) eqn:G1; cbn [fst snd].
    - apply Z.eqb_eq in G1. fin_with [33; 61] (M2 _ _ E ltac:(lia) G1 ltac:(lia)). apply NLE; lia.
    - fin_with [33] (M1 _ E ltac:(lia)). apply NLE; lia. }
  rename E into F24. destruct (ch s =? 38) eqn:E.
  { apply Z.eqb_eq in E. destruct (ch s1 =? 94) eqn:G0; [destruct (ch (next s1) =? 61) eqn:G3|
      destruct (ch s1 =? 61) eqn:G1; [|destruct (ch s1 =? 38) eqn:G2]]; cbn [fst snd].
    - apply Z.eqb_eq in G0. apply Z.eqb_eq in G3. fin_with [38; 94; 61] (M3 _ _ _ E ltac:(lia) G0 ltac:(lia) G3 ltac:(lia)). apply NLE; lia.
    - apply Z.eqb_eq in G0. fin_with [38; 94] (M2 _ _ E ltac:(lia) G0 ltac:(lia)). apply NLE; lia.
    - apply Z.eqb_eq in G1. fin_with [38; 61] (M2 _ _ E ltac:(lia) G1 ltac:(lia)). apply NLE; lia.
    - apply Z.eqb_eq in G2. fin_with [38; 38] (M2 _ _ E ltac:(lia) G2 ltac:(lia)). apply NLE; lia.
    - fin_with [38] (M1 _ E ltac:(lia)). apply NLE; lia. }
  rename E into F25. destruct (ch s =? 124) eqn:E.
  { apply Z.eqb_eq in E. destruct (ch s1 =? 61) eqn:G1; [|destruct (ch s1 =? 124) eqn:G2]; cbn [fst snd].
    - apply Z.eqb_eq in G1. fin_with [124; 61] (M2 _ _ E ltac:(lia) G1 ltac:(lia)). apply NLE; lia.
    - apply Z.eqb_eq in G2. fin_with [124; 124] (M2 _ _ E ltac:(lia) G2 ltac:(lia)). apply NLE; lia.
    - fin_with [124] (M1 _ E ltac:(lia)). apply NLE; lia. }
  rename E into F26. destruct (ch s =? 63) eqn:E.
  { apply Z.eqb_eq in E. fin_with [63] (M1 _ E ltac:(lia)). apply NLE; lia. }
  rename E into F27. destruct (ch s =? 126) eqn:E.
  { apply Z.eqb_eq in E. fin_with [126] (M1 _ E ltac:(lia)). apply NLE; lia. }
  rename E into F28. destruct (ch s =? 64) eqn:E.
  { apply Z.eqb_eq in E. fin_with [64] (M1 _ E ltac:(lia)). apply NLE; lia. }
  (* anything else *)
  assert (Hle : isemi s0 = true -> ~ line_ends (rest s0)) by (apply NLE; try assumption; apply Z.eqb_neq; assumption).
  set (s2 := if ch s =? bom then s1 else error (off s) (EIllegal (ch s)) s1).
  assert (MS : mv s s2 tc (ch s = bom)).
  { unfold s2. destruct (ch s =? bom) eqn:Eb.
    - apply Z.eqb_eq in Eb. eapply mv_weak; [exact MC|auto].
    - eapply mv_then_error. exact MC. }
  assert (Hsem : isemi s2 = isemi s0) by (rewrite (mv_isemi src _ _ _ _ MS); exact S0).
  assert (Hstray : stray (ch s)).
  { apply stray_of.
    - exact HC.
    - unfold letter in HnL. destruct (Z.lt_ge_cases (ch s) 128); [right|left; lia]. intro X. apply HnL. tauto.
    - apply andb_false_iff in ED. rewrite !Z.leb_gt in ED. lia.
    - unfold is_white in Hstop. apply orb_false_iff in Hstop. destruct Hstop as (Hstop & W4).
      apply orb_false_iff in Hstop. destruct Hstop as (Hstop & W3). apply orb_false_iff in Hstop. destruct Hstop as (W1 & W2).
      rewrite !Z.eqb_neq in *. clear W3. clear - W1 W2 W4 E2 F1 F2 F3 F4 F5 F6 F7 F8 F9 F10 F11 F12 F13 F14 F15 F16 F17 F18 F19 F20 F21 F22 F23 F24 F25 F26 F27 F28 E.
      intro X. unfold handled in X. cbn [In] in X. repeat (destruct X as [X|X]; [symmetry in X; try contradiction|]); contradiction. }
  assert (Her : EncodeRune (ch s) <> []) by (apply encode_nonempty).
  eapply fin_lex with (text := tc); [exact HS|exact Hg|exact M0|exact MS| |exact Hle| | |].
  - assert (Er : tc ++ rest s2 = rest s) by (symmetry; exact (mv_rest src _ _ _ _ MS)).
    apply Lx_stray; auto; rewrite Er; [exact EC|]. destruct HI as (_ & X & _). auto.
  - discriminate.
  - rewrite Hsem. unfold line_final. split; [intro X; right; auto|]. intros [Y|(_ & _ & Y)]; [|exact Y].
    repeat (destruct Y as [Y|Y]; [discriminate|]). discriminate.
  - intros (Hk1 & Hk2) Hb. exfalso. unfold char_errs in Hk1. fold (rest s) in Hk1.
    destruct HI as (_ & X & _). rewrite X in Hb. pose proof (Hk2 (eq_trans X Hb)) as Hk3.
    destruct (rest s) as [|b r] eqn:Er; [discriminate|].
    destruct (Z.lt_ge_cases b 128) as [Hlt|Hge].
    + rewrite first_ascii in Hb by exact Hlt. unfold bom in Hb. clear - Hb Hlt. lia.
    + replace (b =? 0) with false in Hk1 by (symmetry; apply Z.eqb_neq; clear - Hge; lia).
      replace (128 <=? b) with true in Hk1 by (symmetry; apply Z.leb_le; clear - Hge; lia).
      rewrite Hb in Hk1. replace (0 <? off s)%nat with true in Hk1 by (symmetry; apply Nat.ltb_lt; exact Hk3).
      destruct ((bom =? RuneError) && _); discriminate.
Qed.

End Proofs.
