(** Properties C01-C15, C65, C66: scanning and tokenizing.
    A run is [scans ... n (Init src old)]: Init on the source, then [n] calls of Scan; it gives the tokens
    and the final scanner state.  [isL], [isD] classify non-ASCII runes, [mC], [mS] are the modes
    ScanComments and InsertSemis, [old] is whatever state the scanner had before. *)
From Coq Require Import String.
From Verif Require Import Base Token Utf8 Utf8Proofs Scanner ScannerSpec ScannerProofs ScannerProofs2 ScannerProofs3 ScannerProofs4
  ScannerProofs5 ScanDet ScanRun ScanInit ScanObs ScanModes Tokenize TokenizeProofs.
Open Scope string_scope.
Open Scope list_scope.
Open Scope Z_scope.

Definition no_runes (c : Z) : bool := false.
Definition fresh : sc := mkSc 0 0 0 0 false 0 [] [] [] false.
(** scan [n] tokens of a literal text with no non-ASCII letters *)
Definition demo (mC mS : bool) (text : string) (n : nat) := scans no_runes no_runes mC mS (s2b text) n (Init (s2b text) fresh).

Section Scan.
Variables isL isD : Z -> bool.
Variables mC mS : bool.
Variable src : bytes.
Variable old : sc.
Notation run n := (scans isL isD mC mS src n (Init src old)).

(** ** C01 *)
Theorem C01_scan_reaches_eof : Forall byte src ->
  exists n ts t s, (n <= 2 * length src + 1)%nat /\ run n = (ts ++ [t], s) /\ tkind t = EOF /\ Forall (fun t => tkind t <> EOF) ts.
Proof.
  intro Hsrc. destruct (init_spec mS src Hsrc old) as (b & _ & _ & _ & [A1 A2 _] & _).
  destruct (reach_eof isL isD mC mS src Hsrc _ _ A1 A2 (init_measure mS src Hsrc old)) as (n & Hn & ts & t & s' & E & K & F).
  exists (S n), ts, t, s'. split; [lia|]. auto.
Qed.

Theorem C01_eof_stays : Forall byte src -> forall n ts t s, run n = (ts ++ [t], s) -> tkind t = EOF ->
  t = mkTok EOF (S (List.length src)) [] /\
  forall m, exists s', scans isL isD mC mS src m s = (repeat t m, s') /\ errs s' = errs s.
Proof. intros Hsrc n ts t s E K. destruct (after_eof isL isD mC mS src Hsrc old n ts t s E K) as (X & _ & Y). auto. Qed.

(** No loop of the scanner runs forever: the model's loops never run out of their budget. *)
Theorem C01_every_scan_returns : Forall byte src -> forall n, stuck (snd (run n)) = false.
Proof. intros Hsrc n. destruct (run_inv isL isD mC mS src Hsrc old n) as ((_ & _ & _ & X) & _). exact X. Qed.

(** ** C02 *)
(** A token and its spelling: a lexeme of the language, or a newline (or nothing) for an automatic semicolon. *)
Definition spelled (t : token) (text after : bytes) : Prop :=
  lexeme isL isD (tkind t) (tlit t) text after \/ (auto_semi t /\ (text = [10] \/ text = [])).

Theorem C02_tiling : Forall byte src -> forall n,
  exists b ps after, fst (run n) = map p_tok ps /\ src = b ++ flat ps ++ after /\ has_bom b (flat ps ++ after) /\
    (forall ps1 p ps2, ps = ps1 ++ p :: ps2 ->
       gap (p_gap p) (p_text p ++ flat ps2 ++ after) /\ (mC = true -> Forall ws (p_gap p)) /\
       spelled (p_tok p) (p_text p) (flat ps2 ++ after) /\
       tpos (p_tok p) = S (length (b ++ flat ps1 ++ p_gap p))) /\
    (forall t, In t (fst (run n)) -> tkind t = EOF -> after = []).
Proof.
  intros Hsrc n. destruct (run_spec isL isD mC mS src Hsrc old n) as (b & ps & after & s' & E & N & Es & HB & HS & HA & HR & _).
  exists b, ps, after. rewrite E. cbn [fst]. split; [reflexivity|]. split; [exact Es|]. split; [exact HB|].
  assert (X : forall ps1 p ps2, ps = ps1 ++ p :: ps2 ->
       gap (p_gap p) (p_text p ++ flat ps2 ++ after) /\ (mC = true -> Forall ws (p_gap p)) /\
       spelled (p_tok p) (p_text p) (flat ps2 ++ after) /\
       tpos (p_tok p) = S (length (b ++ flat ps1 ++ p_gap p))).
  { intros ps1 p ps2 ->. apply scanned_split in HS. apply scanned_piece in HS. destruct HS as (P & G & W & D).
    split; [exact G|]. split; [exact W|]. split.
    - unfold spelled. destruct D as [(_ & D & _ & _ & _ & _ & [T|(T & _)])|(_ & _ & _ & D)]; auto.
    - rewrite P, !app_length. lia. }
  split; [exact X|]. intros t Ht Hk. apply in_map_iff in Ht. destruct Ht as (p & <- & Hp). apply in_split in Hp. destruct Hp as (ps1 & ps2 & Ep).
  destruct (X _ _ _ Ep) as (_ & _ & [D|((D & _) & _)] & _).
  - rewrite Hk in D. apply lexeme_eof in D. destruct D as (_ & _ & D). apply app_eq_nil in D. tauto.
  - rewrite Hk in D. discriminate.
Qed.

(** ** C03 *)
Definition strip (l : bytes) : bytes := filter (fun b => negb (b =? 13)) l.
Definition lit_rule (t : token) (text : bytes) : Prop :=
  (In (tkind t) [IDENT; INT; FLOAT; IMAG; CHAR] -> tlit t = text) /\
  (tkind t = STRING -> (exists r, text = 34 :: r /\ tlit t = text) \/ (exists r, text = 96 :: r /\ tlit t = strip text)) /\
  (tkind t = COMMENT -> (exists r, text = 35 :: r /\ tlit t = text) \/ (exists r, text = 47 :: r /\ tlit t = strip text)) /\
  (tkind t = SEMICOLON -> (text = [59] /\ tlit t = [59]) \/ ((text = [10] \/ text = []) /\ tlit t = [10])) /\
  (tkind t <> SEMICOLON -> forall sp, op_spelling (tkind t) sp -> text = sp /\ tlit t = []) /\
  (tkind t = EOF -> text = [] /\ tlit t = []).

Lemma spelling_unique : forall k a b, op_spelling k a -> op_spelling k b -> a = b.
Proof.
  intros k a b Ha Hb. apply op_out in Ha, Hb.
  assert (C : forallb (fun p => forallb (fun q => negb (fst p =? fst q) || beq (snd p) (snd q)) optab) optab = true) by (vm_compute; reflexivity).
  rewrite forallb_forall in C. specialize (C _ Ha). cbn beta in C. rewrite forallb_forall in C. specialize (C _ Hb).
  cbn [fst snd] in C. rewrite Z.eqb_refl in C. apply beq_eq in C. exact C.
Qed.

Lemma not_op : forall k sp, In k [IDENT; INT; FLOAT; IMAG; CHAR; STRING; COMMENT; ILLEGAL; EOF] -> ~ op_spelling k sp.
Proof.
  intros k sp H X. apply op_kinds in X. simpl in H. intuition congruence.
Qed.

Ltac rule := repeat split; intros; try discriminate; try congruence; auto;
  try (exfalso; match goal with NO : In _ _ -> _, X : op_spelling _ _ |- _ => exact (NO ltac:(simpl; tauto) _ X) end);
  try (exfalso; match goal with X : In _ _ |- _ => simpl in X; repeat (destruct X as [X|X]; [discriminate|]); exact X end).
Lemma lexeme_rule : forall t text after, lexeme isL isD (tkind t) (tlit t) text after -> lit_rule t text.
Proof.
  intros [k p lit] text after H. cbn [tkind tlit] in H. unfold lit_rule. cbn [tkind tlit].
  assert (NO : In k [IDENT; INT; FLOAT; IMAG; CHAR; STRING; COMMENT; ILLEGAL; EOF] -> forall sp, ~ op_spelling k sp).
  { intros Hk sp. apply not_op. exact Hk. }
  inversion H; subst.
  - rule.
  - match goal with X : number _ _ |- _ => pose proof (number_kinds _ _ X) as K end.
    assert (NO2 : forall sp, ~ op_spelling k sp) by (apply NO; simpl; intuition auto).
    assert (k <> STRING /\ k <> COMMENT /\ k <> SEMICOLON /\ k <> EOF).
    { destruct K as [-> | [-> | ->]]; repeat split; discriminate. }
    rule; try tauto; exfalso; eapply NO2; eauto.
  - match goal with X : quoted_lit _ _ _ |- _ => destruct (quoted_len 34 _ _ ltac:(lia) ltac:(lia) X) as (r & Y & _) end.
    rule. left. eauto.
  - rule.
  - match goal with X : raw_lit _ _ |- _ => destruct (raw_len _ _ X) as (r & Y & _) end.
    rule. right. exists r. split; [exact Y|reflexivity].
  - match goal with X : op_spelling _ _ |- _ => pose proof (op_kinds _ _ X) as K; pose proof X as OS end.
    rule; try tauto.
    + exfalso. match goal with X : In _ _ |- _ => simpl in X; intuition congruence end.
    + eapply spelling_unique; eauto.
  - rule; left; auto.
  - rule.
  - rule.
  - match goal with X : comment _ _ |- _ => apply comment_head in X; destruct X as (b & r & -> & [-> | ->]) end; 
      [|exfalso; match goal with X : forall b, _ <> _ |- _ => exact (X _ eq_refl) end].
    rule. right. exists r. split; reflexivity.
  - match goal with X : sharp_comment _ |- _ => destruct X as (r & -> & _) end. rule. left. eauto.
  - rule.
Qed.

(** Each token's text and literal, for the same tiling as in C02. *)
Theorem C03_literals : Forall byte src -> forall n,
  exists b ps after, fst (run n) = map p_tok ps /\ src = b ++ flat ps ++ after /\
    forall ps1 p ps2, ps = ps1 ++ p :: ps2 ->
      sub src (tpos (p_tok p) - 1) (tpos (p_tok p) - 1 + length (p_text p)) = p_text p /\
      spelled (p_tok p) (p_text p) (flat ps2 ++ after) /\ lit_rule (p_tok p) (p_text p).
Proof.
  intros Hsrc n. destruct (C02_tiling Hsrc n) as (b & ps & after & E & Es & _ & X & _). exists b, ps, after.
  split; [exact E|]. split; [exact Es|]. intros ps1 p ps2 Ep. destruct (X _ _ _ Ep) as (_ & _ & D & P).
  split; [|split; [exact D|]].
  - rewrite P. cbn [Nat.sub]. rewrite Nat.sub_0_r. unfold sub.
    replace (length (b ++ flat ps1 ++ p_gap p) + length (p_text p) - length (b ++ flat ps1 ++ p_gap p))%nat with (length (p_text p)) by lia.
    assert (Es2 : src = (b ++ flat ps1 ++ p_gap p) ++ p_text p ++ flat ps2 ++ after).
    { rewrite Es, Ep, flat_app, flat_cons, <- !app_assoc. reflexivity. }
    rewrite Es2 at 1. rewrite skipn_app, Nat.sub_diag, skipn_all. cbn [app skipn]. rewrite firstn_app, firstn_all, Nat.sub_diag.
    simpl. apply app_nil_r.
  - destruct D as [D|((K & L) & T)]; [eapply lexeme_rule; exact D|]. unfold lit_rule. rewrite K, L.
    repeat split; intros; try discriminate; try congruence.
    + exfalso. match goal with X : In _ _ |- _ => simpl in X; repeat destruct X as [X|X]; try discriminate; contradiction end.
    + right. auto.
Qed.

(** Where the literal is a source text it is the one at Pos. *)
Theorem C03_literal_at_pos : Forall byte src -> forall n t, In t (fst (run n)) ->
  In (tkind t) [IDENT; INT; FLOAT; IMAG; CHAR] \/ (tkind t = STRING /\ nth (tpos t - 1) src 0 = 34) \/
    (tkind t = COMMENT /\ nth (tpos t - 1) src 0 = 35) ->
  sub src (tpos t - 1) (tpos t - 1 + length (tlit t)) = tlit t.
Proof.
  intros Hsrc n t Ht Hk. destruct (C03_literals Hsrc n) as (b & ps & after & E & Es & X). rewrite E in Ht.
  apply in_map_iff in Ht. destruct Ht as (p & <- & Hp). apply in_split in Hp. destruct Hp as (ps1 & ps2 & Ep).
  destruct (X _ _ _ Ep) as (S1 & D & R1 & R2 & R3 & _).
  assert (EL : tlit (p_tok p) = p_text p -> sub src (tpos (p_tok p) - 1) (tpos (p_tok p) - 1 + length (tlit (p_tok p))) = tlit (p_tok p)).
  { intros ->. exact S1. }
  assert (HN : forall c r, p_text p = c :: r -> nth (tpos (p_tok p) - 1) src 0 = c).
  { intros c r Hc. rewrite Hc in S1. unfold sub in S1. rewrite Nat.add_comm, Nat.add_sub in S1. simpl length in S1.
    destruct (skipn (tpos (p_tok p) - 1) src) as [|x y] eqn:Ey; [discriminate|]. simpl in S1. injection S1 as -> _.
    rewrite <- (firstn_skipn (tpos (p_tok p) - 1) src), Ey, app_nth2 by (rewrite firstn_length; lia).
    assert (tpos (p_tok p) - 1 < length src)%nat.
    { assert (Y : length (skipn (tpos (p_tok p) - 1) src) <> 0%nat) by (rewrite Ey; discriminate). rewrite skipn_length in Y. lia. }
    rewrite firstn_length, Nat.min_l, Nat.sub_diag by lia. reflexivity. }
  destruct Hk as [Hk|[(Hk & H34)|(Hk & H35)]]; apply EL; auto.
  - destruct (R2 Hk) as [(r & _ & Y)|(r & Y & _)]; [exact Y|]. rewrite (HN _ _ Y) in H34. discriminate.
  - destruct (R3 Hk) as [(r & _ & Y)|(r & Y & _)]; [exact Y|]. rewrite (HN _ _ Y) in H35. discriminate.
Qed.

(** ** C04 *)
Theorem C04_positions : Forall byte src -> forall n i j ti tj, (i < j)%nat ->
  nth_error (fst (run n)) i = Some ti -> nth_error (fst (run n)) j = Some tj ->
  (1 <= tpos ti <= tpos tj)%nat /\ (tpos tj <= S (length src))%nat /\
  (tpos ti = tpos tj -> auto_semi ti \/ (tkind ti = EOF /\ tkind tj = EOF)).
Proof.
  intros Hsrc n i j ti tj Hij Hi Hj. destruct (C02_tiling Hsrc n) as (b & ps & after & E & Es & _ & X & _).
  rewrite E in Hi, Hj. rewrite nth_error_map in Hi, Hj.
  destruct (nth_error ps i) as [pi|] eqn:Ei; [|discriminate]. destruct (nth_error ps j) as [pj|] eqn:Ej; [|discriminate].
  injection Hi as <-. injection Hj as <-. apply nth_error_split in Ei. destruct Ei as (ps1 & r1 & -> & L1).
  rewrite nth_error_app2 in Ej by lia. destruct (j - length ps1)%nat as [|d] eqn:Ed; [lia|]. cbn [nth_error] in Ej.
  apply nth_error_split in Ej. destruct Ej as (ps2 & r2 & -> & L2).
  destruct (X ps1 pi (ps2 ++ pj :: r2) eq_refl) as (_ & _ & Di & Pi).
  destruct (X (ps1 ++ pi :: ps2) pj r2 ltac:(rewrite <- app_assoc; reflexivity)) as (_ & _ & Dj & Pj).
  rewrite Pi, Pj. rewrite !flat_app, flat_cons, !app_length in *.
  split; [lia|]. split.
  - assert (Y : (length (p_gap pj) <= length (flat (pj :: r2)))%nat) by (rewrite flat_cons, !app_length; lia).
    apply (f_equal (@length Z)) in Es. repeat (rewrite ?app_length, ?flat_app, ?flat_cons in Es).
    rewrite flat_cons, !app_length in Y. lia.
  - intro Heq. assert (Ht : p_text pi = []) by (destruct (p_text pi); [reflexivity|]; simpl in Heq; lia).
    destruct Di as [Di|(Di & _)]; [|auto]. right. rewrite Ht in Di.
    assert (By : Forall byte (flat (ps2 ++ pj :: r2) ++ after)).
    { assert (Z : src = (b ++ flat ps1 ++ p_gap pi ++ p_text pi) ++ flat (ps2 ++ pj :: r2) ++ after)
        by (rewrite Es; repeat (rewrite ?flat_app, ?flat_cons, <- ?app_assoc); reflexivity).
      rewrite Z in Hsrc. apply Forall_app in Hsrc. tauto. }
    rewrite flat_app, flat_cons in By. pose proof (lexeme_empty isL isD _ _ _ By Di) as Ki. split; [exact Ki|].
    destruct (C01_eof_stays Hsrc (S (length ps1)) (map p_tok ps1) (p_tok pi) (snd (run (S (length ps1))))) as (_ & Z); [|exact Ki|].
    { rewrite (surjective_pairing (run (S (length ps1)))) at 1. f_equal.
      assert (Y : exists m, n = (S (length ps1) + m)%nat).
      { exists (n - S (length ps1))%nat. pose proof (scans_length isL isD mC mS src n (Init src old)) as Y. rewrite E in Y.
        rewrite map_length, app_length in Y. simpl in Y. lia. }
      destruct Y as (m & ->). rewrite scans_app in E. cbn [fst] in E. apply (f_equal (firstn (S (length ps1)))) in E.
      rewrite firstn_app, scans_length, Nat.sub_diag, firstn_all2 in E by (rewrite scans_length; lia). rewrite firstn_O in E.
      rewrite app_nil_r in E. rewrite E, map_app. rewrite firstn_app, map_length, firstn_all2 by (rewrite map_length; lia).
      replace (S (length ps1) - length ps1)%nat with 1%nat by lia. reflexivity. }
    assert (Y : exists m, n = (S (length ps1) + m)%nat).
    { exists (n - S (length ps1))%nat. pose proof (scans_length isL isD mC mS src n (Init src old)) as Y. rewrite E in Y.
      rewrite map_length, app_length in Y. simpl in Y. lia. }
    destruct Y as (m & ->). destruct (Z m) as (s' & Em & _). rewrite scans_app in E. cbn [fst] in E. rewrite Em in E. cbn [fst] in E.
    assert (Z2 : nth_error (fst (run (S (length ps1))) ++ repeat (p_tok pi) m) j = Some (p_tok pj)).
    { rewrite E. rewrite nth_error_map, nth_error_app2 by lia. rewrite Ed. cbn [nth_error]. rewrite nth_error_app2 by lia.
      replace (d - length ps2)%nat with 0%nat by lia. reflexivity. }
    rewrite nth_error_app2 in Z2 by (rewrite scans_length; lia). apply nth_error_In in Z2. apply repeat_spec in Z2. congruence.
Qed.

(** ** C05 *)
(** [flat rest] is the text from the end of the previous token on. *)
Theorem C05_semicolon_rule : Forall byte src -> forall n,
  exists b ps after, fst (run n) = map p_tok ps /\ src = b ++ flat ps ++ after /\
    forall ps1 p ps2, ps = ps1 ++ p :: ps2 ->
      spelled (p_tok p) (p_text p) (flat ps2 ++ after) /\
      (tlit (p_tok p) = [10] <-> mS = true /\ pending (rev ps1) /\ line_ends (flat (p :: ps2) ++ after)) /\
      (tlit (p_tok p) = [10] -> tkind (p_tok p) = SEMICOLON /\ Forall blank (p_gap p)).
Proof.
  intros Hsrc n. destruct (run_spec isL isD mC mS src Hsrc old n) as (b & ps & after & s' & E & N & Es & HB & HS & _).
  exists b, ps, after. rewrite E. split; [reflexivity|]. split; [exact Es|]. intros ps1 p ps2 ->. apply scanned_split in HS. rewrite app_nil_r in HS.
  apply scanned_piece in HS. destruct HS as (P & G & W & D). rewrite flat_cons, <- !app_assoc.
  destruct D as [(D1 & D2 & D3 & D4 & D5 & D6 & D7)|(D1 & D2 & D3 & D4)].
  - split; [right; split; [exact D2|]; destruct D7 as [|(D7 & _)]; auto|]. split; [tauto|]. intros _. split; [exact (proj1 D2)|exact D6].
  - split; [left; exact D4|]. split; [tauto|]. intro; contradiction.
Qed.

(** ** C07 *)
Theorem C07_error_count : Forall byte src -> forall n, ecount (snd (run n)) = Z.of_nat (length (errs (snd (run n)))).
Proof.
  intros Hsrc n. destruct (run_spec isL isD mC mS src Hsrc old n) as (b & ps & after & s' & E & _ & _ & _ & _ & _ & _ & _ & C & _).
  rewrite E. exact C.
Qed.

(** Tokenize stops at the first Scan with an error, or at EOF; [ts] are the tokens before. *)
Theorem C07_tokenize : Forall byte src -> forall tk, tk_ok tk ->
  exists n ts t s, run (S n) = (ts ++ [t], s) /\ length ts = n /\ Forall (fun t => tkind t <> EOF) ts /\
    (forall i, (0 < i <= n)%nat -> errs (snd (run i)) = []) /\
    ((errs s = [] /\ tkind t = EOF /\ Tokenize isL isD mC mS tk old src = TzOk (map (tk_scan tk) ts) t) \/
     (exists es e, errs s = es ++ [e] /\ Tokenize isL isD mC mS tk old src = TzErr (map (tk_scan tk) ts) e)).
Proof. intros Hsrc tk Htk. exact (Tokenize_spec isL isD mC mS src Hsrc tk old Htk). Qed.

Lemma errs_mono : Forall byte src -> forall n m, errs (snd (run (n + m))) = [] -> errs (snd (run n)) = [].
Proof.
  intros Hsrc n m H. rewrite scans_app in H. cbn [snd] in H.
  destruct (run_spec isL isD mC mS src Hsrc old n) as (b & ps & after & s' & E & _ & _ & _ & _ & A & _). rewrite E in *. cbn [snd] in *.
  destruct (scans_sound isL isD mC mS src Hsrc m s' _ A) as (ps2 & s2 & es & E2 & _ & _ & _ & _ & _ & X & _). rewrite E2 in H. cbn [snd] in H.
  rewrite X in H. apply app_eq_nil in H. tauto.
Qed.

(** Success iff scanning to EOF reports nothing. *)
Theorem C07_success_iff : Forall byte src -> forall tk, tk_ok tk -> forall toks eof,
  Tokenize isL isD mC mS tk old src = TzOk toks eof <->
  exists n ts s, run n = (ts ++ [eof], s) /\ tkind eof = EOF /\ Forall (fun t => tkind t <> EOF) ts /\ errs s = [] /\ toks = map (tk_scan tk) ts.
Proof.
  intros Hsrc tk Htk toks eof. destruct (C07_tokenize Hsrc tk Htk) as (n & ts & t & s & E & N & F & Q & D). split.
  - intro H. destruct D as [(D1 & D2 & D3)|(es & e & _ & D3)]; [|congruence]. rewrite D3 in H. injection H as <- <-. exists (S n), ts, s. auto 6.
  - intros (m & us & s2 & E2 & K & F2 & X & ->).
    assert (LM : m = S (length us)).
    { pose proof (scans_length isL isD mC mS src m (Init src old)) as Y. rewrite E2 in Y. cbn [fst] in Y. rewrite app_length in Y. simpl in Y. lia. }
    assert (Hm : (m <= n -> False)%nat).
    { intro Hle. replace (S n) with (m + (S n - m))%nat in E by lia. rewrite scans_app, E2 in E. cbn [fst snd] in E. injection E as E _.
      apply (f_equal (fun l => nth_error l (length us))) in E. rewrite <- app_assoc in E. cbn [app] in E.
      rewrite nth_error_app2, Nat.sub_diag in E by lia. cbn [nth_error] in E.
      rewrite nth_error_app1 in E by lia. symmetry in E. apply nth_error_In in E. rewrite Forall_forall in F. exact (F _ E K). }
    assert (Hn : (S n < m -> False)%nat).
    { intro Hlt. destruct D as [(D1 & D2 & D3)|(es & e & D1 & D3)].
      - replace m with (S n + (m - S n))%nat in E2 by lia. rewrite scans_app, E in E2. cbn [fst snd] in E2. injection E2 as E2 _.
        apply (f_equal (fun l => nth_error l n)) in E2. rewrite <- app_assoc in E2. cbn [app] in E2.
        rewrite nth_error_app2, N, Nat.sub_diag in E2 by lia. cbn [nth_error] in E2.
        rewrite nth_error_app1 in E2 by lia. symmetry in E2. apply nth_error_In in E2. rewrite Forall_forall in F2. exact (F2 _ E2 D2).
      - assert (Y : errs (snd (run (S n))) = []).
        { apply (errs_mono Hsrc (S n) (m - S n)). replace (S n + (m - S n))%nat with m by lia. rewrite E2. exact X. }
        rewrite E in Y. cbn [snd] in Y. rewrite D1 in Y. destruct es; discriminate. }
    assert (Hmn : m = S n) by lia. rewrite Hmn, E in E2. injection E2 as E2 ->. apply app_inj_tail in E2. destruct E2 as (-> & ->).
    destruct D as [(D1 & D2 & D3)|(es & e & D1 & D3)]; [exact D3|]. rewrite D1 in X. destruct es; discriminate.
Qed.

(** ** C09 *)
Theorem C09_longest_operator : Forall byte src -> forall n t, In t (fst (run n)) ->
  forall sp, op_spelling (tkind t) sp -> tlit t <> [10] ->
  exists r, skipn (tpos t - 1) src = sp ++ r /\
    forall k sp' r', op_spelling k sp' -> skipn (tpos t - 1) src = sp' ++ r' -> (length sp' <= length sp)%nat.
Proof.
  intros Hsrc n t Ht sp Hop Hl. destruct (C02_tiling Hsrc n) as (b & ps & after & E & Es & _ & X & _). rewrite E in Ht.
  apply in_map_iff in Ht. destruct Ht as (p & <- & Hp). apply in_split in Hp. destruct Hp as (ps1 & ps2 & Ep).
  destruct (X _ _ _ Ep) as (_ & _ & D & P). destruct D as [D|((_ & D) & _)]; [|contradiction].
  destruct (lexeme_rule _ _ _ D) as (_ & _ & _ & R4 & R5 & _).
  assert (HT : p_text p = sp).
  { destruct (Z.eq_dec (tkind (p_tok p)) SEMICOLON) as [K|K].
    - destruct (R4 K) as [(Y & _)|(_ & Y)]; [|contradiction]. rewrite Y. rewrite K in Hop.
      apply (spelling_unique SEMICOLON); [|exact Hop]. apply op_in. vm_compute. tauto.
    - apply R5; assumption. }
  assert (LG : longest operator (p_text p) (flat ps2 ++ after)).
  { remember (tkind (p_tok p)) as k eqn:Ek. remember (p_text p) as tx eqn:Etx.
    assert (NO : In k [IDENT; INT; FLOAT; IMAG; CHAR; STRING; COMMENT; ILLEGAL; EOF] -> False).
    { intro Hk. exact (not_op k sp Hk Hop). }
    inversion D as [| ? ? ? Hn | | | | | | | | | | ]; subst; try (exfalso; apply NO; simpl; tauto); auto.
    - exfalso. destruct (number_kinds _ _ Hn) as [Z|[Z|Z]]; apply NO; rewrite Z; simpl; tauto.
    - split; [exists SEMICOLON; apply op_in; vm_compute; tauto|]. intros x y _ Hx (k' & Hk'). apply op_out in Hk'.
      assert (C : forallb (fun q => match snd q with 59 :: _ :: _ => false | _ => true end) optab = true) by (vm_compute; reflexivity).
      rewrite forallb_forall in C. specialize (C _ Hk'). destruct x; [congruence|]. discriminate. }
  assert (SK : skipn (tpos (p_tok p) - 1) src = p_text p ++ flat ps2 ++ after).
  { rewrite P, Es, Ep, flat_app, flat_cons. cbn [Nat.sub]. rewrite Nat.sub_0_r.
    replace (b ++ (flat ps1 ++ p_gap p ++ p_text p ++ flat ps2) ++ after) with ((b ++ flat ps1 ++ p_gap p) ++ p_text p ++ flat ps2 ++ after)
      by (rewrite <- !app_assoc; reflexivity).
    rewrite skipn_app, Nat.sub_diag, skipn_all. reflexivity. }
  rewrite <- HT. exists (flat ps2 ++ after). split; [exact SK|]. intros k sp' r' Hk' Er. rewrite SK in Er.
  apply app_cases in Er. destruct Er as (x & [(Ex & Er)|(Ex & Er)]).
  - rewrite Ex, app_length. lia.
  - destruct x as [|c x]; [rewrite app_nil_r in Ex; rewrite Ex; lia|]. exfalso.
    destruct LG as (_ & LG). apply (LG (c :: x) r'); [exact Er|discriminate|]. rewrite <- Ex. exists k. exact Hk'.
Qed.
End Scan.

(** ** C06 *)
Theorem C06_comments_only_added : forall isL isD mS src old, Forall byte src -> forall n,
  let ts := fst (scans isL isD true mS src n (Init src old)) in
  exists s, scans isL isD false mS src (length (filter not_comment ts)) (Init src old) = (filter not_comment ts, s) /\
    (forall us t, ts = us ++ [t] -> tkind t <> COMMENT -> s = snd (scans isL isD true mS src n (Init src old))).
Proof.
  intros isL isD mS src old Hsrc n ts. destruct (init_spec mS src Hsrc old) as (b & _ & _ & _ & [A1 A2 _] & _).
  destruct (scans_modes isL isD mS src Hsrc n (Init src old) A1 A2) as (s2 & E & _ & _ & _ & H). exists s2. split; [exact E|exact H].
Qed.

(** The same errors, and the same verdict of Tokenize. *)
Theorem C06_same_errors : forall isL isD mS src old, Forall byte src -> forall n us t s,
  scans isL isD true mS src n (Init src old) = (us ++ [t], s) -> tkind t = EOF ->
  exists m vs, scans isL isD false mS src m (Init src old) = (vs ++ [t], s) /\ vs = filter not_comment us.
Proof.
  intros isL isD mS src old Hsrc n us t s E K. destruct (C06_comments_only_added isL isD mS src old Hsrc n) as (s2 & E2 & H).
  rewrite E in *. cbn [fst snd] in *. rewrite filter_app in E2. simpl filter in E2. unfold not_comment at 2 4 in E2. rewrite K in E2. cbn in E2.
  rewrite (H us t eq_refl) in E2 by (rewrite K; discriminate). eauto.
Qed.

Theorem C06_tokenize : forall isL isD mS src old tk, Forall byte src -> tk_ok tk -> forall toks eof,
  Tokenize isL isD true mS tk old src = TzOk toks eof ->
  Tokenize isL isD false mS tk old src = TzOk (filter not_comment toks) eof.
Proof.
  intros isL isD mS src old tk Hsrc Htk toks eof H. apply C07_success_iff in H; auto.
  destruct H as (n & ts & s & E & K & F & X & ->). destruct (C06_same_errors isL isD mS src old Hsrc n ts eof s E K) as (m & vs & E2 & ->).
  apply C07_success_iff; auto. exists m, (filter not_comment ts), s. split; [exact E2|]. split; [exact K|].
  split; [|split; [exact X|]].
  - apply Forall_forall. intros t Ht. apply filter_In in Ht. rewrite Forall_forall in F. apply F. tauto.
  - clear - Htk. induction ts as [|t ts IH]; [reflexivity|]. simpl map. simpl filter. rewrite IH.
    assert (Y : not_comment (tk_scan tk t) = not_comment t).
    { destruct tk as [|k]; [reflexivity|]. cbn [tk_scan]. unfold KwScan. destruct (tkind t =? IDENT) eqn:Ek; [|reflexivity].
      destruct (kw_find k (tlit t)) as [v|] eqn:Ef; [|reflexivity]. apply Htk in Ef. apply Z.eqb_eq in Ek. unfold not_comment. cbn [tkind].
      rewrite Ek. f_equal. transitivity false; [|reflexivity]. apply Z.eqb_neq. unfold USER_TOKEN_BEGIN, COMMENT in *. lia. }
    rewrite Y. destruct (not_comment t); reflexivity.
Qed.

(** ** C10 *)
Theorem C10_init_forgets : forall isL isD mC mS src old1 old2 n,
  scans isL isD mC mS src n (Init src old1) = scans isL isD mC mS src n (Init src old2).
Proof. reflexivity. Qed.

(** A matcher's tokener may have been used on anything before: only registered keywords persist. *)
Theorem C10_tokenize_history : forall isL isD mC mS tk1 tk2 old1 old2 src, Forall byte src ->
  (forall t, tk_scan tk1 t = tk_scan tk2 t) ->
  Tokenize isL isD mC mS tk1 old1 src = Tokenize isL isD mC mS tk2 old2 src.
Proof.
  intros isL isD mC mS tk1 tk2 old1 old2 src Hsrc H. unfold Tokenize. change (Init src old1) with (Init src old2).
  generalize (2 * length src + 2)%nat (Init src old2) (@nil token).
  induction n as [|n IH]; intros s acc; [reflexivity|]. cbn [tz_loop]. destruct (Scan isL isD mC mS src s) as [t s1].
  rewrite (tk_scan_init tk1), (tk_scan_init tk2), H. destruct (rev (errs s1)); [|reflexivity]. destruct (_ =? EOF); [reflexivity|]. apply IH.
Qed.

(** ** C11 *)
(** End is right for operators and for literals that are source texts ... *)
Theorem C11_end : forall isL isD mC mS src old tk, Forall byte src -> tk_ok tk -> forall n,
  exists b ps after, fst (scans isL isD mC mS src n (Init src old)) = map p_tok ps /\ src = b ++ flat ps ++ after /\
    forall ps1 p ps2, ps = ps1 ++ p :: ps2 ->
      spelled isL isD (p_tok p) (p_text p) (flat ps2 ++ after) /\
      tpos (p_tok p) = S (length (b ++ flat ps1 ++ p_gap p)) /\
      (tkind (p_tok p) <> SEMICOLON -> tkind (p_tok p) <> ILLEGAL -> ~ In 13 (p_text p) ->
       tok_End (tk_scan tk (p_tok p)) = Val (Z.of_nat (S (length (b ++ flat ps1 ++ p_gap p ++ p_text p))))) /\
      (* ... but not for semicolons, and too small after stripped carriage returns *)
      (tkind (p_tok p) = SEMICOLON -> tok_End (tk_scan tk (p_tok p)) = Val (Z.of_nat (tpos (p_tok p)) + 2)) /\
      (In (tkind (p_tok p)) [STRING; COMMENT] -> nth 0 (p_text p) 0 = 96 \/ nth 0 (p_text p) 0 = 47 ->
       tok_End (tk_scan tk (p_tok p)) = Val (Z.of_nat (tpos (p_tok p) + length (p_text p)) - Z.of_nat (length (filter (Z.eqb 13) (p_text p))))).
Proof.
  intros isL isD mC mS src old tk Hsrc Htk n. destruct (C02_tiling isL isD mC mS src old Hsrc n) as (b & ps & after & E & Es & _ & X & _).
  exists b, ps, after. split; [exact E|]. split; [exact Es|]. intros ps1 p ps2 Ep. destruct (X _ _ _ Ep) as (_ & _ & D & P).
  split; [exact D|]. split; [exact P|].
  assert (LS : forall l, (Z.of_nat (length (filter (fun b => negb (b =? 13)) l)) = Z.of_nat (length l) - Z.of_nat (length (filter (Z.eqb 13) l)))).
  { induction l as [|c l IH]; [reflexivity|]. cbn [filter]. rewrite (Z.eqb_sym 13 c). destruct (c =? 13); cbn [negb length]; lia. }
  assert (LS0 : forall l, ~ In 13 l -> length (filter (Z.eqb 13) l) = 0%nat).
  { induction l as [|c l IH]; intro Hl; [reflexivity|]. cbn [filter]. destruct (13 =? c) eqn:Ec.
    - apply Z.eqb_eq in Ec. subst. exfalso. apply Hl. left. reflexivity.
    - apply IH. intro. apply Hl. right. assumption. }
  assert (T0 : forall t k, tkind t = k -> k <> IDENT -> (TokenLen k = Val 0) -> tok_End (tk_scan tk t) = Val (Z.of_nat (tpos t + length (tlit t)))).
  { intros t k Hk Hi HT. assert (Y : tk_scan tk t = t).
    { destruct tk as [|kk]; [reflexivity|]. cbn. unfold KwScan. rewrite Hk. apply Z.eqb_neq in Hi. rewrite Hi. reflexivity. }
    rewrite Y. unfold tok_End. rewrite Hk, HT. f_equal. lia. }
  assert (TI : forall t, tkind t = IDENT -> tok_End (tk_scan tk t) = Val (Z.of_nat (tpos t + length (tlit t)))).
  { intros t Hk. destruct tk as [|kk].
    - cbn [tk_scan]. unfold tok_End. rewrite Hk. cbn. f_equal. lia.
    - cbn [tk_scan]. unfold KwScan. rewrite Hk. cbn [Z.eqb]. change (IDENT =? IDENT) with true. cbn iota.
      destruct (kw_find kk (tlit t)) as [v|] eqn:Ef.
      + apply Htk in Ef. unfold tok_End. cbn [tkind tpos tlit]. unfold TokenLen, ntokens.
        assert (Y : (v <=? 154) = false) by (apply Z.leb_gt; unfold USER_TOKEN_BEGIN in Ef; lia). rewrite Y, andb_false_r. f_equal. lia.
      + unfold tok_End. rewrite Hk. cbn. f_equal. lia. }
  assert (LEN : Z.of_nat (S (length (b ++ flat ps1 ++ p_gap p ++ p_text p))) = Z.of_nat (tpos (p_tok p) + length (p_text p))).
  { rewrite P, !app_length. lia. }
  assert (TS : tkind (p_tok p) = SEMICOLON -> length (tlit (p_tok p)) = 1%nat -> tok_End (tk_scan tk (p_tok p)) = Val (Z.of_nat (tpos (p_tok p)) + 2)).
  { intros K L. assert (Y : tk_scan tk (p_tok p) = p_tok p).
    { destruct tk as [|kk]; [reflexivity|]. cbn. unfold KwScan. rewrite K. reflexivity. }
    rewrite Y. unfold tok_End. rewrite K. cbn. rewrite L. f_equal. }
  destruct D as [D|((K & L) & T)].
  2: { rewrite K. split; [congruence|]. split; [intros _; apply TS; [exact K|rewrite L; reflexivity]|]. intros [Y|[Y|[]]]; discriminate. }
  pose proof (lexeme_rule isL isD _ _ _ D) as (R1 & R2 & R3 & R4 & R5 & R6).
  split; [|split].
  - intros N1 N2 N13. rewrite LEN. clear LEN P X E. destruct (p_tok p) as [k tp lit]. cbn [tkind tlit tpos] in *.
    inversion D; subst; try congruence;
      try (first [rewrite (T0 _ _ eq_refl) by (discriminate || reflexivity) | rewrite TI by reflexivity]; cbn [tpos tlit]; f_equal;
           rewrite ?Nat2Z.inj_add, ?LS, ?LS0 by assumption; lia).
    + match goal with Y : number _ _ |- _ => destruct (number_kinds _ _ Y) as [-> | [-> | ->]] end;
      rewrite (T0 _ _ eq_refl) by (discriminate || reflexivity); cbn [tpos tlit]; reflexivity.
    + assert (OS : op_spelling k (p_text p)) by assumption. pose proof (op_kinds _ _ OS) as (_ & _ & _ & KI & _).
      assert (Y : tk_scan tk (mkTok k tp []) = mkTok k tp []).
      { destruct tk as [|kk]; [reflexivity|]. cbn. unfold KwScan. cbn [tkind]. apply Z.eqb_neq in KI. rewrite KI. reflexivity. }
      rewrite Y. unfold tok_End. cbn [tkind tpos tlit length]. apply op_out in OS.
      assert (C : forallb (fun q => match TokenLen (fst q) with Val n => n =? Z.of_nat (length (snd q)) | Crash => false end) optab = true)
        by (vm_compute; reflexivity).
      rewrite forallb_forall in C. specialize (C _ OS). cbn [fst snd] in C. destruct (TokenLen k); [|discriminate].
      apply Z.eqb_eq in C. subst. f_equal. lia.
  - intro K. destruct (R4 K) as [(_ & Y)|(_ & Y)]; apply TS; try exact K; rewrite Y; reflexivity.
  - intros HK H0. assert (Y : tlit (p_tok p) = filter (fun b => negb (b =? 13)) (p_text p)).
    { destruct HK as [K|[K|[]]]; symmetry in K.
      - destruct (R2 K) as [(r & Y & _)|(r & _ & Y)]; [|exact Y]. rewrite Y in H0. simpl in H0. lia.
      - destruct (R3 K) as [(r & Y & _)|(r & _ & Y)]; [|exact Y]. rewrite Y in H0. simpl in H0. lia. }
    assert (Z : TokenLen (tkind (p_tok p)) = Val 0 /\ tkind (p_tok p) <> IDENT).
    { destruct HK as [<- | [<- | []]]; split; (reflexivity || discriminate). }
    rewrite (T0 _ _ eq_refl) by tauto. f_equal. rewrite !Nat2Z.inj_add, Y, LS. lia.
Qed.

(** ** C12 *)
Theorem C12_roundtrip_token : forall k lit, In (k, lit) toktab -> Token2Lit k = Val lit /\ Lit2Token lit = k.
Proof.
  intros k lit H.
  assert (C : forallb (fun p => match Token2Lit (fst p) with Val l => beq l (snd p) | Crash => false end && (Lit2Token (snd p) =? fst p)) toktab = true)
    by (vm_compute; reflexivity).
  rewrite forallb_forall in C. specialize (C _ H). cbn [fst snd] in C. apply andb_true_iff in C. destruct C as (C1 & C2).
  destruct (Token2Lit k); [|discriminate]. apply beq_eq in C1. apply Z.eqb_eq in C2. subst. auto.
Qed.

Lemma rassoc_in : forall lit l, rassoc lit l <> ILLEGAL -> In (rassoc lit l, lit) l.
Proof.
  induction l as [|[k s] l IH]; intro H; [contradiction|]. simpl in *. destruct (beq lit s) eqn:E; [|auto].
  apply beq_eq in E. subst. auto.
Qed.

Theorem C12_roundtrip_literal : forall lit, Lit2Token lit <> ILLEGAL -> Token2Lit (Lit2Token lit) = Val lit.
Proof. intros lit H. apply C12_roundtrip_token. apply rassoc_in. exact H. Qed.

(** token numbers are unsigned: panics exactly beyond the table *)
Theorem C12_crash_iff : forall k, 0 <= k -> (Token2Lit k = Crash <-> ELLIPSIS < k).
Proof.
  intros k Hk. unfold Token2Lit, ntokens, ELLIPSIS. destruct (k <? 154) eqn:E; split; intro H; try discriminate; try reflexivity.
  - apply Z.ltb_lt in E. lia.
  - apply Z.ltb_ge in E. lia.
Qed.

Theorem C12_distinct : forall k k' lit, In (k, lit) toktab -> In (k', lit) toktab -> k = k'.
Proof. intros k k' lit H H'. apply C12_roundtrip_token in H, H'. destruct H, H'. congruence. Qed.

Theorem C12_distinct_literals : forall k lit lit', In (k, lit) toktab -> In (k, lit') toktab -> lit = lit'.
Proof. intros k lit lit' H H'. apply C12_roundtrip_token in H, H'. destruct H, H'. congruence. Qed.

Example C12_instance : Token2Lit AND_NOT_ASSIGN = Val (s2b """&^=""") /\ Lit2Token (s2b """&^=""") = AND_NOT_ASSIGN /\
  Lit2Token (s2b "no such token") = ILLEGAL.
Proof. vm_compute. auto. Qed.

(** ** C13 *)
(** Exactly: operator lengths on operators, a panic at 154, -2 on the unused numbers between 33 and 153, 0 elsewhere. *)
Theorem C13_TokenLen : forall k,
  (forall sp, op_spelling k sp -> TokenLen k = Val (Z.of_nat (length sp))) /\
  ((forall sp, ~ op_spelling k sp) -> TokenLen k = if k =? 154 then Crash else if (32 <? k) && (k <? 154) then Val (-2) else Val 0).
Proof.
  intro k. split.
  - intros sp H. apply op_out in H.
    assert (C : forallb (fun q => match TokenLen (fst q) with Val n => n =? Z.of_nat (length (snd q)) | Crash => false end) optab = true)
      by (vm_compute; reflexivity).
    rewrite forallb_forall in C. specialize (C _ H). cbn [fst snd] in C. destruct (TokenLen k); [|discriminate].
    apply Z.eqb_eq in C. congruence.
  - intro H. unfold TokenLen, ntokens. destruct (32 <? k) eqn:E1; destruct (k <=? 154) eqn:E2; destruct (k <? 154) eqn:E3; destruct (k =? 154) eqn:E4;
      cbn [andb];
      repeat match goal with X : (_ <? _) = true |- _ => apply Z.ltb_lt in X | X : (_ <? _) = false |- _ => apply Z.ltb_ge in X
        | X : (_ <=? _) = true |- _ => apply Z.leb_le in X | X : (_ <=? _) = false |- _ => apply Z.leb_gt in X
        | X : (_ =? _) = true |- _ => apply Z.eqb_eq in X | X : (_ =? _) = false |- _ => apply Z.eqb_neq in X end;
      try lia; try reflexivity.
    assert (N : existsb (fun q => fst q =? k) optab = false).
    { destruct (existsb _ optab) eqn:Ex; [|reflexivity]. apply existsb_exists in Ex. destruct Ex as ((k' & sp) & Hin & Ek).
      apply Z.eqb_eq in Ek. cbn [fst] in Ek. subst k'. apply op_in in Hin. contradiction (H _ Hin). }
    assert (T : forall k, 32 < k < 154 -> existsb (fun q => fst q =? k) optab = false -> tokens_at k = []).
    { clear. intros k Hk. assert (C : forallb (fun n => let k := Z.of_nat n in existsb (fun q => fst q =? k) optab || beq (tokens_at k) []) (seq 33 121) = true)
        by (vm_compute; reflexivity).
      rewrite forallb_forall in C. specialize (C (Z.to_nat k) ltac:(apply in_seq; lia)). cbn zeta in C. rewrite Z2Nat.id in C by lia.
      intro N. rewrite N in C. apply beq_eq in C. exact C. }
    rewrite T by (assumption || lia). reflexivity.
Qed.

(** The expectation of the documentation is refuted. *)
Theorem C13_nonnegative_refuted : exists k n, 0 <= k /\ TokenLen k = Val n /\ n < 0.
Proof. exists 34, (-2). vm_compute. repeat split; discriminate. Qed.
Theorem C13_no_panic_refuted : exists k, 0 <= k /\ TokenLen k = Crash.
Proof. exists 154. vm_compute. split; [discriminate|reflexivity]. Qed.

(** ** C14: any history of Init and Ltot calls on a new AutoKwScanner *)
Theorem C14_registered : forall ops k w tok k', kw_run new_akw ops = Val k -> Lit2Token (quote w) = ILLEGAL ->
  KwLtot k (quote w) = Val (tok, k') -> USER_TOKEN_BEGIN <= tok /\
  (* stable: later registrations and scans see the same number *)
  forall ops' k2, kw_run k' ops' = Val k2 ->
    KwLtot k2 (quote w) = Val (tok, k2) /\ KwScan k2 (mkTok IDENT 0 w) = mkTok tok 0 w.
Proof.
  intros ops k w tok k' H HL E. destruct (kw_inv_run _ _ _ kw_inv_new H) as (HI & _).
  destruct (ltot_quote k w tok k' HI HL E) as (F & G). split; [exact G|]. intros ops' k2 H2.
  assert (HI' : kw_inv k') by (apply (kw_inv_step k (OpLtot (quote w)) k' HI); cbn [kw_step]; rewrite E; reflexivity).
  destruct (kw_inv_run _ _ _ HI' H2) as (HI2 & F2 & _). apply F2 in F. split.
  - unfold KwLtot. rewrite HL. change (ILLEGAL =? ILLEGAL) with true. cbn [negb]. unfold quote. change (34 =? 34) with true. cbn iota.
    destruct (w ++ [34]) as [|a r] eqn:Ew; [destruct w; discriminate|]. rewrite <- Ew, removelast_quote, F. reflexivity.
  - unfold KwScan. cbn [tkind tlit tpos]. rewrite F. reflexivity.
Qed.

Theorem C14_unique : forall ops k w w' tok k' k'' ops', kw_run new_akw ops = Val k ->
  Lit2Token (quote w) = ILLEGAL -> Lit2Token (quote w') = ILLEGAL ->
  KwLtot k (quote w) = Val (tok, k') -> kw_run k' ops' = Val k'' ->
  forall k3, KwLtot k'' (quote w') = Val (tok, k3) -> w = w'.
Proof.
  intros ops k w w' tok k' k'' ops' H HL HL' E H2 k3 E3. destruct (kw_inv_run _ _ _ kw_inv_new H) as (HI & _).
  destruct (ltot_quote k w tok k' HI HL E) as (F & _).
  assert (HI' : kw_inv k') by (apply (kw_inv_step k (OpLtot (quote w)) k' HI); cbn [kw_step]; rewrite E; reflexivity).
  destruct (kw_inv_run _ _ _ HI' H2) as (HI2 & F2 & _). apply F2 in F.
  destruct (ltot_quote k'' w' tok k3 HI2 HL' E3) as (F3 & _).
  destruct (kw_inv_step k'' (OpLtot (quote w')) k3 HI2 ltac:(cbn [kw_step]; rewrite E3; reflexivity)) as (HI3 & F4 & _). apply F4 in F.
  exact (ki_inj _ HI3 w w' tok F F3).
Qed.

(** Ttol gives back a literal registering the same keyword; it is the registered literal itself if all registered
    literals are closed by a quote. *)
Theorem C14_ttol : forall ops k w tok k', kw_run new_akw ops = Val k ->
  (forall q, In (OpLtot (34 :: q)) ops -> exists w, 34 :: q = quote w) -> Lit2Token (quote w) = ILLEGAL ->
  KwLtot k (quote w) = Val (tok, k') -> KwTtol k' tok = Val (quote w).
Proof.
  intros ops k w tok k' H HQ HL E. destruct (kw_inv_run _ _ _ kw_inv_new H) as (HI & _).
  assert (TQ : forall ops k0 k1, (forall l, In l (kw_toks k0) -> exists w, l = quote w) ->
     (forall q, In (OpLtot (34 :: q)) ops -> exists w, 34 :: q = quote w) -> kw_run k0 ops = Val k1 -> forall l, In l (kw_toks k1) -> exists w, l = quote w).
  { clear. induction ops as [|o ops IH]; intros k0 k1 H0 HQ H; [injection H as <-; exact H0|].
    cbn [kw_run] in H. destruct (kw_step k0 o) as [k2|] eqn:E; [|discriminate]. apply (IH k2 k1); auto.
    - destruct o as [|lit]; [injection E as <-; rewrite kw_toks_init; exact H0|]. cbn [kw_step] in E.
      destruct (KwLtot k0 lit) as [[tok k3]|] eqn:EL; [|discriminate]. injection E as ->.
      destruct (ltot_cases _ _ _ _ EL) as [(-> & _)|(_ & _ & -> & _ & q & -> & _)]; [exact H0|].
      intros l Hl. apply in_app_or in Hl. destruct Hl as [Hl|[<- | []]]; [auto|]. apply HQ. left. reflexivity.
    - intros q Hq. apply HQ. right. exact Hq. }
  destruct (ltot_quote k w tok k' HI HL E) as (F & G).
  assert (HI' : kw_inv k') by (apply (kw_inv_step k (OpLtot (quote w)) k' HI); cbn [kw_step]; rewrite E; reflexivity).
  destruct (ki_find _ HI' w tok F) as (i & lit & -> & Hn & q & -> & Hq & Hr).
  unfold KwTtol. assert (Y : (USER_TOKEN_BEGIN <=? USER_TOKEN_BEGIN + Z.of_nat i) = true) by (apply Z.leb_le; lia). rewrite Y.
  replace (Z.to_nat (USER_TOKEN_BEGIN + Z.of_nat i - USER_TOKEN_BEGIN)) with i by lia. rewrite Hn. f_equal.
  assert (Q : exists w', 34 :: q = quote w').
  { apply (TQ (ops ++ [OpLtot (quote w)]) new_akw k').
    - intros l [].
    - intros q0 Hq0. apply in_app_or in Hq0. destruct Hq0 as [|[Y2|[]]]; [auto|]. injection Y2 as <-. exists w. reflexivity.
    - clear - H E. revert H. generalize new_akw. induction ops as [|o ops IH]; intros k0 H.
      + injection H as ->. cbn. rewrite E. reflexivity.
      + cbn [kw_run app] in *. destruct (kw_step k0 o); [|discriminate]. apply IH. exact H.
    - apply nth_error_In in Hn. exact Hn. }
  destruct Q as (w' & Q). rewrite Q. f_equal. unfold quote in Q. injection Q as ->. rewrite removelast_quote in Hr. congruence.
Qed.

(** Only registered words become keywords, operator literals never do, and nothing else changes. *)
Theorem C14_only_registered : forall ops k, kw_run new_akw ops = Val k -> forall t,
  KwScan k t = t \/ (tkind t = IDENT /\ exists q tok, In (OpLtot (34 :: q)) ops /\ removelast q = tlit t /\
    Lit2Token (34 :: q) = ILLEGAL /\ USER_TOKEN_BEGIN <= tok /\ KwScan k t = mkTok tok (tpos t) (tlit t)).
Proof.
  intros ops k H t. unfold KwScan. destruct (tkind t =? IDENT) eqn:Ek; [|left; reflexivity]. apply Z.eqb_eq in Ek.
  destruct (kw_find k (tlit t)) as [v|] eqn:Ef; [|left; reflexivity]. right. split; [exact Ek|].
  destruct (kw_found ops k H _ _ Ef) as (q & A & B & C & D). destruct (kw_inv_run _ _ _ kw_inv_new H) as (HI & _).
  exists q, v. split; [exact A|]. split; [exact C|]. split; [exact D|]. split; [exact (kw_inv_ok k HI _ _ Ef)|reflexivity].
Qed.

Theorem C14_operators_unchanged : forall k lit, Lit2Token lit <> ILLEGAL -> KwLtot k lit = Val (Lit2Token lit, k).
Proof. intros k lit H. unfold KwLtot. apply Z.eqb_neq in H. rewrite H. reflexivity. Qed.

Example C14_instance : exists k, kw_run new_akw [OpInit; OpLtot (quote (s2b "if")); OpLtot (s2b """+="""); OpInit; OpLtot (quote (s2b "else")); OpLtot (quote (s2b "if"))] = Val k /\
  kw_toks k = [quote (s2b "if"); quote (s2b "else")] /\ KwTtol k 177 = Val (quote (s2b "else")) /\
  tkind (KwScan k (mkTok IDENT 9 (s2b "if"))) = 176 /\ tkind (KwScan k (mkTok IDENT 9 (s2b "iff"))) = IDENT.
Proof. eexists. vm_compute. repeat split. Qed.

(** ** C15 *)
Fixpoint newlines (l : bytes) : nat := match l with [] => 0%nat | c :: r => if c =? 10 then S (newlines r) else newlines r end.
(** go/token: the line of an offset is the number of line starts up to it. *)
Definition line_of (ls : list nat) (o : nat) : nat := length (filter (fun l => (l <=? o)%nat) ls).

Lemma newlines_app : forall a b, newlines (a ++ b) = (newlines a + newlines b)%nat.
Proof. induction a as [|c a IH]; intro b; simpl; [reflexivity|]. rewrite IH. destruct (c =? 10); reflexivity. Qed.

Lemma starts_count : forall src o, (o < length src)%nat -> length (line_starts src o) = S (newlines (firstn o src)).
Proof.
  intros src. induction o as [|o IH]; intro H; [reflexivity|]. rewrite line_starts_S, app_length, IH by lia.
  destruct (skipn_len_lt Z o src ltac:(lia)) as (c & r & E).
  assert (F : firstn (S o) src = firstn o src ++ [c]).
  { rewrite <- (firstn_skipn o src) at 1. rewrite E, firstn_app, firstn_length, Nat.min_l, firstn_all2 by (try rewrite firstn_length; lia).
    replace (S o - o)%nat with 1%nat by lia. reflexivity. }
  rewrite F, newlines_app. assert (N : nth o src 0 = c).
  { rewrite <- (firstn_skipn o src), E, app_nth2; rewrite firstn_length, Nat.min_l by lia; [|lia]. rewrite Nat.sub_diag. reflexivity. }
  rewrite N. assert (Hlt : (S o <? length src)%nat = true) by (apply Nat.ltb_lt; exact H). rewrite Hlt. cbn [andb newlines].
  destruct (c =? 10); simpl; lia.
Qed.

Lemma filter_rev_length : forall (f : nat -> bool) l, length (filter f (rev l)) = length (filter f l).
Proof. intros f l. induction l as [|x l IH]; [reflexivity|]. simpl rev. rewrite filter_app, app_length, IH. simpl. destruct (f x); simpl; lia. Qed.

Theorem C15_line_table : forall isL isD mC mS src old, Forall byte src -> forall n ts t s,
  scans isL isD mC mS src n (Init src old) = (ts ++ [t], s) -> tkind t = EOF ->
  (forall o, In o (lines s) <-> o = 0%nat \/ ((o < length src)%nat /\ exists i, o = S i /\ nth_error src i = Some 10)) /\
  (forall o, (o < length src)%nat -> line_of (lines s) o = S (newlines (firstn o src))).
Proof.
  intros isL isD mC mS src old Hsrc n ts t s E K. destruct (after_eof isL isD mC mS src Hsrc old n ts t s E K) as (_ & R & _).
  destruct (run_spec isL isD mC mS src Hsrc old n) as (b & ps & after & s' & E' & _ & _ & _ & _ & [A1 _ _] & _ & _ & _ & L & _).
  rewrite E in E'. injection E' as _ <-. apply rest_nil in R; [|exact A1]. unfold Linv in L. rewrite R in L. rewrite L. split.
  - intro o. rewrite <- in_rev. unfold line_starts. rewrite filter_In, in_seq. split.
    + intros (H1 & H2). apply orb_true_iff in H2. destruct H2 as [H2|H2].
      * apply Nat.eqb_eq in H2. auto.
      * apply andb_true_iff in H2. destruct H2 as (H2 & H3). apply Nat.ltb_lt in H2. apply Z.eqb_eq in H3. destruct o as [|i]; [auto|]. right.
        split; [exact H2|]. exists i. split; [reflexivity|]. simpl in H3. rewrite Nat.sub_0_r in H3. rewrite <- H3. apply nth_error_nth'. lia.
    + intros [-> | (H1 & i & -> & H2)]; [split; [lia|reflexivity]|]. split; [lia|]. apply orb_true_iff. right. apply andb_true_iff.
      split; [apply Nat.ltb_lt; exact H1|]. simpl. rewrite Nat.sub_0_r. rewrite (nth_error_nth src i 0 H2). reflexivity.
  - intros o Ho. unfold line_of. rewrite filter_rev_length, <- starts_count by exact Ho. f_equal. unfold line_starts.
    replace (S (length src)) with (S o + (length src - o))%nat by lia. rewrite seq_app, filter_app, filter_app.
    assert (X : forall a m P, (o < a)%nat -> filter (fun l => (l <=? o)%nat) (filter P (seq a m)) = []).
    { clear. intros a m P Ha. revert a Ha. induction m as [|m IH]; intros a Ha; [reflexivity|]. simpl seq. cbn [filter]. destruct (P a); cbn [filter].
      - assert (Y : (a <=? o)%nat = false) by (apply Nat.leb_gt; exact Ha). rewrite Y. apply IH. lia.
      - apply IH. lia. }
    rewrite (X (0 + S o)%nat) by lia. rewrite app_nil_r.
    assert (Y : forall l P, (forall x, In x l -> (x <= o)%nat) -> filter (fun l => (l <=? o)%nat) (filter P l) = filter P l).
    { clear. intros l P. induction l as [|x l IH]; intro H; [reflexivity|]. cbn [filter]. destruct (P x); cbn [filter].
      - assert (Y : (x <=? o)%nat = true) by (apply Nat.leb_le; apply H; left; reflexivity). rewrite Y, IH; [reflexivity|]. intros y Hy. apply H. right. exact Hy.
      - apply IH. intros y Hy. apply H. right. exact Hy. }
    apply Y. intros x Hx. apply in_seq in Hx. lia.
Qed.

(** ** C65 *)
Theorem C65_no_error_means_well_formed : forall isL isD mC mS src old, Forall byte src -> forall n ts t s,
  scans isL isD mC mS src n (Init src old) = (ts ++ [t], s) -> tkind t = EOF -> errs s = [] ->
  exists b ps, ts ++ [t] = map p_tok ps /\ src = b ++ flat ps /\ (b = [] \/ b = bom_text) /\ clean (flat ps) /\
    forall ps1 p ps2, ps = ps1 ++ p :: ps2 ->
      closed_gap (p_gap p) (p_text p ++ flat ps2) /\ spelled isL isD (p_tok p) (p_text p) (flat ps2) /\
      (auto_semi (p_tok p) \/ well_formed (tkind (p_tok p)) (p_text p)).
Proof.
  intros isL isD mC mS src old Hsrc n ts t s E K X. destruct (after_eof isL isD mC mS src Hsrc old n ts t s E K) as (_ & R & _).
  destruct (run_spec isL isD mC mS src Hsrc old n) as (b & ps & after & s' & E' & _ & Es & HB & HS & _ & HR & _ & _ & _ & G).
  rewrite E in E'. injection E' as Et <-. rewrite HR in R. subst after. destruct (G X) as (G1 & _ & G2). rewrite !app_nil_r in *.
  exists b, ps. split; [exact Et|]. split; [exact Es|]. split; [destruct HB as [|(HB & _)]; auto|]. split; [exact G1|].
  intros ps1 p ps2 ->. assert (Z : good_piece p (flat ps2)).
  { clear - G2. induction ps1 as [|q ps1 IH]; simpl in G2.
    - rewrite app_nil_r in G2. tauto.
    - apply IH. tauto. }
  destruct Z as (Z1 & Z2). split; [exact Z1|]. split; [|exact Z2].
  apply scanned_split, scanned_piece in HS. rewrite app_nil_r in HS. destruct HS as (_ & _ & _ & D). unfold spelled.
  destruct D as [(_ & D & _ & _ & _ & _ & [T|(T & _)])|(_ & _ & _ & D)]; auto.
Qed.

(** ** C66 *)
(** The lexical specification is unambiguous and determines the tokens: [scanned] describes one token sequence only. *)
Theorem C66_specification_determines_tokens : forall isL isD mC mS src old, Forall byte src ->
  isL RuneError = false -> isD RuneError = false -> forall b ps after,
  src = b ++ flat ps ++ after -> has_bom b (flat ps ++ after) -> scanned isL isD mC mS [] (length b) ps after ->
  fst (scans isL isD mC mS src (length ps) (Init src old)) = map p_tok ps.
Proof.
  intros isL isD mC mS src old Hsrc HL HD b ps after Es HB HS.
  destruct (init_spec mS src Hsrc old) as (b' & E & HB' & O & A & _).
  assert (Eb : b = b').
  { destruct HB as [-> | (-> & HB)], HB' as [-> | (-> & HB')]; auto.
    - exfalso. cbn [app] in E. rewrite <- E in HB'. exact (HB' _ Es).
    - exfalso. cbn [app] in Es. rewrite <- Es in HB. exact (HB _ E). }
  subst b'. rewrite <- O in HS.
  assert (R : rest src (Init src old) = flat ps ++ after) by (rewrite Es in E at 1; apply app_inv_head in E; congruence).
  destruct (scans_complete isL isD mC mS src Hsrc HL HD ps _ [] after A R HS) as (s' & E' & _). rewrite E'. reflexivity.
Qed.

(** ** Concrete instances *)
Definition text1 : string := "a := 0x1F; // c
b += 'x' /* d
*/ `r` ..".
Definition src1 : bytes := s2b text1.
Lemma src1_bytes : Forall byte src1.
Proof. unfold src1. repeat constructor; unfold byte; lia. Qed.
Definition kinds (l : list token) : list Z := map tkind l.

Example C01_instance : kinds (fst (demo false true text1 13)) =
    [IDENT; DEFINE; INT; SEMICOLON; IDENT; ADD_ASSIGN; CHAR; SEMICOLON; STRING; ILLEGAL; EOF; EOF; EOF] /\
  Forall byte src1 /\ errs (snd (demo false true text1 13)) = [].
Proof. split; [vm_compute; reflexivity|]. split; [exact src1_bytes|vm_compute; reflexivity]. Qed.
(** the pieces of C02-C05: the comment before [b] is in its gap, the automatic semicolon before the block comment is empty *)
Example C02_instance : map tpos (fst (demo false true text1 11)) = [1; 3; 6; 10; 17; 19; 22; 26; 34; 38; 40]%nat.
Proof. vm_compute. reflexivity. Qed.
Example C05_instance : map tlit (fst (demo false true "a /* x */ /* y
*/ b" 4)) = [[97]; [10]; [98]; [10]] /\ map tlit (fst (demo false true "a /* x */ + b" 3)) = [[97]; []; [98]].
Proof. vm_compute. auto. Qed.
Example C06_instance : kinds (fst (demo true true text1 13)) =
    [IDENT; DEFINE; INT; SEMICOLON; COMMENT; IDENT; ADD_ASSIGN; CHAR; SEMICOLON; COMMENT; STRING; ILLEGAL; EOF] /\
  filter not_comment (fst (demo true true text1 13)) = fst (demo false true text1 11).
Proof. vm_compute. auto. Qed.
Example C07_instance : exists s, demo false false "a 'bc' ""d" 4 = ([mkTok IDENT 1 [97]; mkTok CHAR 3 [39; 98; 99; 39]; mkTok STRING 8 [34; 100]; mkTok EOF 10 []], s) /\
  errs s = [(2%nat, ERune); (7%nat, EStringTerm)] /\
  Tokenize no_runes no_runes false false Plain fresh (s2b "a 'bc' ""d") = TzErr [mkTok IDENT 1 [97]] (2%nat, ERune) /\ tk_ok Plain.
Proof. eexists. split; [vm_compute; reflexivity|]. vm_compute. auto. Qed.
Example C09_instance : kinds (fst (demo false false "&^=&^ &&&=<-<<=..." 7)) =
  [AND_NOT_ASSIGN; AND_NOT; LAND; AND_ASSIGN; ARROW; SHL_ASSIGN; ELLIPSIS].
Proof. vm_compute. reflexivity. Qed.
Example C11_refuted_for_semicolon : exists t s, demo false false ";" 1 = ([t], s) /\ tok_End t = Val 3.
Proof. do 2 eexists. vm_compute. split; reflexivity. Qed.
Example C11_refuted_for_cr : exists t s, scans no_runes no_runes false false [96; 13; 96] 1 (Init [96; 13; 96] fresh) = ([t], s) /\ tok_End t = Val 3.
Proof. do 2 eexists. vm_compute. split; reflexivity. Qed.
Example C15_instance : lines (snd (demo false true text1 13)) = [30; 16; 0]%nat /\ line_of (lines (snd (demo false true text1 13))) 20 = 2%nat.
Proof. vm_compute. auto. Qed.
Example C65_instance : exists ts s, demo true true "x := `q` + 08.5 // é" 9 = (ts ++ [mkTok EOF 22 []], s) /\ errs s = [] /\ length ts = 8%nat.
Proof. eexists [_; _; _; _; _; _; _; _], _. vm_compute. auto. Qed.
(** every source has such a decomposition, so the hypothesis of C66 is always met *)
Example C66_instance : exists b ps after, src1 = b ++ flat ps ++ after /\ has_bom b (flat ps ++ after) /\
  scanned no_runes no_runes false true [] (length b) ps after /\ kinds (map p_tok ps) = [IDENT; DEFINE; INT].
Proof.
  destruct (run_spec no_runes no_runes false true src1 src1_bytes fresh 3) as (b & ps & after & s' & E & _ & Es & HB & HS & _).
  exists b, ps, after. split; [exact Es|]. split; [exact HB|]. split; [exact HS|].
  apply (f_equal fst) in E. cbn [fst] in E. rewrite <- E. vm_compute. reflexivity.
Qed.

Print Assumptions C01_scan_reaches_eof.
Print Assumptions C01_eof_stays.
Print Assumptions C01_every_scan_returns.
Print Assumptions C02_tiling.
Print Assumptions C03_literals.
Print Assumptions C03_literal_at_pos.
Print Assumptions C04_positions.
Print Assumptions C05_semicolon_rule.
Print Assumptions C07_error_count.
Print Assumptions C07_tokenize.
Print Assumptions C07_success_iff.
Print Assumptions C09_longest_operator.
Print Assumptions C06_comments_only_added.
Print Assumptions C06_same_errors.
Print Assumptions C06_tokenize.
Print Assumptions C10_init_forgets.
Print Assumptions C10_tokenize_history.
Print Assumptions C11_end.
Print Assumptions C12_roundtrip_token.
Print Assumptions C12_roundtrip_literal.
Print Assumptions C12_crash_iff.
Print Assumptions C12_distinct.
Print Assumptions C12_distinct_literals.
Print Assumptions C13_TokenLen.
Print Assumptions C13_nonnegative_refuted.
Print Assumptions C13_no_panic_refuted.
Print Assumptions C14_registered.
Print Assumptions C14_unique.
Print Assumptions C14_ttol.
Print Assumptions C14_only_registered.
Print Assumptions C14_operators_unchanged.
Print Assumptions C15_line_table.
Print Assumptions C65_no_error_means_well_formed.
Print Assumptions C66_specification_determines_tokens.
