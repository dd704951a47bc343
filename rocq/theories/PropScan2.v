(** Properties C67 and C08: which texts Tokenize accepts, and reading back written tokens. *)
From Coq Require Import String.
From Verif Require Import Base Token Utf8 Utf8Proofs Scanner ScannerSpec ScannerProofs ScannerProofs2 ScannerProofs3 ScannerProofs4
  ScannerProofs5 ScanDet ScanRun ScanInit ScanObs ScanClean Tokenize TokenizeProofs PropScan.
Open Scope string_scope.
Open Scope list_scope.
Open Scope Z_scope.

(** ** C67 *)
(** [src], apart from a byte order mark at its start, is valid text without NUL and byte order marks, splits into
    the pieces [ps] (white space, comments and a token) by the lexical grammar, and every piece is well-formed;
    the last piece is the end of file. *)
Record correct_text (isL isD : Z -> bool) (comments semis : bool) (src : bytes) (ps : list piece) : Prop := {
  ct_text : exists b, src = b ++ flat ps /\ has_bom b (flat ps) /\ scanned isL isD comments semis [] (length b) ps [];
  ct_clean : clean (flat ps);
  ct_pieces : forall ps1 p ps2, ps = ps1 ++ p :: ps2 ->
    closed_gap (p_gap p) (p_text p ++ flat ps2) /\ (auto_semi (p_tok p) \/ well_formed (tkind (p_tok p)) (p_text p));
  ct_eof : exists qs e, ps = qs ++ [e] /\ tkind (p_tok e) = EOF /\ Forall (fun q => tkind (p_tok q) <> EOF) qs
}.

Lemma good_pieces_iff : forall ps, good_pieces ps [] <-> (forall ps1 p ps2, ps = ps1 ++ p :: ps2 -> good_piece p (flat ps2)).
Proof.
  induction ps as [|q ps IH]; cbn [good_pieces].
  - split; [|auto]. intros _ ps1 p ps2 E. destruct ps1; discriminate.
  - rewrite app_nil_r. rewrite IH. split.
    + intros (H1 & H2) ps1 p ps2 E. destruct ps1 as [|x ps1]; cbn [app] in E; injection E as -> E; [subst; exact H1|]. eapply H2. exact E.
    + intro H. split; [apply (H [] q ps); reflexivity|]. intros ps1 p ps2 ->. apply (H (q :: ps1) p ps2). reflexivity.
Qed.

Lemma init_quiet : forall mS src, Forall byte src -> forall old b r, src = b ++ r -> has_bom b r -> clean r ->
  Cl src (Init src old) /\ errs (Init src old) = [] /\ rest src (Init src old) = r /\ off (Init src old) = length b /\ at_pieces mS src (Init src old) [].
Proof.
  intros mS src Hsrc old b r E HB C. destruct (init_spec mS src Hsrc old) as (b' & E' & HB' & O & A & _).
  assert (Eb : b = b').
  { destruct HB as [-> | (-> & HB)], HB' as [-> | (-> & HB')]; auto.
    - exfalso. cbn [app] in E'. rewrite <- E' in HB'. exact (HB' _ E).
    - exfalso. cbn [app] in E. rewrite <- E in HB. exact (HB _ E'). }
  subst b'. assert (R : rest src (Init src old) = r) by (rewrite E in E' at 1; apply app_inv_head in E'; congruence).
  split; [apply cl_of; [exact (ap_inv _ _ _ _ A)|rewrite R; exact C]|]. split; [|auto].
  unfold Init. set (s0 := mkSc 32 0 0 0 false 0 [] [0%nat] [] false).
  destruct HB as [-> | (-> & HB)].
  - assert (Q : next src s0 = set_cur bom 0 3 s0).
    { rewrite next_eq by (simpl; lia). rewrite E. reflexivity. }
    rewrite Q. change (ch (set_cur bom 0 3 s0)) with bom. rewrite Z.eqb_refl.
    assert (K : skipn 3 src = r) by (rewrite E; reflexivity).
    destruct (next_at src (set_cur bom 0 3 s0)) as (X & _).
    + cbn [rd set_cur]. rewrite E, app_length. cbn. lia.
    + cbn [rd set_cur]. rewrite K. exact C.
    + exact X.
  - cbn [app] in E. subst r. destruct (next_at src s0) as (X & Y & Z1 & Z2); [cbn; lia|exact C|].
    assert (N : ch (next src s0) <> bom).
    { destruct Y as (_ & Y & _). rewrite Y, Z1. cbn [rd s0 skipn]. destruct (clean_inv _ C) as [-> |(c & l & Hc & -> & _)]; [discriminate|].
      rewrite (proj1 (first_encode c l Hc)). destruct Hc as (_ & _ & Hc). exact Hc. }
    apply Z.eqb_neq in N. rewrite N. exact X.
Qed.

(** Tokenize succeeds exactly on the correct texts, and its result is the tokens of the text. *)
Theorem C67_tokenize_accepts_iff : forall isL isD mC mS src old, Forall byte src -> isL RuneError = false -> isD RuneError = false ->
  forall tk, tk_ok tk -> forall toks eof,
  Tokenize isL isD mC mS tk old src = TzOk toks eof <->
  exists ps ts, correct_text isL isD mC mS src ps /\ map p_tok ps = ts ++ [eof] /\ toks = map (tk_scan tk) ts.
Proof.
  intros isL isD mC mS src old Hsrc HL HD tk Htk toks eof. rewrite (C07_success_iff isL isD mC mS src old Hsrc tk Htk). split.
  - intros (n & ts & s & E & K & F & X & ->).
    destruct (after_eof isL isD mC mS src Hsrc old n ts eof s E K) as (_ & R & _).
    destruct (run_spec isL isD mC mS src Hsrc old n) as (b & ps & after & s' & E' & _ & Es & HB & HS & _ & HR & _ & _ & _ & G).
    rewrite E in E'. injection E' as Et <-. rewrite HR in R. subst after. destruct (G X) as (G1 & _ & G2). rewrite app_nil_r in *.
    exists ps, ts. split; [|auto]. constructor.
    + exists b. auto.
    + exact G1.
    + rewrite good_pieces_iff in G2. exact G2.
    + assert (NE : ps <> []) by (intros ->; destruct ts; discriminate). destruct (exists_last NE) as (qs & e & ->).
      rewrite map_app in Et. cbn [map] in Et. apply app_inj_tail in Et. destruct Et as (-> & ->). exists qs, e. split; [reflexivity|]. split; [exact K|].
      rewrite Forall_map in F. exact F.
  - intros (ps & ts & [(b & Es & HB & HS) CC GP (qs & e & -> & K & F)] & Et & ->).
    destruct (init_quiet mS src Hsrc old b _ Es HB CC) as (C0 & X0 & R0 & O0 & A0).
    assert (G : good_pieces (qs ++ [e]) []) by (apply good_pieces_iff; exact GP).
    rewrite <- O0 in HS.
    destruct (scans_quiet isL isD mC mS src Hsrc HL HD _ _ _ [] A0 C0 (eq_trans R0 (eq_sym (app_nil_r _))) HS G) as (s' & E' & _ & X').
    exists (length (qs ++ [e])), ts, s'. rewrite E', Et. split; [reflexivity|].
    rewrite map_app in Et. cbn [map] in Et. apply app_inj_tail in Et. destruct Et as (<- & <-).
    split; [exact K|]. split; [rewrite Forall_map; exact F|]. split; [congruence|reflexivity].
Qed.

(** No report at all on a correct text, and a report on every other one. *)
Theorem C67_silent_iff : forall isL isD mC mS src old, Forall byte src -> isL RuneError = false -> isD RuneError = false -> forall n ts t s,
  scans isL isD mC mS src n (Init src old) = (ts ++ [t], s) -> tkind t = EOF -> Forall (fun t => tkind t <> EOF) ts ->
  (errs s = [] <-> exists ps, correct_text isL isD mC mS src ps /\ map p_tok ps = ts ++ [t]).
Proof.
  intros isL isD mC mS src old Hsrc HL HD n ts t s E K F.
  pose proof (C67_tokenize_accepts_iff isL isD mC mS src old Hsrc HL HD Plain Logic.I ts t) as A.
  assert (M : map (tk_scan Plain) ts = ts) by (rewrite map_ext with (g := fun x => x) by reflexivity; apply map_id).
  rewrite (C07_success_iff isL isD mC mS src old Hsrc Plain Logic.I) in A. split.
  - intro X. destruct A as (A & _). destruct A as (ps & us & A1 & A2 & A3); [exists n, ts, s; rewrite M; auto 6|].
    assert (M' : map (tk_scan Plain) us = us) by (rewrite map_ext with (g := fun x => x) by reflexivity; apply map_id).
    rewrite M' in A3. subst us. exists ps. auto.
  - intros (ps & A1 & A2). destruct A as (_ & A). destruct A as (m & us & s2 & E2 & _ & _ & X & Eu); [exists ps, ts; rewrite M; auto|].
    assert (M' : map (tk_scan Plain) us = us) by (rewrite map_ext with (g := fun x => x) by reflexivity; apply map_id).
    rewrite M' in Eu. subst us.
    assert (L : n = m).
    { pose proof (scans_length isL isD mC mS src n (Init src old)) as Y1. pose proof (scans_length isL isD mC mS src m (Init src old)) as Y2.
      rewrite E in Y1. rewrite E2 in Y2. cbn [fst] in *. lia. }
    subst m. rewrite E in E2. injection E2 as ->. exact X.
Qed.

(** ** C08 *)
(** A token one can write down: its kind, its Literal and its spelling. *)
Inductive writable (isL isD : Z -> bool) : Z -> bytes -> bytes -> Prop :=
| Wr_op : forall k t, op_spelling k t -> k <> SEMICOLON -> writable isL isD k [] t
| Wr_semi : writable isL isD SEMICOLON [59] [59]
| Wr_ident : forall t, ident isL isD t -> clean t -> writable isL isD IDENT t t
| Wr_number : forall k t, number k t -> (k = INT -> t <> [48; 120] /\ t <> [48; 88] /\ ~ bad_octal t) -> writable isL isD k t t
| Wr_string : forall n body, good_quoted 34 n body -> clean body -> writable isL isD STRING (34 :: body ++ [34]) (34 :: body ++ [34])
| Wr_raw : forall body, ~ In 96 body -> clean body ->
    writable isL isD STRING (filter (fun b => negb (b =? 13)) (96 :: body ++ [96])) (96 :: body ++ [96])
| Wr_char : forall body, good_quoted 39 1 body -> clean body -> writable isL isD CHAR (39 :: body ++ [39]) (39 :: body ++ [39]).

(** Written tokens: blanks in front, kind, Literal, spelling. *)
Record written : Type := mkWr { w_gap : bytes; w_kind : Z; w_lit : bytes; w_text : bytes }.
Definition written_text (ws : list written) (tail : bytes) : bytes := flat_map (fun w => w_gap w ++ w_text w) ws ++ tail.
(** the tokens at the positions where they stand, the first behind [o] bytes *)
Fixpoint tokens_from (o : nat) (ws : list written) : list token :=
  match ws with
  | [] => []
  | w :: r => mkTok (w_kind w) (S (o + length (w_gap w))) (w_lit w) :: tokens_from (o + length (w_gap w) + length (w_text w)) r
  end.
(** With semicolon insertion a newline is not just a blank. *)
Definition spacing (semis : bool) (g : bytes) : Prop := Forall (fun b => blank b \/ (b = 10 /\ semis = false)) g.
(** Spacing in front of every token, not empty between two tokens. *)
Definition well_spaced (semis : bool) (ws : list written) (tail : bytes) : Prop :=
  spacing semis tail /\ Forall (fun w => spacing semis (w_gap w)) ws /\
  match ws with [] => True | _ :: r => Forall (fun w => w_gap w <> []) r end.
(** The semicolon inserted at the end of the text. *)
Definition last_semi (semis : bool) (ws : list written) (pos : nat) : list token :=
  match rev ws with
  | w :: _ => if semis && final_kind (w_kind w) then [mkTok SEMICOLON pos [10]] else []
  | [] => []
  end.

Lemma aligned_quoted : forall q, q = 34 \/ q = 39 -> forall n l, aligned q n l -> quoted q l.
Proof.
  intros q Hq n l H. induction H as [|r n l Hr N1 N2 N3 H IH|e n l He H IH]; [constructor| |].
  - destruct (encode_shape r Hr) as [(R1 & ->)|(R1 & b & cs & -> & R3 & _ & R5)].
    + cbn [app]. apply Q_plain; auto.
    + cbn [app]. apply Q_plain; try lia. induction R5 as [|c cs Hc Hcs IH2]; cbn [app]; [exact IH|].
      unfold cont in Hc. apply andb_true_iff in Hc. rewrite !Z.leb_le in Hc. apply Q_plain; try lia. exact IH2.
  - assert (P : forall ds, Forall hexdigit ds -> quoted q (ds ++ l)).
    { intros ds Hd. induction Hd as [|d ds Hd Hds IH2]; cbn [app]; [exact IH|]. unfold hexdigit, digit in Hd. apply Q_plain; try lia. exact IH2. }
    destruct He as [c Hc|a b c Ho Hv|ds Hn Hd|ds Hn Hd Hv|ds Hn Hd Hv]; cbn [app].
    + apply Q_esc; [|exact IH]. cbn in Hc. intuition lia.
    + inversion Ho as [|? ? H1 H2]; subst. inversion H2 as [|? ? H3 H4]; subst. inversion H4 as [|? ? H5 _]; subst.
      apply Q_esc; [lia|]. apply Q_plain; try lia. apply Q_plain; try lia. exact IH.
    + apply Q_esc; [lia|apply P; exact Hd].
    + apply Q_esc; [lia|apply P; exact Hd].
    + apply Q_esc; [lia|apply P; exact Hd].
Qed.

Lemma good_is_quoted : forall q n body, q = 34 \/ q = 39 -> good_quoted q n body -> clean body -> quoted q body.
Proof.
  intros q n body Hq G C. destruct (gq_aligned q ltac:(lia) (length body) n body [] (le_n _) G) as (m & A & _).
  - apply clean_app; [exact C|]. rewrite <- (encode_ascii q) by lia. rewrite <- (app_nil_r (EncodeRune q)). constructor; [|constructor]. unfold scalar. lia.
  - eapply aligned_quoted; eauto.
Qed.

Lemma clean_of_ascii : forall t, Forall (fun c => 0 < c < 128) t -> clean t.
Proof.
  intros t H. induction H as [|c t Hc Ht IH]; [constructor|]. change (c :: t) with ([c] ++ t). rewrite <- (encode_ascii c) by lia.
  constructor; [|exact IH]. unfold scalar. lia.
Qed.

Lemma number_chars : forall k t, number k t -> Forall (fun c => 42 < c < 128 /\ c <> 47 /\ c <> 59) t.
Proof.
  assert (D : forall ds, Forall digit ds -> Forall (fun c => 42 < c < 128 /\ c <> 47 /\ c <> 59) ds).
  { intros ds. apply Forall_impl. unfold digit. lia. }
  assert (X : forall ex, exponent ex -> Forall (fun c => 42 < c < 128 /\ c <> 47 /\ c <> 59) ex).
  { intros ex [-> | (e & sg & ds & -> & He & Hs & Hd)]; [constructor|]. constructor; [lia|]. apply Forall_app. split; [|auto].
    destruct Hs as [-> | [-> | ->]]; repeat constructor; lia. }
  assert (M : forall im, imag im -> Forall (fun c => 42 < c < 128 /\ c <> 47 /\ c <> 59) im).
  { intros im [-> | ->]; repeat constructor; lia. }
  intros k t H. destruct H as [x hs Hx Hh|ds fr ex im Hne Hd Hf He Hi|d ds ex im Hd Hds He Hi].
  - constructor; [lia|]. constructor; [lia|]. eapply Forall_impl; [|exact Hh]. unfold hexdigit, digit. intros; lia.
  - repeat (apply Forall_app; split); auto. destruct Hf as [-> | (fs & -> & Hfs)]; [constructor|]. constructor; [lia|auto].
  - constructor; [lia|]. constructor; [unfold digit in Hd; lia|]. repeat (apply Forall_app; split); auto.
Qed.

(** White space or nothing follows. *)
Definition then_space (after : bytes) : Prop := match after with [] => True | c :: _ => ws c end.

(** A spelling that cannot run on into the text behind it: white space, the end, a closing parenthesis or a semicolon
    follow; or it is a quoted literal; or it is an operator no longer operator starts with, and no point or slash. *)
Inductive apart (k : Z) (text after : bytes) : Prop :=
| Ap_space : then_space after -> apart k text after
| Ap_close : forall c r, after = c :: r -> c = 41 \/ c = 59 -> apart k text after
| Ap_quoted : k = STRING \/ k = CHAR -> apart k text after
| Ap_op : op_spelling k text -> text <> [46] -> text <> [47] ->
    (forall c r, after = c :: r -> ~ exists k' t', op_spelling k' (text ++ c :: t')) -> apart k text after.

(** Every written token is apart from what follows it. *)
Fixpoint all_apart (ws : list written) (tail : bytes) : Prop :=
  match ws with
  | [] => True
  | w :: r => apart (w_kind w) (w_text w) (written_text r tail) /\ all_apart r tail
  end.

Section Write.
Variables isL isD : Z -> bool.
Hypothesis HL : isL RuneError = false.
Hypothesis HD : isD RuneError = false.

Lemma writable_lexeme : forall k lit text after, writable isL isD k lit text -> apart k text after ->
  lexeme isL isD k lit text after /\ well_formed k text /\ clean text /\ k <> COMMENT /\ k <> EOF /\ k <> ILLEGAL /\
  ~ (k = SEMICOLON /\ lit = [10]).
Proof.
  intros k lit text after W S.
  assert (FS : k <> STRING -> k <> CHAR -> ~ op_spelling k text -> first after = -1 \/ ws (first after) \/ first after = 41 \/ first after = 59).
  { intros K1 K2 K3. destruct S as [S|c r -> S|S|S]; [|right; right; rewrite first_ascii by lia; exact S|tauto|contradiction].
    destruct after as [|c r]; [left; reflexivity|right; left]. cbn in S. rewrite first_ascii by (unfold ws in S; lia). exact S. }
  assert (NL : k <> STRING -> k <> CHAR -> ~ op_spelling k text -> ~ letter_or_digit isL isD (first after)).
  { intros K1 K2 K3. unfold letter_or_digit, letter, digit. destruct (FS K1 K2 K3) as [->|[F|F]]; [|unfold ws in F|]; lia. }
  destruct W as [k t Ho Hk| |t Hi Hc|k t Hn Hi|n body Hg Hc|body Hb Hc|body Hg Hc].
  - destruct (op_kinds k t Ho) as (K1 & K2 & K3 & K4 & K5 & K6 & K7 & K8 & K9 & K10).
    assert (T : forallb (fun p => forallb (fun c => (32 <? c) && (c <? 128)) (snd p)) optab = true) by (vm_compute; reflexivity).
    rewrite forallb_forall in T.
    assert (Tc : forallb (fun p => match snd p with _ :: l => forallb (fun c => negb (c =? 41) && negb (c =? 59)) l | [] => true end) optab = true) by (vm_compute; reflexivity).
    rewrite forallb_forall in Tc.
    split; [|split; [apply wf_plain; auto|split; [|repeat split; auto; intros (X & _); contradiction]]].
    + apply Lx_op; auto.
      * apply op_longest with (k := k); [exact Ho|]. intros c r -> Hin. unfold op_next in Hin. apply in_flat_map in Hin.
        destruct Hin as (p & Hp & Hin). specialize (T p Hp). pose proof (Tc p Hp) as Tc'. cbn beta in Tc'. destruct (after_prefix t (snd p)) as [[|c' r']|] eqn:Ea; try contradiction.
        destruct Hin as [-> |[]].
        assert (Ec : snd p = t ++ c :: r').
        { revert Ea. clear. generalize (snd p). induction t as [|y t IH]; intros [|x l] E; cbn in E; try discriminate; [injection E as -> ->; reflexivity|].
          destruct (y =? x) eqn:Ey; [|discriminate]. apply Z.eqb_eq in Ey. subst. cbn. f_equal. apply IH. exact E. }
        assert (In c (snd p)). { revert Ea. clear. revert t. induction (snd p) as [|x l IH]; intros [|y t] E; cbn in E; try discriminate.
          - injection E as -> ->. left. reflexivity.
          - destruct (y =? x); [|discriminate]. right. eapply IH. exact E. }
        rewrite forallb_forall in T. specialize (T c H). apply andb_true_iff in T. rewrite !Z.ltb_lt in T.
        destruct S as [S|c0 r0 E S|S|S1 S2 S3 S4].
        -- cbn in S. unfold ws in S. lia.
        -- injection E as <- <-. destruct p as [kp tp]; cbn [snd] in *; subst tp. destruct t as [|t0 t]; [apply op_out in Ho; vm_compute in Ho; intuition discriminate|].
           cbn [app] in Tc'. rewrite forallb_forall in Tc'. specialize (Tc' c ltac:(apply in_or_app; right; left; reflexivity)).
           apply andb_true_iff in Tc'. rewrite !negb_true_iff, !Z.eqb_neq in Tc'. lia.
        -- tauto.
        -- apply (S4 c r eq_refl). exists (fst p), r'. rewrite <- Ec. apply op_in. destruct p. exact Hp.
      * destruct S as [S|c0 r0 -> S|S|S1 S2 S3 S4]; [| |tauto|split; intro; contradiction].
        -- unfold op_alone, digit. destruct after as [|c r]; [change (first []) with (-1); lia|]. cbn in S. rewrite first_ascii by (unfold ws in S; lia). unfold ws in S. lia.
        -- unfold op_alone, digit. rewrite first_ascii by lia. lia.
    + apply clean_of_ascii. apply op_out in Ho. specialize (T _ Ho). cbn [snd] in T. rewrite forallb_forall in T. apply Forall_forall.
      intros c Hc. specialize (T c Hc). apply andb_true_iff in T. rewrite !Z.ltb_lt in T. lia.
  - split; [apply Lx_semi|]. split; [apply wf_plain; discriminate|]. split; [apply clean_of_ascii; repeat constructor; lia|].
    repeat split; try discriminate. intros (_ & X). discriminate.
  - assert (No : ~ op_spelling IDENT t) by (intro Ho; apply op_kinds in Ho; tauto). split; [apply Lx_ident; auto; apply NL; auto; discriminate|]. split; [apply wf_plain; discriminate|]. split; [exact Hc|]. repeat split; try discriminate. intros (X & _). discriminate.
  - assert (Hk : k = INT \/ k = FLOAT \/ k = IMAG).
    { destruct Hn; unfold number_kind; auto; repeat destruct (ScannerSpec.is_nil _); simpl; auto. }
    pose proof (number_chars k t Hn) as NC.
    split; [|split; [|split; [|destruct Hk as [-> | [-> | ->]]; repeat split; try discriminate; intros (X & _); discriminate]]].
    + apply Lx_number; [exact Hn|]. split; [eauto|]. intros x y -> Hx (k' & Hn'). apply number_chars in Hn'. apply Forall_app in Hn'. destruct Hn' as (_ & Hn').
      destruct x as [|c x]; [contradiction|]. inversion Hn'; subst.
      assert (No : ~ op_spelling k t) by (intro Ho; apply op_kinds in Ho; destruct Hk as [-> | [-> | ->]]; tauto).
      destruct (FS ltac:(destruct Hk as [-> | [-> | ->]]; discriminate) ltac:(destruct Hk as [-> | [-> | ->]]; discriminate) No) as [F|[F|F]].
      all: cbn [app] in F; rewrite first_ascii in F by lia; unfold ws in *; lia.
    + unfold well_formed. destruct Hk as [-> | [-> | ->]]; repeat split; try discriminate; apply Hi; reflexivity.
    + apply clean_of_ascii. eapply Forall_impl; [|exact NC]. cbn. intros; lia.
  - pose proof (good_is_quoted 34 n body (or_introl eq_refl) Hg Hc) as Q.
    split; [apply Lx_string; left; exists body; auto|]. split; [|split; [|repeat split; try discriminate; intros (X & _); discriminate]].
    + unfold well_formed. repeat split; try discriminate. intros _. left. exists n, body. auto.
    + apply (clean_app [34]); [apply clean_of_ascii; repeat constructor; lia|]. apply clean_app; [exact Hc|]. apply clean_of_ascii; repeat constructor; lia.
  - split; [apply Lx_raw; left; exists body; auto|]. split; [|split; [|repeat split; try discriminate; intros (X & _); discriminate]].
    + unfold well_formed. repeat split; try discriminate. intros _. right. exists body. auto.
    + apply (clean_app [96]); [apply clean_of_ascii; repeat constructor; lia|]. apply clean_app; [exact Hc|]. apply clean_of_ascii; repeat constructor; lia.
  - pose proof (good_is_quoted 39 1 body (or_intror eq_refl) Hg Hc) as Q.
    split; [apply Lx_char; left; exists body; auto|]. split; [|split; [|repeat split; try discriminate; intros (X & _); discriminate]].
    + unfold well_formed. repeat split; try discriminate. intros _. exists body. auto.
    + apply (clean_app [39]); [apply clean_of_ascii; repeat constructor; lia|]. apply clean_app; [exact Hc|]. apply clean_of_ascii; repeat constructor; lia.
Qed.

(** A written token is not the end of a line. *)
Lemma writable_no_line_end : forall k lit text after, writable isL isD k lit text -> apart k text after -> ~ line_ends (text ++ after).
Proof.
  intros k lit text after W S X.
  assert (N : forall c l, c <> 47 -> c <> 35 -> ~ ws c -> ~ line_ends (c :: l)).
  { intros c l H1 H2 H3 Y. apply LE_head in Y. unfold blank, ws in *. lia. }
  destruct W as [k t Ho Hk| |t Hi Hc|k t Hn Hi|n body Hg Hc|body Hb Hc|body Hg Hc].
  - apply op_out in Ho.
    assert (T : forallb (fun p => match snd p with
        | c :: l => (32 <? c) && negb (c =? 35) && (negb (c =? 47) || beq l [] || beq l [61]) | [] => false end) optab = true) by (vm_compute; reflexivity).
    rewrite forallb_forall in T. specialize (T _ Ho). cbn [snd] in T. destruct t as [|c l]; [discriminate|].
    apply andb_true_iff in T. destruct T as (T & T3). apply andb_true_iff in T. destruct T as (T1 & T2). apply Z.ltb_lt in T1. apply negb_true_iff, Z.eqb_neq in T2.
    destruct (Z.eq_dec c 47) as [-> |Hc]; [|revert X; apply N; auto; unfold ws; lia].
    cbn [negb Z.eqb Pos.eqb orb] in T3. apply orb_true_iff in T3.
    assert (Hl : l = [] \/ l = [61]) by (destruct T3 as [T3|T3]; apply beq_eq in T3; auto).
    assert (E : exists x, l ++ after = x /\ (forall r, x <> 47 :: r) /\ (forall r, x <> 42 :: r)).
    { eexists. split; [reflexivity|]. destruct Hl as [-> | ->]; cbn [app].
      - destruct S as [S|c0 r0 -> S|S|S1 S2 S3 S4].
        + destruct after as [|a r]; [split; discriminate|]. cbn in S. unfold ws in S. split; intros r' Y; injection Y as -> _; lia.
        + split; intros r' Y; injection Y as -> _; lia.
        + exfalso. destruct S as [-> | ->]; vm_compute in Ho; intuition discriminate.
        + contradiction.
      - split; discriminate. }
    destruct E as (x & E & E1 & E2). cbn [app] in X. rewrite E in X. destruct X as [X|(bl & r & Y & Hb)].
    + inversion X; subst; try (eapply E1; eauto; fail); try (eapply E2; eauto; fail). unfold blank in *. lia.
    + destruct bl as [|b bl]; cbn [app] in Y; injection Y as Y _; [discriminate|]. subst b. inversion Hb; subst. unfold blank in *. lia.
  - revert X. apply N; [lia|lia|unfold ws; lia].
  - destruct Hi as (Ne & Hf & _). destruct t as [|c t]; [contradiction|]. cbn [app] in X. revert X. apply N.
    all: intro Hc2; assert (Lc : c < 128) by (unfold ws in *; lia); rewrite first_ascii in Hf by exact Lc; unfold letter, ws in *; lia.
  - assert (Ne : t <> []) by (destruct Hn as [| ds ? ? ? Hne|]; try discriminate; destruct ds; [contradiction|discriminate]).
    apply number_chars in Hn. destruct t as [|c t]; [contradiction|]. cbn [app] in X. inversion Hn; subst. revert X. apply N; [lia| |unfold ws; lia].
    lia.
  - revert X. apply N; [lia|lia|unfold ws; lia].
  - revert X. apply N; [lia|lia|unfold ws; lia].
  - revert X. apply N; [lia|lia|unfold ws; lia].
Qed.

Lemma spacing_ws : forall m g, spacing m g -> Forall ws g.
Proof. intros m g. apply Forall_impl. unfold blank, ws. intros a H. lia. Qed.
Lemma spacing_blank : forall g, spacing true g -> Forall blank g.
Proof. intros g. apply Forall_impl. intros a [H|(_ & H)]; [exact H|discriminate]. Qed.
Lemma ws_gap : forall g after, Forall ws g -> gap g after /\ closed_gap g after.
Proof. intros g after H. induction H as [|b g Hb Hg (I1 & I2)]; split; constructor; auto. Qed.
Lemma ws_clean : forall g, Forall ws g -> clean g.
Proof. intros g H. apply clean_of_ascii. eapply Forall_impl; [|exact H]. unfold ws. intros; lia. Qed.

(** The pieces of a written text. *)
Fixpoint wpieces (o : nat) (ws : list written) : list piece :=
  match ws with
  | [] => []
  | w :: r => mkPiece (w_gap w) (w_text w) (mkTok (w_kind w) (S (o + length (w_gap w))) (w_lit w)) ::
              wpieces (o + length (w_gap w) + length (w_text w)) r
  end.
Lemma wpieces_flat : forall ws o, flat (wpieces o ws) = flat_map (fun w => w_gap w ++ w_text w) ws.
Proof. induction ws as [|w r IH]; intro o; [reflexivity|]. cbn [wpieces flat_map]. rewrite flat_cons. cbn [p_gap p_text]. rewrite IH, <- app_assoc. reflexivity. Qed.
Lemma wpieces_tok : forall ws o, map p_tok (wpieces o ws) = tokens_from o ws.
Proof. induction ws as [|w r IH]; intro o; [reflexivity|]. cbn [wpieces map tokens_from p_tok]. rewrite IH. reflexivity. Qed.

Variables mC mS : bool.
Lemma wpieces_scanned : forall ws b o rest after,
  Forall (fun w => writable isL isD (w_kind w) (w_lit w) (w_text w)) ws ->
  Forall (fun w => spacing mS (w_gap w)) ws -> all_apart ws (flat rest ++ after) ->
  scanned isL isD mC mS (rev (wpieces o ws) ++ b) (o + length (flat (wpieces o ws))) rest after ->
  scanned isL isD mC mS b o (wpieces o ws ++ rest) after.
Proof.
  induction ws as [|w r IH]; intros b o rest after HW HS HG H.
  - cbn [wpieces rev app flat flat_map length] in *. rewrite Nat.add_0_r in H. exact H.
  - inversion HW as [|? ? W1 W2]; subst. inversion HS as [|? ? S1 S2]; subst. destruct HG as (HG1 & HG).
    set (p := mkPiece (w_gap w) (w_text w) (mkTok (w_kind w) (S (o + length (w_gap w))) (w_lit w))).
    assert (E : wpieces o (w :: r) = p :: wpieces (o + length (w_gap w) + length (w_text w)) r) by reflexivity.
    rewrite E in *. clear E. cbn [app].
    assert (TS' : apart (w_kind w) (w_text w) (flat (wpieces (o + length (w_gap w) + length (w_text w)) r ++ rest) ++ after)).
    { unfold flat. rewrite flat_map_app. fold (flat rest). change (flat_map _ (wpieces ?a r)) with (flat (wpieces a r)). rewrite wpieces_flat, <- app_assoc. exact HG1. }
    destruct (writable_lexeme _ _ _ _ W1 TS') as (LX & _ & _ & K1 & K2 & K3 & K4).
    apply Sc_tok; cbn [p_gap p_text p_tok p tkind tlit tpos].
    + intros (Y1 & _ & Y2). rewrite Y1 in S1. apply spacing_blank in S1. apply LEx_blanks_iff in Y2; [|exact S1].
      exact (writable_no_line_end _ _ _ _ W1 TS' Y2).
    + apply ws_gap. eapply spacing_ws; exact S1.
    + intros _. eapply spacing_ws; exact S1.
    + intro X. contradiction.
    + exact LX.
    + reflexivity.
    + apply IH; auto.
      * cbn [rev] in H. rewrite <- app_assoc in H. cbn [app] in H. rewrite flat_cons, !app_length in H.
        cbn [p_gap p_text p] in H. replace (o + length (w_gap w) + length (w_text w) + length (flat (wpieces (o + length (w_gap w) + length (w_text w)) r)))%nat
          with (o + (length (w_gap w) + (length (w_text w) + length (flat (wpieces (o + length (w_gap w) + length (w_text w)) r)))))%nat by lia.
        exact H.
Qed.

Lemma wpieces_good : forall ws o after,
  Forall (fun w => writable isL isD (w_kind w) (w_lit w) (w_text w)) ws -> Forall (fun w => spacing mS (w_gap w)) ws ->
  clean (flat (wpieces o ws)) /\ (forall ps1 p ps2, wpieces o ws = ps1 ++ p :: ps2 ->
    closed_gap (p_gap p) (p_text p ++ flat ps2 ++ after) /\ well_formed (tkind (p_tok p)) (p_text p) /\ tkind (p_tok p) <> EOF).
Proof.
  induction ws as [|w r IH]; intros o after HW HS.
  - split; [constructor|]. intros ps1 p ps2 E. destruct ps1; discriminate.
  - inversion HW as [|? ? W1 W2]; subst. inversion HS as [|? ? S1 S2]; subst.
    destruct (IH (o + length (w_gap w) + length (w_text w))%nat after W2 S2) as (C & G).
    destruct (writable_lexeme _ _ _ [] W1 (Ap_space _ _ [] Logic.I)) as (_ & WF & CL & _ & K2 & _). apply spacing_ws in S1. cbn [wpieces]. split.
    + rewrite flat_cons. cbn [p_gap p_text]. apply clean_app; [apply ws_clean; exact S1|]. apply clean_app; assumption.
    + intros ps1 p ps2 E. destruct ps1 as [|q ps1]; cbn [app] in E; injection E as <- E.
      * cbn [p_gap p_text p_tok tkind]. split; [apply ws_gap; exact S1|]. auto.
      * eapply G. exact E.
Qed.

(** Writing tokens apart from each other and scanning the text gives back these tokens, at the positions
    where they were written, without any report; with semicolon insertion a semicolon may follow at the end. *)
Theorem C08_tokens_apart_read_back : forall tk old ws tail, tk_ok tk ->
  Forall byte (written_text ws tail) ->
  Forall (fun w => writable isL isD (w_kind w) (w_lit w) (w_text w)) ws ->
  spacing mS tail -> Forall (fun w => spacing mS (w_gap w)) ws -> all_apart ws tail ->
  let src := written_text ws tail in
  Tokenize isL isD mC mS tk old src =
    TzOk (map (tk_scan tk) (tokens_from 0 ws ++ last_semi mS ws (S (length src)))) (mkTok EOF (S (length src)) []).
Proof.
  intros tk old ws tail Htk Hsrc HW HT HS HG src. apply (C67_tokenize_accepts_iff isL isD mC mS src old Hsrc HL HD tk Htk).
  set (semi := match rev ws with w :: _ => mS && final_kind (w_kind w) | [] => false end).
  set (n := length (flat (wpieces 0 ws))).
  assert (Ln : (n + length tail)%nat = length src) by (unfold n, src, written_text; rewrite wpieces_flat, app_length; reflexivity).
  set (eofp := fun g => mkPiece g [] (mkTok EOF (S (length src)) [])).
  set (final := if semi then [mkPiece tail [] (mkTok SEMICOLON (S (length src)) [10]); eofp []] else [eofp tail]).
  assert (Pend : pending (rev (wpieces 0 ws) ++ []) <-> exists w r, rev ws = w :: r /\ final_kind (w_kind w) = true).
  { rewrite app_nil_r. clear - HW HL HD. induction ws as [|w0 ws0 IHws0] using rev_ind.
    - cbn. split; [contradiction|]. intros (w & r & E & _). discriminate.
    - clear IHws0. rewrite rev_unit. assert (E : forall l o, exists o', wpieces o (l ++ [w0]) = wpieces o l ++ wpieces o' [w0]).
      { induction l as [|x l IH]; intro o; [exists o; reflexivity|]. cbn [app wpieces]. destruct (IH (o + length (w_gap x) + length (w_text x))%nat) as (o' & ->). exists o'. reflexivity. }
      destruct (E ws0 0%nat) as (o' & ->). cbn [wpieces]. rewrite rev_unit. cbn [pending p_tok tkind tlit p_gap]. rewrite <- (final_iff isL isD). split.
      + intros [Y|(Y & _)]; [exists w0, (rev ws0); auto|]. exfalso. apply Forall_app in HW. destruct HW as (_ & HW). inversion HW; subst.
        destruct (writable_lexeme _ _ _ [] ltac:(eassumption) (Ap_space _ _ [] Logic.I)) as (_ & _ & _ & _ & _ & K & _). contradiction.
      + intros (w & r & Y & Z). injection Y as <- <-. auto. }
  assert (LE : mS = true -> Forall blank tail -> line_ends tail).
  { intros _ Hb. rewrite <- (app_nil_r tail). apply LEx_blanks_iff; [exact Hb|]. left. constructor. }
  assert (Semi : semi = true <-> mS = true /\ pending (rev (wpieces 0 ws) ++ [])).
  { rewrite Pend. unfold semi. destruct (rev ws) as [|w r]; [split; [discriminate|intros (_ & w & r & X & _); discriminate]|].
    rewrite andb_true_iff. split; [intros (X & Y); split; [exact X|exists w, r; auto]|]. intros (X & w' & r' & Y & Z). injection Y as <- <-. auto. }
  assert (FF : flat final = tail) by (unfold final; destruct semi; cbn [flat flat_map p_gap p_text eofp app]; rewrite !app_nil_r; reflexivity).
  assert (HF : scanned isL isD mC mS (rev (wpieces 0 ws) ++ []) (0 + n) final []).
  { assert (WT : Forall ScannerSpec.ws tail) by (eapply spacing_ws; exact HT).
    assert (EO : forall b g o, Forall ScannerSpec.ws g -> ~ (mS = true /\ pending b) -> (o + length g)%nat = length src -> scanned isL isD mC mS b o [eofp g] []).
    { intros b g o Hg Hp Ho. apply Sc_tok; cbn [p_gap p_text p_tok eofp tkind tlit tpos flat flat_map app].
      - intros (Y1 & Y2 & _). tauto.
      - apply ws_gap. exact Hg.
      - intros _. exact Hg.
      - discriminate.
      - apply Lx_eof.
      - f_equal. symmetry. exact Ho.
      - constructor. }
    unfold final. destruct semi eqn:Es.
    - destruct (proj1 Semi eq_refl) as (Y1 & Y2). rewrite Y1 in HT. apply spacing_blank in HT.
      apply Sc_semi; cbn [p_gap p_text p_tok tkind tlit tpos flat flat_map app eofp]; auto.
      + rewrite app_nil_r. apply LE; auto.
      + split; reflexivity.
      + apply EO; [constructor| |cbn; lia]. intros (_ & [Y|(Y & _)]); [|discriminate]. apply (final_iff isL isD) in Y. discriminate.
    - apply EO; [exact WT| |lia]. intro Y. apply Semi in Y. discriminate. }
  exists (wpieces 0 ws ++ final), (tokens_from 0 ws ++ last_semi mS ws (S (length src))).
  destruct (wpieces_good ws 0 tail HW HS) as (C & G). apply spacing_ws in HT as WT.
  assert (FA : flat (wpieces 0 ws ++ final) = src).
  { unfold flat. rewrite flat_map_app. fold (flat final). change (flat_map _ (wpieces 0 ws)) with (flat (wpieces 0 ws)). rewrite FF, wpieces_flat. reflexivity. }
  assert (CS : clean src) by (rewrite <- FA; unfold flat; rewrite flat_map_app; apply clean_app; [exact C|fold (flat final); rewrite FF; apply ws_clean; exact WT]).
  split; [|split; [|reflexivity]].
  - constructor.
    + exists []. rewrite FA. split; [reflexivity|]. split.
      * right. split; [reflexivity|]. intros x Ex. rewrite Ex in CS. destruct (clean_inv _ CS) as [X|(c & l & Hc & X & _)]; [discriminate|].
        pose proof (bom_first x) as B. rewrite X in B. rewrite (proj1 (first_encode c l Hc)) in B. destruct Hc as (_ & _ & Hc). contradiction.
      * apply wpieces_scanned; auto. rewrite FF, app_nil_r. exact HG.
    + rewrite FA. exact CS.
    + intros ps1 p ps2 E. assert (FG : forall ps1 p ps2, final = ps1 ++ p :: ps2 -> closed_gap (p_gap p) (p_text p ++ flat ps2) /\ (auto_semi (p_tok p) \/ well_formed (tkind (p_tok p)) (p_text p))).
      { clear E ps1 p ps2. intros ps1 p ps2 E.
        assert (Ee : forall g, Forall ScannerSpec.ws g -> closed_gap (p_gap (eofp g)) (p_text (eofp g) ++ flat ps2) /\
           (auto_semi (p_tok (eofp g)) \/ well_formed (tkind (p_tok (eofp g))) (p_text (eofp g)))).
        { intros g Hg. split; [apply ws_gap; exact Hg|]. right. apply wf_plain; discriminate. }
        unfold final in E. destruct semi.
        - destruct ps1 as [|q [|q2 ps1]]; cbn [app] in E.
          + injection E as <- E. split; [apply ws_gap; exact WT|]. left. split; reflexivity.
          + injection E as _ <- E. apply Ee. constructor.
          + injection E as _ _ E. destruct ps1; discriminate.
        - destruct ps1 as [|q ps1]; cbn [app] in E; injection E as <- E; [apply Ee; exact WT|]. destruct ps1; discriminate. }
      revert ps1 E. generalize (wpieces 0 ws) G. clear - FF FG. induction l as [|q l IH]; intros G ps1 E; cbn [app] in E; [eapply FG; exact E|].
      destruct ps1 as [|q' ps1]; cbn [app] in E; injection E as <- E.
      * destruct (G [] q l eq_refl) as (G1 & G2 & _). split; [|auto]. subst ps2. unfold flat. rewrite flat_map_app. fold (flat l). fold (flat final). rewrite FF. exact G1.
      * apply (IH ltac:(intros a b c ->; apply (G (q :: a) b c); reflexivity) ps1 E).
    + assert (NE : Forall (fun q => tkind (p_tok q) <> EOF) (wpieces 0 ws)).
      { apply Forall_forall. intros q Hq. apply in_split in Hq. destruct Hq as (l1 & l2 & Hq). destruct (G l1 q l2 Hq) as (_ & _ & X). exact X. }
      unfold final. destruct semi.
      * exists (wpieces 0 ws ++ [mkPiece tail [] (mkTok SEMICOLON (S (length src)) [10])]), (eofp []). rewrite <- app_assoc. split; [reflexivity|].
        split; [reflexivity|]. apply Forall_app. split; [exact NE|]. repeat constructor. discriminate.
      * exists (wpieces 0 ws), (eofp tail). auto.
  - rewrite map_app, wpieces_tok, <- app_assoc. f_equal. unfold final, last_semi. unfold semi. destruct (rev ws) as [|w r]; [reflexivity|].
    destruct (mS && final_kind (w_kind w)); reflexivity.
Qed.

(** Spacing between any two tokens keeps them apart. *)
Theorem C08_written_tokens_read_back : forall tk old ws tail, tk_ok tk ->
  Forall byte (written_text ws tail) ->
  Forall (fun w => writable isL isD (w_kind w) (w_lit w) (w_text w)) ws ->
  well_spaced mS ws tail ->
  let src := written_text ws tail in
  Tokenize isL isD mC mS tk old src =
    TzOk (map (tk_scan tk) (tokens_from 0 ws ++ last_semi mS ws (S (length src)))) (mkTok EOF (S (length src)) []).
Proof.
  intros tk old ws tail Htk Hsrc HW (HT & HS & HG). apply C08_tokens_apart_read_back; auto.
  assert (HG' : Forall (fun w => w_gap w <> []) (tl ws)) by (destruct ws; [constructor|exact HG]).
  clear - HT HS HG'. induction ws as [|w r IH]; [exact Logic.I|]. inversion HS; subst. cbn [tl] in HG'. split.
  - apply Ap_space. apply spacing_ws in HT. destruct r as [|w2 r].
    + cbn. destruct tail as [|c t]; [exact Logic.I|]. inversion HT; subst. assumption.
    + unfold written_text. cbn [flat_map]. inversion HG'; subst. inversion H2 as [|? ? S3 _]; subst. apply spacing_ws in S3.
      destruct (w_gap w2) as [|c g]; [contradiction|]. inversion S3; subst. cbn. assumption.
  - apply IH; auto. destruct r; [constructor|]. inversion HG'; subst. assumption.
Qed.
End Write.

(** ** Instances *)
Lemma ok_bytes : forall l, forallb (fun b => (0 <=? b) && (b <? 256)) l = true -> Forall byte l.
Proof. intros l H. rewrite forallb_forall in H. apply Forall_forall. intros b Hb. specialize (H b Hb). unfold byte. apply andb_true_iff in H. rewrite Z.leb_le, Z.ltb_lt in H. lia. Qed.

(** a text with comments in mode, a byte order mark, a raw string and an inserted semicolon is correct... *)
Definition src67 : bytes := s2b "x := `q` + 08.5 // e".
Example C67_instance : exists ps, correct_text no_runes no_runes true true src67 ps /\
  map (fun p => tkind (p_tok p)) ps = [IDENT; DEFINE; STRING; ADD; FLOAT; SEMICOLON; COMMENT; EOF].
Proof.
  assert (T : exists toks eof, Tokenize no_runes no_runes true true Plain fresh src67 = TzOk toks eof /\
    map tkind (toks ++ [eof]) = [IDENT; DEFINE; STRING; ADD; FLOAT; SEMICOLON; COMMENT; EOF]).
  { eexists _, _. split; vm_compute; reflexivity. }
  destruct T as (toks & eof & T & K). apply C67_tokenize_accepts_iff in T; try reflexivity; [|apply ok_bytes; vm_compute; reflexivity].
  destruct T as (ps & ts & C & E & ->). exists ps. split; [exact C|]. rewrite <- map_map, E.
  assert (M : map (tk_scan Plain) ts = ts) by (rewrite map_ext with (g := fun x => x) by reflexivity; apply map_id).
  rewrite M in K. exact K.
Qed.
(** ...and a text with an octal number containing an 8 is not. *)
Example C67_instance_bad : ~ exists ps, correct_text no_runes no_runes true true (s2b "x := 08;") ps.
Proof.
  intros (ps & C). assert (B : Forall byte (s2b "x := 08;")) by (apply ok_bytes; vm_compute; reflexivity).
  destruct (ct_eof _ _ _ _ _ _ C) as (qs & e & E & _).
  assert (T : Tokenize no_runes no_runes true true Plain fresh (s2b "x := 08;") = TzOk (map (tk_scan Plain) (map p_tok qs)) (p_tok e)).
  { apply C67_tokenize_accepts_iff; try reflexivity; [exact B|]. exists ps, (map p_tok qs). split; [exact C|]. split; [rewrite E, map_app; reflexivity|reflexivity]. }
  vm_compute in T. discriminate.
Qed.

Definition written8 : list written :=
  [ mkWr [] IDENT (s2b "ab") (s2b "ab"); mkWr [32] ADD_ASSIGN [] (s2b "+="); mkWr [9; 32] INT (s2b "07") (s2b "07");
    mkWr [13] SEMICOLON [59] [59]; mkWr [32] STRING (34 :: [120; 92; 110] ++ [34]) (34 :: [120; 92; 110] ++ [34]);
    mkWr [32] CHAR (39 :: [195; 169] ++ [39]) (39 :: [195; 169] ++ [39]) ].
Example C08_instance : Forall (fun w => writable no_runes no_runes (w_kind w) (w_lit w) (w_text w)) written8 /\ well_spaced true written8 [32] /\
  tokens_from 0 written8 ++ last_semi true written8 22%nat =
    [mkTok IDENT 1 (s2b "ab"); mkTok ADD_ASSIGN 4 []; mkTok INT 8 (s2b "07"); mkTok SEMICOLON 11 [59];
     mkTok STRING 13 (34 :: [120; 92; 110] ++ [34]); mkTok CHAR 19 (39 :: [195; 169] ++ [39]); mkTok SEMICOLON 22 [10]].
Proof.
  split; [|split].
  - unfold written8. repeat match goal with |- Forall _ (_ :: _) => constructor | |- Forall _ [] => constructor end; cbn [w_kind w_lit w_text].
    + apply Wr_ident; [|apply clean_of_ascii; repeat constructor; lia]. split; [discriminate|]. split; [left; vm_compute; split; discriminate|].
      repeat (apply Chars_cons; [discriminate|left; left; vm_compute; split; discriminate|]; cbn). constructor.
    + apply Wr_op; [|discriminate]. apply op_in. vm_compute. tauto.
    + apply Wr_number.
      * change INT with (number_kind [] [] []). change (s2b "07") with ([48; 55] ++ [] ++ [] ++ []). apply Num_dec; try (left; reflexivity); [discriminate|].
        repeat constructor; unfold digit; lia.
      * intros _. split; [discriminate|]. split; [discriminate|]. intros (ds & X & _ & Y). injection X as <-. cbn in Y. intuition discriminate.
    + apply Wr_semi.
    + apply (Wr_string no_runes no_runes 2); [|apply clean_of_ascii; repeat constructor; lia].
      change [120; 92; 110] with ([120] ++ 92 :: [110] ++ []). apply GQ_char; try discriminate; try reflexivity. apply GQ_esc; [|constructor].
      constructor. cbn. tauto.
    + apply Wr_char.
      * change [195; 169] with ([195; 169] ++ []). apply GQ_char; try discriminate; try reflexivity. constructor.
      * change [195; 169] with (EncodeRune 233 ++ []). constructor; [unfold scalar; lia|constructor].
  - split; [|split]; unfold spacing, blank; repeat constructor; cbn; try discriminate; lia.
  - vm_compute. reflexivity.
Qed.

Print Assumptions C67_tokenize_accepts_iff.
Print Assumptions C67_silent_iff.
Print Assumptions C08_tokens_apart_read_back.
Print Assumptions C08_written_tokens_read_back.
