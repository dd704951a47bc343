(** Property C82: //line comments.
    Specification: [directive] below says what a //line comment is, on the text; the line of a position is counted from the last
    directive before it. *)
From Coq Require Import String.
From Verif Require Import Base Token Utf8 Utf8Proofs Scanner ScannerSpec ScannerProofs ScannerProofs2 ScannerProofs3 ScannerProofs4
  ScannerProofs5 ScanDet ScanRun ScanInit ScanObs ScanModes PropScan ScanLine.
Local Open Scope list_scope.
Local Open Scope Z_scope.

(** ** Specification *)
(** the line of [src] that starts at offset [o] *)
Definition line_at (src : bytes) (o : nat) (l : bytes) : Prop :=
  (o = 0%nat \/ exists p, o = S p /\ nth_error src p = Some 10) /\ ~ In 10 l /\
  exists r, skipn o src = l ++ r /\ (r = [] \/ exists r', r = 10 :: r').
(** a positive decimal number that fits an int, possibly with a plus sign *)
Definition decimal (t : bytes) (n : Z) : Prop :=
  exists ds, (t = ds \/ t = 43 :: ds) /\ ds <> [] /\ Forall digit ds /\ n = ScannerSpec.value 10 ds /\ 0 < n < 2 ^ 63.
(** the line at [o] reads //line [name]:[n], and [e] is where the next line starts *)
Definition directive (src : bytes) (o : nat) (name : bytes) (n : Z) (e : nat) : Prop :=
  exists num, line_at src o (s2b "//line " ++ name ++ [58] ++ num) /\ ~ In 58 num /\ decimal num n /\
    e = S (o + List.length (s2b "//line " ++ name ++ [58] ++ num)) /\ (e < List.length src)%nat.

(** go/token File.Line and Position: the line infos shift the lines after them *)
Definition info_at (l : list (nat * bytes * Z)) (o : nat) : option (nat * bytes * Z) := find (fun i => (fst (fst i) <=? o)%nat) l.
Definition file_position (name : bytes) (s : sc) (o : nat) : bytes * Z :=
  match info_at (infos s) o with
  | Some (a, f, n) => (f, n + (Z.of_nat (line_of (lines s) o) - Z.of_nat (line_of (lines s) a)))
  | None => (name, Z.of_nat (line_of (lines s) o))
  end.

(** ** The text of a comment *)
Lemma last_colon_spec : forall t, match last_colon t with
  | Some i => exists a b, t = a ++ 58 :: b /\ ~ In 58 b /\ List.length a = i | None => ~ In 58 t end.
Proof.
  induction t as [|c t IH]; cbn [last_colon]; [auto|]. destruct (last_colon t) as [i|].
  - destruct IH as (a & b & -> & Hb & <-). exists (c :: a), b. auto.
  - destruct (Z.eqb_spec c 58) as [->|H]; [exists [], t; auto|]. intros [X|X]; [congruence|contradiction].
Qed.
Lemma last_colon_at : forall a b, ~ In 58 b -> last_colon (a ++ 58 :: b) = Some (List.length a).
Proof.
  intros a b Hb. induction a as [|c a IH]; cbn [app last_colon].
  - pose proof (last_colon_spec b) as X. destruct (last_colon b) as [i|]; [|reflexivity]. destruct X as (x & y & -> & _). exfalso. apply Hb, in_or_app. right. left. reflexivity.
  - rewrite IH. reflexivity.
Qed.
Lemma digits_spec : forall t v, match digits v t with Some n => Forall digit t /\ n = fold_left (fun x d => x * 10 + hexval d) t v | None => ~ Forall digit t end.
Proof.
  induction t as [|c t IH]; intro v; cbn [digits]; [split; [constructor|reflexivity]|].
  destruct ((48 <=? c) && (c <=? 57)) eqn:E.
  - apply andb_true_iff in E. rewrite !Z.leb_le in E. specialize (IH (v * 10 + (c - 48))). assert (hexval c = c - 48) as H.
    { unfold hexval. destruct (Z.leb_spec c 57); lia. }
    cbn [fold_left]. rewrite H. destruct (digits _ t).
    + destruct IH as (I1 & I2). split; [constructor; auto; exact E|exact I2].
    + intro X. inversion X; subst. contradiction.
  - intro X. inversion X as [|? ? H]; subst. unfold digit in H. apply andb_false_iff in E. rewrite !Z.leb_gt in E. lia.
Qed.
Lemma posAtoi_spec : forall t n, posAtoi t = Some n <-> decimal t n.
Proof.
  intros t n. unfold posAtoi, decimal.
  set (ds := match t with 43 :: t' => t' | _ => t end).
  assert (D : forall x, (t = x \/ t = 43 :: x) -> Forall digit x -> x <> [] -> x = ds).
  { intros x [<-|E] F Hn; subst ds; [|rewrite E; reflexivity]. destruct t as [|c t]; [reflexivity|]. inversion F as [|? ? Hc]; subst. unfold digit in Hc.
    destruct (Z.eq_dec c 43) as [->|Hne]; [lia|]. destruct c as [|p|p]; try reflexivity. do 6 (destruct p as [p|p|]; try reflexivity). lia. }
  assert (D0 : t = ds \/ t = 43 :: ds).
  { subst ds. destruct t as [|c t]; [auto|]. destruct c as [|p|p]; auto. do 6 (destruct p as [p|p|]; auto). }
  clearbody ds. split.
  - intro H. exists ds. split; [exact D0|]. destruct ds as [|c d]; [discriminate|]. split; [discriminate|]. pose proof (digits_spec (c :: d) 0) as X.
    destruct (digits 0 (c :: d)) as [v|]; [|discriminate]. destruct X as (X1 & X2). destruct ((0 <? v) && (v <? 2 ^ 63)) eqn:B; [|discriminate]. injection H as <-.
    split; [exact X1|]. split; [exact X2|]. apply andb_true_iff in B. rewrite !Z.ltb_lt in B. exact B.
  - intros (x & Hx & Hn & F & Hv & B). pose proof (D x Hx F Hn) as E. subst x. destruct ds as [|c d]; [congruence|].
    pose proof (digits_spec (c :: d) 0) as X. destruct (digits 0 (c :: d)) as [v|]; [|contradiction]. destruct X as (_ & X2).
    change (ScannerSpec.value 10 (c :: d)) with (fold_left (fun x d => x * 10 + hexval d) (c :: d) 0) in Hv. rewrite <- X2 in Hv. subst v.
    replace ((0 <? n) && (n <? 2 ^ 63)) with true; [reflexivity|]. symmetry. apply andb_true_iff. rewrite !Z.ltb_lt. exact B.
Qed.
Lemma line_start_iff : forall src o, (o <= List.length src)%nat -> line_start src o = o <-> (o = 0%nat \/ exists p, o = S p /\ nth_error src p = Some 10).
Proof.
  intros src o Ho. destruct o as [|p]; [cbn; tauto|]. cbn [line_start].
  assert (L : forall k, (line_start src k <= k)%nat) by (induction k as [|k IH]; cbn; [lia|]; destruct (_ =? 10); lia).
  split.
  - intro H. right. exists p. split; [reflexivity|]. destruct (Z.eqb_spec (nth p src 0) 10) as [E|E]; [rewrite <- E; apply nth_error_nth'; lia|]. specialize (L p). lia.
  - intros [H|(q & E & H)]; [discriminate|]. injection E as <-. rewrite (nth_error_nth src p 0 H). reflexivity.
Qed.
Lemma line_text_spec : forall l, ~ In 10 (line_text l) /\ exists r, l = line_text l ++ r /\ (r = [] \/ exists r', r = 10 :: r').
Proof.
  induction l as [|c l (I1 & r & I2 & I3)]; cbn [line_text]; [split; [auto|exists []; auto]|]. destruct (Z.eqb_spec c 10) as [->|H].
  - split; [auto|]. exists (10 :: l). split; [reflexivity|]. right. eauto.
  - split; [intros [X|X]; [congruence|contradiction]|]. exists r. split; [cbn [app]; rewrite <- I2; reflexivity|exact I3].
Qed.
Lemma line_at_iff : forall src o l, (o <= List.length src)%nat -> (line_at src o l <-> line_start src o = o /\ l = line_text (skipn o src)).
Proof.
  intros src o l Ho. unfold line_at. rewrite <- line_start_iff by exact Ho. split.
  - intros (H1 & H2 & r & E & Hr). split; [exact H1|]. rewrite E. symmetry. apply line_text_app; assumption.
  - intros (H1 & ->). destruct (line_text_spec (skipn o src)) as (X & Y). auto.
Qed.
(** the infos after a comment at [o] *)
Lemma note_spec : forall src o l, (o <= List.length src)%nat ->
  (note src o l = l /\ forall nm n e, ~ directive src o nm n e) \/
  (exists nm n e, directive src o nm n e /\ (forall nm' n' e', directive src o nm' n' e' -> (nm', n', e') = (nm, n, e)) /\
     note src o l = if match l with [] => true | (o1, _, _) :: _ => (o1 <? e)%nat end then (e, nm, n) :: l else l).
Proof.
  intros src o l Ho. unfold note, interp_text. set (text := line_text (skipn o src)).
  destruct (Nat.eqb_spec (line_start src o) o) as [E|E].
  2: { left. split; [reflexivity|]. intros nm n e (num & L & _). apply line_at_iff in L; [|exact Ho]. destruct L. contradiction. }
  assert (P : forall nm num, s2b "//line " ++ nm ++ [58] ++ num = text -> beq (firstn 7 text) line_prefix = true) by (intros nm num <-; reflexivity).
  destruct (beq (firstn 7 text) line_prefix) eqn:B.
  2: { left. split; [reflexivity|]. intros nm n e (num & L & _). apply line_at_iff in L; [|exact Ho]. destruct L as (_ & L). apply P in L. discriminate. }
  apply beq_eq in B. assert (T : text = s2b "//line " ++ skipn 7 text) by (rewrite <- (firstn_skipn 7 text) at 1; rewrite B; reflexivity).
  assert (Q : forall nm num, s2b "//line " ++ nm ++ [58] ++ num = text -> ~ In 58 num -> last_colon text = Some (7 + List.length nm)%nat /\ skipn (S (7 + List.length nm)) text = num /\
     sub text 7 (7 + List.length nm) = nm).
  { intros nm num <- Hn. rewrite app_assoc. cbn [app]. rewrite (last_colon_at _ _ Hn), app_length. split; [reflexivity|]. split.
    - change (58 :: num) with ([58] ++ num). rewrite app_assoc. replace (S (7 + List.length nm)) with (List.length ((s2b "//line " ++ nm) ++ [58])) by (rewrite !app_length; cbn; lia).
      rewrite skipn_app, skipn_all, Nat.sub_diag. reflexivity.
    - unfold sub. replace (7 + List.length nm - 7)%nat with (List.length nm) by lia. rewrite <- app_assoc.
      change (skipn 7 (s2b "//line " ++ nm ++ 58 :: num)) with (nm ++ 58 :: num). rewrite firstn_app, firstn_all, Nat.sub_diag. cbn. apply app_nil_r. }
  pose proof (last_colon_spec text) as C. destruct (last_colon text) as [i|] eqn:Ec.
  2: { left. split; [reflexivity|]. intros nm n e (num & L & Hn & _). apply line_at_iff in L; [|exact Ho]. destruct L as (_ & L). destruct (Q _ _ L Hn). discriminate. }
  destruct C as (a & num & Et & Hn & La). assert (A : exists nm, a = s2b "//line " ++ nm).
  { assert (Hlen : (7 <= List.length a)%nat).
    { destruct (Nat.le_gt_cases 7 (List.length a)) as [|Hlt]; [assumption|]. exfalso.
      assert (X : nth (List.length a) text 0 = 58) by (rewrite Et, app_nth2, Nat.sub_diag by lia; reflexivity).
      rewrite T, app_nth1 in X by (cbn; lia). destruct (List.length a) as [|[|[|[|[|[|[|k]]]]]]]; try discriminate X. lia. }
    exists (skipn 7 a). rewrite <- (firstn_skipn 7 a) at 1. f_equal. rewrite Et, firstn_app in B. replace (7 - List.length a)%nat with 0%nat in B by lia. cbn [firstn] in B. rewrite app_nil_r in B. exact B. }
  destruct A as (nm & ->). assert (Et' : s2b "//line " ++ nm ++ [58] ++ num = text) by (rewrite Et, <- app_assoc; reflexivity).
  destruct (Q nm num Et' Hn) as (Q1 & Q2 & Q3). assert (Ei : i = (7 + List.length nm)%nat) by congruence. clear La. subst i. rewrite Q2, Q3.
  assert (U : forall nm' num', s2b "//line " ++ nm' ++ [58] ++ num' = text -> ~ In 58 num' -> nm' = nm /\ num' = num).
  { intros nm' num' Y Hn'. destruct (Q _ _ Y Hn') as (Y1 & Y2 & Y3). assert (Ey : List.length nm' = List.length nm) by (injection Y1; auto). rewrite Ey in Y2, Y3. split; congruence. }
  destruct (posAtoi num) as [n|] eqn:Ea.
  - pose proof Ea as Ha. apply posAtoi_spec in Ha. unfold AddLineInfo. destruct (Nat.ltb_spec (o + List.length text + 1) (List.length src)) as [Hl|Hl].
    + right. exists nm, n, (o + List.length text + 1)%nat. split; [|split].
      * exists num. split; [apply line_at_iff; [exact Ho|split; [exact E|exact Et']]|]. split; [exact Hn|]. split; [exact Ha|]. rewrite Et'. split; [lia|exact Hl].
      * intros nm' n' e' (num' & L & H1 & H2 & H3 & H4). apply line_at_iff in L; [|exact Ho]. destruct L as (_ & L). destruct (U _ _ L H1) as (-> & ->).
        apply posAtoi_spec in H2. assert (He : e' = (o + List.length text + 1)%nat) by (rewrite H3, Et'; lia). assert (En : n' = n) by congruence. rewrite He, En. reflexivity.
      * rewrite andb_true_r. reflexivity.
    + left. rewrite andb_false_r. split; [reflexivity|]. intros nm' n' e' (num' & L & H1 & H2 & H3 & H4). apply line_at_iff in L; [|exact Ho]. destruct L as (_ & L). fold text in L. rewrite L in H3. lia.
  - left. split; [reflexivity|]. intros nm' n' e' (num' & L & H1 & H2 & H3 & H4). apply line_at_iff in L; [|exact Ho]. destruct L as (_ & L). destruct (U _ _ L H1) as (-> & ->).
    apply posAtoi_spec in H2. congruence.
Qed.
Lemma nth_skip : forall (l : bytes) o k, nth_error l (o + k) = nth_error (skipn o l) k.
Proof. intros l o. revert l. induction o as [|o IH]; intros [|c l] k; cbn; auto. destruct k; reflexivity. Qed.
(** directives of different lines *)
Lemma directive_after : forall src o nm n e, directive src o nm n e -> (o < e < List.length src)%nat /\ nth_error src (e - 1) = Some 10 /\
  newlines (sub src o e) = 1%nat.
Proof.
  intros src o nm n e (num & (_ & Hn & r & Er & Hr) & _ & _ & He & Hl). set (l := s2b "//line " ++ nm ++ [58] ++ num) in *. clearbody l. split; [lia|].
  assert (Hlen : (o <= List.length src)%nat) by lia.
  destruct Hr as [->|(r' & ->)].
  - exfalso. pose proof (f_equal (@List.length Z) Er) as X. rewrite app_nil_r, skipn_length in X. lia.
  - split.
    + replace (e - 1)%nat with (o + List.length l)%nat by lia. rewrite nth_skip, Er, nth_error_app2, Nat.sub_diag by lia. reflexivity.
    + unfold sub. rewrite Er. replace (e - o)%nat with (List.length (l ++ [10])) by (rewrite app_length; cbn; lia).
      change (10 :: r') with ([10] ++ r'). rewrite app_assoc, firstn_app, firstn_all, Nat.sub_diag. cbn [firstn]. rewrite app_nil_r, newlines_app. cbn [newlines Z.eqb Pos.eqb].
      assert (N0 : forall x, ~ In 10 x -> newlines x = 0%nat).
      { induction x as [|c x IH]; intro H; [reflexivity|]. cbn [newlines]. destruct (Z.eqb_spec c 10) as [->|]; [exfalso; apply H; left; reflexivity|]. apply IH. intro. apply H. right. assumption. }
      rewrite (N0 l Hn). reflexivity.
Qed.
Lemma directive_order : forall src o nm n e o' nm' n' e', directive src o nm n e -> directive src o' nm' n' e' -> (o < o')%nat -> (e <= o')%nat.
Proof.
  intros src o nm n e o' nm' n' e' D D' H. pose proof (directive_after _ _ _ _ _ D') as (B' & _). destruct D' as (num' & (L' & _) & _).
  destruct D as (num & (_ & Hn & r & Er & Hr) & _ & _ & He & Hl). set (l := s2b "//line " ++ nm ++ [58] ++ num) in *.
  destruct (Nat.le_gt_cases e o') as [|Hlt]; [assumption|]. exfalso. destruct L' as [->|(p & -> & Hp)]; [lia|]. apply Hn.
  assert (X : nth_error l (p - o) = Some 10).
  { replace p with (o + (p - o))%nat in Hp by lia. rewrite nth_skip, Er, nth_error_app1 in Hp by lia. exact Hp. }
  eapply nth_error_In. exact X.
Qed.

(** ** The infos of a run *)
Definition comment_at (ts : list token) (o : nat) : Prop := exists t, In t ts /\ tkind t = COMMENT /\ o = (tpos t - 1)%nat.
Inductive falling : list (nat * bytes * Z) -> Prop :=
| fl_nil : falling []
| fl_cons : forall e nm n l, (forall e' nm' n', In (e', nm', n') l -> (e' < e)%nat) -> falling l -> falling ((e, nm, n) :: l).

Lemma notes_spec : forall src ts,
  (forall t, In t ts -> tkind t = COMMENT -> (1 <= tpos t <= S (List.length src))%nat) ->
  (forall l1 t1 l2 t2 l3, ts = l1 ++ t1 :: l2 ++ t2 :: l3 -> tkind t1 = COMMENT -> tkind t2 = COMMENT -> (tpos t1 < tpos t2)%nat) ->
  falling (fold_left (note_tok src) ts []) /\
  forall e nm n, In (e, nm, n) (fold_left (note_tok src) ts []) <-> exists o, comment_at ts o /\ directive src o nm n e.
Proof.
  intros src ts. induction ts as [|t ts IH] using rev_ind; intros Hp Ho.
  - split; [constructor|]. intros e nm n. split; [intros []|]. intros (o & (t & [] & _) & _).
  - destruct IH as (F & I).
    { intros u Hu. apply Hp, in_or_app. auto. }
    { intros l1 t1 l2 t2 l3 E. apply (Ho l1 t1 l2 t2 (l3 ++ [t])). rewrite E. rewrite <- !app_assoc. cbn [app]. rewrite <- !app_assoc. reflexivity. }
    rewrite fold_left_app. cbn [fold_left]. set (L := fold_left (note_tok src) ts []) in *. unfold note_tok.
    assert (Cm : forall o, comment_at (ts ++ [t]) o <-> comment_at ts o \/ (tkind t = COMMENT /\ o = (tpos t - 1)%nat)).
    { intro o. split.
      - intros (u & Hu & K & E). apply in_app_or in Hu. destruct Hu as [Hu|[<-|[]]]; [left; exists u; auto|right; auto].
      - intros [(u & Hu & K & E)|(K & E)]; [exists u|exists t]; (split; [apply in_or_app; cbn; auto|auto]). }
    destruct (Z.eqb_spec (tkind t) COMMENT) as [K|K].
    2: { split; [exact F|]. intros e nm n. rewrite I. split; intros (o & C & D); exists o; (split; [|exact D]); [apply Cm; auto|]. apply Cm in C. destruct C as [C|(X & _)]; [exact C|contradiction]. }
    pose proof (Hp t ltac:(apply in_or_app; cbn; auto) K) as Pt.
    assert (Before : forall e' nm' n', In (e', nm', n') L -> (e' <= tpos t - 1)%nat \/ forall nm n e, ~ directive src (tpos t - 1) nm n e).
    { intros e' nm' n' H. apply I in H. destruct H as (o & (u & Hu & Ku & ->) & D). apply in_split in Hu. destruct Hu as (l1 & l2 & ->).
      assert (Lt : (tpos u < tpos t)%nat) by (apply (Ho l1 u l2 t []); [rewrite <- app_assoc; reflexivity|exact Ku|exact K]).
      assert (Pu : (1 <= tpos u)%nat) by (apply Hp; [apply in_or_app; left; apply in_or_app; cbn; auto|exact Ku]).
      destruct (Nat.le_gt_cases e' (tpos t - 1)) as [|Hgt]; [left; assumption|]. right. intros nm n e D'. pose proof (directive_order _ _ _ _ _ _ _ _ _ D D' ltac:(lia)). lia. }
    destruct (note_spec src (tpos t - 1) L ltac:(lia)) as [(-> & N)|(nm & n & e & D & U & ->)].
    + split; [exact F|]. intros e nm n. rewrite I. split; intros (o & C & D); exists o; (split; [|exact D]); [apply Cm; auto|]. apply Cm in C. destruct C as [C|(_ & ->)]; [exact C|exfalso; eapply N; exact D].
    + pose proof (directive_after _ _ _ _ _ D) as (Be & _).
      assert (Lt : forall e' nm' n', In (e', nm', n') L -> (e' < e)%nat).
      { intros e' nm' n' H. destruct (Before _ _ _ H) as [X|X]; [lia|exfalso; eapply X; exact D]. }
      replace (match L with [] => true | (o1, _, _) :: _ => (o1 <? e)%nat end) with true.
      2: { symmetry. destruct L as [|[[o1 x] y] L']; [reflexivity|]. apply Nat.ltb_lt. eapply Lt. left. reflexivity. }
      split; [constructor; auto|]. intros e' nm' n'. split.
      * intros [X|X]; [injection X as <- <- <-; exists (tpos t - 1)%nat; split; [apply Cm; auto|exact D]|]. apply I in X. destruct X as (o & C & D'). exists o. split; [apply Cm; auto|exact D'].
      * intros (o & C & D'). apply Cm in C. destruct C as [C|(_ & ->)]; [right; apply I; eauto|]. left. apply U in D'. congruence.
Qed.

(** ** Runs *)
Section Runs.
Variables isL isD : Z -> bool.
Variable mS : bool.
Variable src : bytes.
Hypothesis Hsrc : Forall byte src.
Notation scans mC := (scans isL isD mC mS src).
Notation Scan mC := (Scan isL isD mC mS src).

Lemma scans_lo : forall mC n s, Inv src s -> Sinv mS s -> LO src s ->
  let s' := snd (scans mC n s) in Inv src s' /\ Sinv mS s' /\ LO src s'.
Proof.
  intros mC n s HI HS HL. cbv zeta. induction n as [|n (I1 & I2 & I3)]; [cbn; auto|]. rewrite scans_snoc. cbn [snd].
  set (s1 := snd (scans mC n s)) in *. destruct (scan_step isL isD mC mS src Hsrc s1 I1 I2) as (g & text & es & t & s' & E & ST & HS' & HI').
  rewrite E. cbn [snd]. split; [exact HI'|]. split; [exact HS'|]. exact (ext_lo _ _ _ _ _ (st_ext _ _ _ _ _ _ _ _ _ _ _ ST) I3).
Qed.
Lemma eof_infos : forall mC s, Inv src s -> Sinv mS s -> LO src s -> rest src s = [] -> isemi s = false ->
  exists t s', Scan mC s = (t, s') /\ infos s' = infos s /\ rest src s' = [] /\ isemi s' = false.
Proof.
  intros mC s HI HS HL Hr Hs. pose proof (scan_at_end isL isD true mS src Hsrc s HI HS Hr Hs) as (s1 & E1 & R1 & M1 & _).
  pose proof (scan_told isL isD mS src Hsrc s HI HS HL _ _ E1) as (T & _). unfold note_tok in T. cbn [tkind] in T.
  destruct (Scan_modes isL isD mS src Hsrc s _ s1 HI HS E1) as [(_ & E2)|(K & _)]; [|discriminate K].
  exists (mkTok EOF (S (List.length src)) []), s1. destruct mC; auto.
Qed.
Lemma eof_infos_n : forall mC m s, Inv src s -> Sinv mS s -> LO src s -> rest src s = [] -> isemi s = false -> infos (snd (scans mC m s)) = infos s.
Proof.
  intros mC m s HI HS HL Hr Hs. enough (X : infos (snd (scans mC m s)) = infos s /\ rest src (snd (scans mC m s)) = [] /\ isemi (snd (scans mC m s)) = false) by apply X.
  induction m as [|m (I1 & I2 & I3)]; [cbn; auto|]. rewrite scans_snoc. cbn [snd]. destruct (scans_lo mC m s HI HS HL) as (V1 & V2 & V3).
  destruct (eof_infos mC _ V1 V2 V3 I2 I3) as (t & s' & E & J1 & J2 & J3). rewrite E. cbn [snd]. rewrite J1. auto.
Qed.
Lemma init_all : forall old, Inv src (Init src old) /\ Sinv mS (Init src old) /\ LO src (Init src old).
Proof. intro old. destruct (init_spec mS src Hsrc old) as (b & _ & _ & _ & [A1 A2 _] & _). split; [exact A1|]. split; [exact A2|]. apply init_lo. exact Hsrc. Qed.
Lemma eof_state : forall mC old n ts t s, scans mC n (Init src old) = (ts ++ [t], s) -> tkind t = EOF ->
  Inv src s /\ Sinv mS s /\ LO src s /\ rest src s = [] /\ isemi s = false.
Proof.
  intros mC old n ts t s E K. destruct (init_all old) as (A1 & A2 & A3). destruct (scans_lo mC n _ A1 A2 A3) as (V1 & V2 & V3). rewrite E in *. cbn [snd] in *.
  split; [exact V1|]. split; [exact V2|]. split; [exact V3|]. destruct n as [|n]; [destruct ts; discriminate E|]. destruct (scans_lo mC n _ A1 A2 A3) as (W1 & W2 & _).
  rewrite scans_snoc in E. set (s1 := snd (scans mC n (Init src old))) in *. destruct (Scan mC s1) as [t1 s2] eqn:E1. cbn [fst snd] in E.
  injection E as E <-. apply app_inj_tail in E. destruct E as (_ & ->). destruct (scan_eof isL isD mC mS src Hsrc s1 W1 W2 t s2 E1 K) as (R & S & _). auto.
Qed.
Lemma same_infos : forall mC old n ts t s n' ts' t' s', scans mC n (Init src old) = (ts ++ [t], s) -> tkind t = EOF ->
  scans mC n' (Init src old) = (ts' ++ [t'], s') -> tkind t' = EOF -> infos s = infos s'.
Proof.
  assert (X : forall mC old n ts t s m, scans mC n (Init src old) = (ts ++ [t], s) -> tkind t = EOF -> infos (snd (scans mC (n + m) (Init src old))) = infos s).
  { intros mC old n ts t s m E K. rewrite scans_app, E. cbn [snd]. destruct (eof_state _ _ _ _ _ _ E K) as (A & B & C & D & F). apply eof_infos_n; assumption. }
  intros mC old n ts t s n' ts' t' s' E K E' K'. destruct (Nat.le_ge_cases n n') as [H|H].
  - specialize (X mC old n ts t s (n' - n)%nat E K). replace (n + (n' - n))%nat with n' in X by lia. rewrite E' in X. symmetry. exact X.
  - specialize (X mC old n' ts' t' s' (n - n')%nat E' K'). replace (n' + (n - n'))%nat with n in X by lia. rewrite E in X. exact X.
Qed.
End Runs.

(** The comments of a text: those of a scan that returns them. *)
Definition comments_of (isL isD : Z -> bool) (mS : bool) (src : bytes) (o : nat) : Prop :=
  exists n t, In t (fst (scans isL isD true mS src n (Init src fresh))) /\ tkind t = COMMENT /\ o = (tpos t - 1)%nat.
(** [d] is a //line comment of the text *)
Definition directive_of (isL isD : Z -> bool) (mS : bool) (src : bytes) (nm : bytes) (n : Z) (e : nat) : Prop :=
  exists o, comments_of isL isD mS src o /\ directive src o nm n e.

(** After scanning a text to its end, in any mode, the file has one line info for each //line comment, in order. *)
Theorem C82_infos : forall isL isD mC mS src old, Forall byte src -> forall k ts t s,
  scans isL isD mC mS src k (Init src old) = (ts ++ [t], s) -> tkind t = EOF ->
  falling (infos s) /\ forall e nm n, In (e, nm, n) (infos s) <-> directive_of isL isD mS src nm n e.
Proof.
  intros isL isD mC mS src old Hsrc k ts t s E K.
  destruct (C01_scan_reaches_eof isL isD true mS src old Hsrc) as (k' & us & u & s' & _ & E' & K' & _).
  assert (X : infos s = infos s').
  { destruct mC; [exact (same_infos isL isD mS src Hsrc true old _ _ _ _ _ _ _ _ E K E' K')|].
    destruct (C06_same_errors isL isD mS src old Hsrc k' us u s' E' K') as (m & vs & E2 & _). exact (same_infos isL isD mS src Hsrc false old _ _ _ _ _ _ _ _ E K E2 K'). }
  rewrite X. clear X E K k ts t s. destruct (init_all mS src Hsrc old) as (A1 & A2 & A3). destruct (init_lo src Hsrc old) as (_ & N).
  destruct (scans_told isL isD mS src Hsrc k' _ A1 A2 A3) as (T & _). rewrite E', N in T. cbn [fst snd] in T. rewrite T.
  pose proof (C04_positions isL isD true mS src old Hsrc k') as P. rewrite E' in P. cbn [fst] in P.
  destruct (notes_spec src (us ++ [u])) as (F & I).
  - intros v Hv Kv. apply in_split in Hv. destruct Hv as (l1 & l2 & Ev).
    destruct (C01_eof_stays isL isD true mS src old Hsrc k' us u s' E' K') as (Eu & _).
    assert (Hl : exists j w, (List.length l1 < j)%nat /\ nth_error (us ++ [u]) j = Some w).
    { destruct l2 as [|w l2]; [|exists (S (List.length l1)), w; split; [lia|]; rewrite Ev, nth_error_app2 by lia; replace (S (List.length l1) - List.length l1)%nat with 1%nat by lia; reflexivity].
      exfalso. apply app_inj_tail in Ev. destruct Ev as (_ & <-). rewrite K' in Kv. discriminate. }
    destruct Hl as (j & w & Hj & Hw). destruct (P (List.length l1) j v w Hj) as (P1 & P2 & _); [rewrite Ev, nth_error_app2, Nat.sub_diag by lia; reflexivity|exact Hw|]. lia.
  - intros l1 t1 l2 t2 l3 Ev K1 K2. destruct (P (List.length l1) (S (List.length l1 + List.length l2))%nat t1 t2) as (P1 & _ & P3); [lia| | |].
    + rewrite Ev, nth_error_app2, Nat.sub_diag by lia. reflexivity.
    + rewrite Ev, nth_error_app2 by lia. replace (S (List.length l1 + List.length l2) - List.length l1)%nat with (S (List.length l2)) by lia. cbn [nth_error].
      rewrite nth_error_app2, Nat.sub_diag by lia. reflexivity.
    + assert (tpos t1 <> tpos t2); [|lia]. intro Y. destruct (P3 Y) as [(Z1 & _)|(Z1 & _)]; rewrite K1 in Z1; discriminate.
  - split; [exact F|]. intros e nm n. rewrite I. split; intros (o & C & D); exists o; (split; [|exact D]).
    + destruct C as (v & Hv & Kv & ->). exists k', v. rewrite (C10_init_forgets isL isD true mS src fresh old k'), E'. auto.
    + destruct C as (m & v & Hv & Kv & ->). rewrite (C10_init_forgets isL isD true mS src fresh old m) in Hv. exists v. split; [|auto].
      destruct (C01_eof_stays isL isD true mS src old Hsrc k' us u s' E' K') as (Eu & St). destruct (Nat.le_ge_cases m k') as [H|H].
      * assert (Y : fst (scans isL isD true mS src k' (Init src old)) = us ++ [u]) by (rewrite E'; reflexivity). replace k' with (m + (k' - m))%nat in Y by lia.
        rewrite scans_app in Y. cbn [fst] in Y. rewrite <- Y. apply in_or_app. auto.
      * replace m with (k' + (m - k'))%nat in Hv by lia. rewrite scans_app, E' in Hv. cbn [fst snd] in Hv. destruct (St (m - k')%nat) as (s2 & E2 & _). rewrite E2 in Hv.
        cbn [fst] in Hv. apply in_app_or in Hv. destruct Hv as [Hv|Hv]; [exact Hv|]. apply repeat_spec in Hv. subst v. rewrite K' in Kv. discriminate.
Qed.

(** ** Positions *)
Lemma info_at_spec : forall l o, falling l -> match info_at l o with
  | Some (a, f, n) => In (a, f, n) l /\ (a <= o)%nat /\ forall a' f' n', In (a', f', n') l -> (a' <= o)%nat -> (a' <= a)%nat
  | None => forall a f n, In (a, f, n) l -> (o < a)%nat
  end.
Proof.
  intros l o F. induction F as [|e nm n l H F IH]; cbn [info_at find fst]; [intros ? ? ? []|]. destruct (Nat.leb_spec e o) as [E|E].
  - split; [left; reflexivity|]. split; [exact E|]. intros a' f' n' [X|X] _; [injection X as <- <- <-; lia|]. specialize (H _ _ _ X). lia.
  - unfold info_at in IH. destruct (find _ l) as [[[a f] m]|].
    + destruct IH as (I1 & I2 & I3). split; [right; exact I1|]. split; [exact I2|]. intros a' f' n' [X|X] Ha; [injection X as <- <- <-; lia|]. eapply I3; eauto.
    + intros a f m [X|X]; [injection X as <- <- <-; exact E|]. eapply IH; exact X.
Qed.
Lemma newlines_between : forall (l : bytes) a o, (a <= o)%nat -> (newlines (firstn a l) + newlines (sub l a o))%nat = newlines (firstn o l).
Proof.
  intros l a o H. rewrite <- newlines_app. f_equal. unfold sub. replace o with (a + (o - a))%nat at 2 by lia. generalize (o - a)%nat. clear H o. intro k.
  revert l. induction a as [|a IH]; intros [|c l]; cbn; try rewrite firstn_nil; auto. f_equal. apply IH.
Qed.

(** The position of an offset: counted from the beginning of the file, or from the last //line comment above it. *)
Theorem C82_position : forall isL isD mC mS src old, Forall byte src -> forall k ts t s,
  scans isL isD mC mS src k (Init src old) = (ts ++ [t], s) -> tkind t = EOF -> forall name o, (o < List.length src)%nat ->
  ((forall nm n e, directive_of isL isD mS src nm n e -> (o < e)%nat) -> file_position name s o = (name, 1 + Z.of_nat (newlines (firstn o src)))) /\
  (forall nm n e, directive_of isL isD mS src nm n e -> (e <= o)%nat ->
     (forall nm' n' e', directive_of isL isD mS src nm' n' e' -> (e' <= o)%nat -> (e' <= e)%nat) ->
     file_position name s o = (nm, n + Z.of_nat (newlines (sub src e o)))).
Proof.
  intros isL isD mC mS src old Hsrc k ts t s E K name o Ho. destruct (C82_infos isL isD mC mS src old Hsrc k ts t s E K) as (F & I).
  destruct (C15_line_table isL isD mC mS src old Hsrc k ts t s E K) as (_ & L). pose proof (info_at_spec (infos s) o F) as X. unfold file_position.
  assert (U : forall e a b c d, In (e, a, b) (infos s) -> In (e, c, d) (infos s) -> (a, b) = (c, d)).
  { clear - F. intros e a b c d. induction F as [|e0 nm n l H F IH]; [intros []|]. intros [X|X] [Y|Y].
    - congruence.
    - injection X as -> -> ->. specialize (H _ _ _ Y). lia.
    - injection Y as -> -> ->. specialize (H _ _ _ X). lia.
    - auto. }
  rewrite (L o Ho). split.
  - intro N. destruct (info_at (infos s) o) as [[[a f] n]|]; [|f_equal; lia]. destruct X as (X1 & X2 & _). apply I in X1. specialize (N _ _ _ X1). lia.
  - intros nm n e D He M. apply I in D. destruct (info_at (infos s) o) as [[[a f] m]|]; [|specialize (X _ _ _ D); lia].
    destruct X as (X1 & X2 & X3). specialize (X3 _ _ _ D He). apply I in X1 as X1'. specialize (M _ _ _ X1' X2). assert (a = e) by lia. subst a.
    pose proof (U _ _ _ _ _ X1 D) as Y. injection Y as -> ->. rewrite (L e) by lia. f_equal. pose proof (newlines_between src e o He). lia.
Qed.

(** Without //line comments: the line is one more than the number of newlines above. *)
Theorem C82_no_comment : forall isL isD mC mS src old, Forall byte src -> forall k ts t s,
  scans isL isD mC mS src k (Init src old) = (ts ++ [t], s) -> tkind t = EOF ->
  (forall o l, line_at src o l -> forall r, l <> s2b "//line " ++ r) -> forall name o, (o < List.length src)%nat ->
  file_position name s o = (name, 1 + Z.of_nat (newlines (firstn o src))).
Proof.
  intros isL isD mC mS src old Hsrc k ts t s E K H name o Ho. apply (C82_position isL isD mC mS src old Hsrc k ts t s E K name o Ho).
  intros nm n e (c & _ & num & L & _). exfalso. eapply H; [exact L|]. reflexivity.
Qed.

(** //line comments have no effect in a file with CRLF line ends. *)
Theorem C82_crlf : forall isL isD mC mS src old, Forall byte src -> forall k ts t s,
  scans isL isD mC mS src k (Init src old) = (ts ++ [t], s) -> tkind t = EOF ->
  (forall p, nth_error src p = Some 10 -> exists q, p = S q /\ nth_error src q = Some 13) -> forall name o, (o < List.length src)%nat ->
  file_position name s o = (name, 1 + Z.of_nat (newlines (firstn o src))).
Proof.
  intros isL isD mC mS src old Hsrc k ts t s E K H name o Ho. apply (C82_position isL isD mC mS src old Hsrc k ts t s E K name o Ho).
  intros nm n e (c & _ & D). exfalso. destruct (directive_after _ _ _ _ _ D) as (B & N & _). destruct D as (num & (_ & Hn & r & Er & Hr) & _ & (ds & Hd & Hne & F & _) & He & _).
  destruct (H _ N) as (q & Eq & Hq). set (l := s2b "//line " ++ nm ++ [58] ++ num) in *.
  assert (X : nth_error l (List.length l - 1) = Some 13).
  { assert (Hp : (0 < List.length l)%nat) by (subst l; rewrite app_length; cbn; lia). replace q with (c + (List.length l - 1))%nat in Hq by lia.
    rewrite nth_skip, Er, nth_error_app1 in Hq by lia. exact Hq. }
  assert (Y : exists d x, digit d /\ l = x ++ [d]).
  { destruct (exists_last Hne) as (x & d & ->). apply Forall_app in F. destruct F as (_ & F). inversion F; subst. exists d. unfold l. destruct Hd as [->| ->].
    - exists (s2b "//line " ++ nm ++ [58] ++ x). rewrite <- !app_assoc. cbn [app]. split; [assumption|reflexivity].
    - exists (s2b "//line " ++ nm ++ [58; 43] ++ x). rewrite <- !app_assoc. cbn [app]. split; [assumption|reflexivity]. }
  destruct Y as (d & x & Dd & El). rewrite El, app_length in X. cbn [List.length] in X. replace (List.length x + 1 - 1)%nat with (List.length x) in X by lia.
  rewrite nth_error_app2, Nat.sub_diag in X by lia. cbn in X. injection X as ->. unfold digit in Dd. lia.
Qed.

(** ** FileLine *)
(** grammar.go:77-84 FileLine of a range that starts at position [pos], with the name of the file: f.Name(), f.Line(pos) *)
Definition FileLine (name : bytes) (s : sc) (pos : nat) : bytes * Z := (name, snd (file_position name s (pos - 1))).

(** FileLine gives the line of the directive, but never its file name. *)
Theorem C82_FileLine : forall isL isD mC mS src old, Forall byte src -> forall k ts t s,
  scans isL isD mC mS src k (Init src old) = (ts ++ [t], s) -> tkind t = EOF -> forall name u, In u ts -> (tpos u <= List.length src)%nat ->
  forall nm n e, directive_of isL isD mS src nm n e -> (e < tpos u)%nat ->
    (forall nm' n' e', directive_of isL isD mS src nm' n' e' -> (e' < tpos u)%nat -> (e' <= e)%nat) ->
  FileLine name s (tpos u) = (name, n + Z.of_nat (newlines (sub src e (tpos u - 1)))).
Proof.
  intros isL isD mC mS src old Hsrc k ts t s E K name u Hu Hl nm n e D He M. unfold FileLine. f_equal.
  destruct (C82_position isL isD mC mS src old Hsrc k ts t s E K name (tpos u - 1) ltac:(lia)) as (_ & X).
  rewrite (X nm n e D ltac:(lia)); [reflexivity|]. intros nm' n' e' D' H'. apply (M nm' n' e' D'). lia.
Qed.
Definition text_line : bytes := s2b "a
/* //line x:9
*/ //line y:8
//line gen.tpl:42
b
//line c:d:+7
  // z
c
//line :0
d".
Definition text_file : sc := snd (scans no_runes no_runes false true text_line 9 (Init text_line fresh)).
Theorem C82_FileLine_refuted : exists src s ts t u name, Forall byte src /\ scans no_runes no_runes false true src (S (List.length ts)) (Init src fresh) = (ts ++ [t], s) /\
  tkind t = EOF /\ In u ts /\ FileLine name s (tpos u) <> file_position name s (tpos u - 1).
Proof.
  set (r := scans no_runes no_runes false true text_line 9 (Init text_line fresh)).
  exists text_line, text_file, (removelast (fst r)), (last (fst r) (mkTok 0 0 [])), (nth 2 (fst r) (mkTok 0 0 [])), (s2b "f").
  split; [repeat constructor; unfold byte; lia|]. split; [vm_compute; reflexivity|]. split; [vm_compute; reflexivity|]. split; [vm_compute; tauto|]. vm_compute. discriminate.
Qed.

(** ** Instances *)
Example C82_instance : map tkind (fst (scans no_runes no_runes false true text_line 9 (Init text_line fresh))) =
    [IDENT; SEMICOLON; IDENT; SEMICOLON; IDENT; SEMICOLON; IDENT; SEMICOLON; EOF] /\
  infos text_file = [(64%nat, s2b "c:d", 7); (48%nat, s2b "gen.tpl", 42)] /\
  map (fun u => file_position (s2b "f") text_file (tpos u - 1)) (fst (scans no_runes no_runes false true text_line 8 (Init text_line fresh))) =
    [(s2b "f", 1); (s2b "f", 1); (s2b "gen.tpl", 42); (s2b "gen.tpl", 42); (s2b "c:d", 8); (s2b "c:d", 8); (s2b "c:d", 10); (s2b "c:d", 10)].
Proof. vm_compute. repeat split. Qed.
Lemma text_run : exists ts t, scans no_runes no_runes false true text_line 9 (Init text_line fresh) = (ts ++ [t], text_file) /\ tkind t = EOF.
Proof.
  exists (removelast (fst (scans no_runes no_runes false true text_line 9 (Init text_line fresh)))),
    (last (fst (scans no_runes no_runes false true text_line 9 (Init text_line fresh))) (mkTok 0 0 [])).
  split; vm_compute; reflexivity.
Qed.
(** the //line comments of the text are the two above: not the one in a block comment, not the one behind it, not the one with line 0 *)
Example C82_directives : forall nm n e, directive_of no_runes no_runes true text_line nm n e <->
  (e, nm, n) = (64%nat, s2b "c:d", 7) \/ (e, nm, n) = (48%nat, s2b "gen.tpl", 42).
Proof.
  intros nm n e. assert (B : Forall byte text_line) by (repeat constructor; unfold byte; lia).
  destruct text_run as (ts & t & E & K). destruct (C82_infos no_runes no_runes false true text_line fresh B 9 ts t text_file E K) as (_ & I). rewrite <- I.
  rewrite (proj1 (proj2 C82_instance)). cbn [In]. intuition congruence.
Qed.
Definition text_crlf : bytes := s2b "//line g:42" ++ [13; 10] ++ s2b "b".
Example C82_crlf_instance : Forall byte text_crlf /\ (forall p, nth_error text_crlf p = Some 10 -> exists q, p = S q /\ nth_error text_crlf q = Some 13) /\
  (let r := scans no_runes no_runes false true text_crlf 3 (Init text_crlf fresh) in map tkind (fst r) = [IDENT; SEMICOLON; EOF] /\
   file_position (s2b "f") (snd r) 13 = (s2b "f", 2)).
Proof.
  split; [repeat constructor; unfold byte; lia|]. split; [|vm_compute; auto]. intros p H.
  assert (Hp : (p < List.length text_crlf)%nat) by (apply nth_error_Some; congruence). change (List.length text_crlf) with 14%nat in Hp.
  do 14 (destruct p as [|p]; [try discriminate H; try (eexists; split; [reflexivity|reflexivity])|]). lia.
Qed.

Print Assumptions C82_infos.
Print Assumptions C82_position.
Print Assumptions C82_no_comment.
Print Assumptions C82_crlf.
Print Assumptions C82_FileLine.
Print Assumptions C82_FileLine_refuted.
