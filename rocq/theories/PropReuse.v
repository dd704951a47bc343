(** Property C87: Source, FileLine and the texts of errors speak about the text scanned last.
    Specification: [last_text] is the last text of a history; [line_in] says which line a position has in a text, with its //line comments. *)
From Coq Require Import String.
From Verif Require Import Base Token Utf8 Utf8Proofs Scanner ScannerSpec ScannerProofs ScannerProofs2 ScannerProofs3 ScannerProofs4
  ScannerProofs5 ScanDet ScanRun ScanInit ScanObs ScanModes PropScan ScanLine PropLine Tokenize TokenizeProofs Grammar Matcher PropMatcher Reuse.
Local Open Scope list_scope. Local Open Scope Z_scope.

(** ** Specification *)
Fixpoint last_text (es : list event) (d : bytes * bytes) : bytes * bytes :=
  match es with [] => d | EText _ name src :: es' => last_text es' (name, src) | ETokens _ :: es' => last_text es' d end.
(** the line of the position [p] (counted from 1) of [src] *)
Definition line_in (isL isD : Z -> bool) (mS : bool) (src : bytes) (p : nat) (line : Z) : Prop :=
  ((forall nm n e, directive_of isL isD mS src nm n e -> (p <= e)%nat) -> line = 1 + Z.of_nat (newlines (firstn (p - 1) src))) /\
  (forall nm n e, directive_of isL isD mS src nm n e -> (e < p)%nat ->
     (forall nm' n' e', directive_of isL isD mS src nm' n' e' -> (e' < p)%nat -> (e' <= e)%nat) ->
     line = n + Z.of_nat (newlines (sub src e (p - 1)))).

(** ** What is kept *)
Lemma fold_held : forall isL isD mC mS es h, h_name (after isL isD mC mS h es) = fst (last_text es (h_name h, h_text h)) /\
  h_text (after isL isD mC mS h es) = snd (last_text es (h_name h, h_text h)).
Proof.
  intros isL isD mC mS. induction es as [|e es IH]; intro h; [split; reflexivity|]. unfold after. cbn [fold_left]. fold (after isL isD mC mS (happen isL isD mC mS h e) es).
  destruct (IH (happen isL isD mC mS h e)) as (-> & ->). destruct e; split; reflexivity.
Qed.
Lemma state_init : forall isL isD mC mS tk old old' src, state_after isL isD mC mS tk old src = state_after isL isD mC mS tk old' src.
Proof. intros. unfold state_after. change (Init src old) with (Init src old'). reflexivity. Qed.
Lemma fold_tokens : forall isL isD mC mS es h, Forall (fun e => exists d, e = ETokens d) es -> after isL isD mC mS h es = h.
Proof. intros isL isD mC mS es h H. revert h. induction H as [|e es (d & ->) _ IH]; intro h; [reflexivity|]. exact (IH h). Qed.
(** Only the last text scanned counts: not what was scanned before it, and not the tokens matched since. *)
Theorem C87_history : forall isL isD mC mS h1 h2 es1 es2 tk name src later, Forall (fun e => exists d, e = ETokens d) later ->
  after isL isD mC mS h1 (es1 ++ EText tk name src :: later) = after isL isD mC mS h2 (es2 ++ [EText tk name src]) /\
  h_name (after isL isD mC mS h1 (es1 ++ EText tk name src :: later)) = name /\ h_text (after isL isD mC mS h1 (es1 ++ EText tk name src :: later)) = src.
Proof.
  intros isL isD mC mS h1 h2 es1 es2 tk name src later H.
  assert (E : forall h es, after isL isD mC mS h (es ++ EText tk name src :: later) = mkHeld name src (state_after isL isD mC mS tk fresh src)).
  { intros h es. unfold after. rewrite fold_left_app. cbn [fold_left]. fold (after isL isD mC mS (happen isL isD mC mS (fold_left (happen isL isD mC mS) es h) (EText tk name src)) later).
    rewrite fold_tokens by exact H. reflexivity. }
  rewrite E. split; [|split; reflexivity]. unfold after. rewrite fold_left_app. reflexivity.
Qed.

(** ** The state of the scanner *)
Lemma state_scans : forall isL isD mC mS src tk, tk_ok tk -> forall n s acc ts eof, tz_loop isL isD mC mS src tk n s acc = TzOk ts eof ->
  exists k ts0 t0, scans isL isD mC mS src (S k) s = (ts0 ++ [t0], tz_state isL isD mC mS src tk n s) /\ tkind t0 = EOF.
Proof.
  intros isL isD mC mS src tk Htk. induction n as [|n IH]; intros s acc ts eof H; [discriminate|]. cbn [tz_loop tz_state] in *.
  destruct (Scan isL isD mC mS src s) as [t0 s1] eqn:E. destruct (rev (errs s1)); [|discriminate].
  destruct (tkind (tk_scan tk t0) =? EOF) eqn:K.
  - exists 0%nat, [], t0. cbn [scans]. rewrite E. split; [reflexivity|]. rewrite tk_scan_eof in K by exact Htk. apply Z.eqb_eq in K. exact K.
  - destruct (IH _ _ _ _ H) as (k & ts0 & t1 & H1 & H2). exists (S k), (t0 :: ts0), t1. split; [|exact H2].
    change (scans isL isD mC mS src (S (S k)) s) with (let '(t, s1) := Scan isL isD mC mS src s in let '(ts, s2) := scans isL isD mC mS src (S k) s1 in (t :: ts, s2)).
    rewrite E, H1. reflexivity.
Qed.
(** the line of a position behind no end of the text *)
Lemma line_now : forall isL isD mC mS tk old name src ts eof, Forall byte src -> tk_ok tk -> Tokenize isL isD mC mS tk old src = TzOk ts eof ->
  forall p, (1 <= p <= length src)%nat -> exists line, LineNow (mkHeld name src (state_after isL isD mC mS tk old src)) p = Val line /\ line_in isL isD mS src p line.
Proof.
  intros isL isD mC mS tk old name src ts eof B K T p Hp. unfold Tokenize in T.
  destruct (state_scans isL isD mC mS src (tk_init tk) (tk_ok_init tk K) _ _ _ _ _ T) as (k & ts0 & t0 & E & Ek).
  fold (state_after isL isD mC mS tk old src) in E.
  unfold LineNow, Offset. cbn [h_text h_name h_sc]. replace ((1 <=? p) && (p <=? S (length src)))%nat with true by (symmetry; apply andb_true_iff; split; apply Nat.leb_le; lia).
  cbn [bindm]. eexists. split; [reflexivity|].
  destruct (C82_position isL isD mC mS src old B (S k) ts0 t0 _ E Ek name (p - 1) ltac:(lia)) as (H1 & H2). split.
  - intro H. rewrite H1; [reflexivity|]. intros nm n e He. specialize (H nm n e He). lia.
  - intros nm n e He Hlt Hmax. rewrite (H2 nm n e He ltac:(lia)); [reflexivity|]. intros nm' n' e' He' Hle. apply (Hmax nm' n' e' He'). lia.
Qed.

(** ** Source *)
(** Tokens of the text [A], asked for while the last text is [B]: Source gives that range of [B], or panics if [B] ends before the range. *)
Theorem C87_source : forall isL isD mC mS tk old A ts eof, Forall byte A -> tk_ok tk -> Tokenize isL isD mC mS tk old A = TzOk ts eof ->
  forall h i j a b, (i < j)%nat -> nth_error (ts ++ [eof]) i = Some a -> nth_error (ts ++ [eof]) j = Some b ->
  SourceNow h (ts ++ [eof]) i j = if (tpos b <=? S (length (h_text h)))%nat then Val (sub (h_text h) (tpos a - 1) (tpos b - 1)) else Crash.
Proof.
  intros isL isD mC mS tk old A ts eof HA K T h i j a b Hij Ha Hb.
  destruct (tz_positions isL isD mC mS A HA tk K old ts eof T i j a b ltac:(lia) Ha Hb) as (P1 & P2).
  unfold SourceNow, Source. destruct (Nat.eqb_spec i j) as [->|_]; [lia|]. rewrite Ha, Hb. unfold Offset.
  replace (1 <=? tpos a)%nat with true by (symmetry; apply Nat.leb_le; lia). replace (1 <=? tpos b)%nat with true by (symmetry; apply Nat.leb_le; lia). cbn [andb].
  destruct (Nat.leb_spec (tpos b) (S (length (h_text h)))) as [L|L].
  - replace (tpos a <=? S (length (h_text h)))%nat with true by (symmetry; apply Nat.leb_le; lia). cbn [bindm]. unfold slice.
    replace ((tpos a - 1 <=? tpos b - 1) && (tpos b - 1 <=? length (h_text h)))%nat with true by (symmetry; apply andb_true_iff; split; apply Nat.leb_le; lia). reflexivity.
  - destruct (tpos a <=? S (length (h_text h)))%nat; reflexivity.
Qed.
Lemma nth_sub : forall (l : bytes) i j k, (k < j - i)%nat -> nth_error (sub l i j) k = nth_error l (i + k).
Proof.
  intros l i j k Hk. unfold sub. generalize dependent (j - i)%nat. intros m Hm. revert l. induction i as [|i IH]; intro l.
  - cbn [skipn Nat.add]. revert k Hm l. induction m as [|m IH]; intros k Hm l; [lia|]. destruct l as [|x l]; [destruct k; reflexivity|].
    destruct k as [|k]; [reflexivity|]. cbn. apply IH. lia.
  - destruct l as [|x l]; [cbn; rewrite firstn_nil; destruct k; reflexivity|]. cbn [skipn Nat.add nth_error]. apply IH.
Qed.
Lemma nth_all : forall (l l' : bytes), (forall k, nth_error l k = nth_error l' k) -> l = l'.
Proof.
  induction l as [|x l IH]; intros [|y l'] H; [reflexivity|discriminate (H 0%nat)|discriminate (H 0%nat)|].
  pose proof (H 0%nat) as H0. cbn in H0. injection H0 as ->. f_equal. apply IH. intro k. exact (H (S k)).
Qed.
Lemma sub_eq : forall (A B : bytes) i j, sub A i j = sub B i j <-> forall k, (i <= k < j)%nat -> nth_error A k = nth_error B k.
Proof.
  intros A B i j. split.
  - intros E k Hk. replace k with (i + (k - i))%nat by lia. rewrite <- !(nth_sub _ i j) by lia. rewrite E. reflexivity.
  - intro H. apply nth_all. intro k. destruct (Nat.lt_ge_cases k (j - i)) as [L|L].
    + rewrite !nth_sub by exact L. apply H. lia.
    + rewrite !(proj2 (nth_error_None _ _)); [reflexivity| |]; unfold sub; rewrite firstn_length; lia.
Qed.
(** It is the text that the tokens were scanned from exactly when the last text has the same bytes there. *)
Theorem C87_source_right : forall isL isD mC mS tk old A ts eof, Forall byte A -> tk_ok tk -> Tokenize isL isD mC mS tk old A = TzOk ts eof ->
  forall h i j a b, (i < j)%nat -> nth_error (ts ++ [eof]) i = Some a -> nth_error (ts ++ [eof]) j = Some b ->
  (SourceNow h (ts ++ [eof]) i j = Val (sub A (tpos a - 1) (tpos b - 1)) <->
   (tpos b <= S (length (h_text h)))%nat /\ forall k, (tpos a - 1 <= k < tpos b - 1)%nat -> nth_error (h_text h) k = nth_error A k).
Proof.
  intros isL isD mC mS tk old A ts eof HA K T h i j a b Hij Ha Hb. rewrite (C87_source isL isD mC mS tk old A ts eof HA K T h i j a b Hij Ha Hb).
  rewrite <- sub_eq. destruct (Nat.leb_spec (tpos b) (S (length (h_text h)))) as [L|L]; split.
  - intro H. injection H as H. auto.
  - intros (_ & ->). reflexivity.
  - discriminate.
  - intros (H & _). lia.
Qed.
(** In particular: whatever tokens are matched in between, as long as no other text is scanned. *)
Theorem C87_source_kept : forall isL isD mC mS tk name A h es, Forall byte A -> tk_ok tk -> forall old ts eof, Tokenize isL isD mC mS tk old A = TzOk ts eof ->
  Forall (fun e => (exists d, e = ETokens d) \/ (exists tk' nm, e = EText tk' nm A)) es ->
  forall i j a b, (i < j)%nat -> nth_error (ts ++ [eof]) i = Some a -> nth_error (ts ++ [eof]) j = Some b ->
  SourceNow (after isL isD mC mS h (EText tk name A :: es)) (ts ++ [eof]) i j = Val (sub A (tpos a - 1) (tpos b - 1)).
Proof.
  intros isL isD mC mS tk name A h es HA K old ts eof T F i j a b Hij Ha Hb.
  apply (C87_source_right isL isD mC mS tk old A ts eof HA K T _ i j a b Hij Ha Hb).
  assert (E : h_text (after isL isD mC mS h (EText tk name A :: es)) = A).
  { rewrite (proj2 (fold_held isL isD mC mS _ _)). cbn [last_text]. clear - F. revert name. induction F as [|e es [(d & ->)|(tk' & nm & ->)] _ IH]; intro name; [reflexivity|exact (IH name)|exact (IH nm)]. }
  rewrite E. destruct (tz_positions isL isD mC mS A HA tk K old ts eof T i j a b ltac:(lia) Ha Hb) as (_ & P). split; [exact P|reflexivity].
Qed.

(** ** FileLine and RuntimeError *)
(** Without tokens nothing is asked of the last text: line 0 of no file (nothing at all without a context), and no source. *)
Theorem C87_no_tokens : forall h, FileLineNow h [] = Val ([], 0) /\ RuntimeErrorNow true h [] = Val (Some (None, 0)) /\
  (forall src, RuntimeErrorNow false h src = Val None) /\ (forall arr i, SourceNow h arr i i = Val []).
Proof. intro h. repeat split. intros arr i. unfold SourceNow, Source. rewrite Nat.eqb_refl. reflexivity. Qed.
(** The name and the line are those of the last text, [B], whatever text the token is from. *)
Theorem C87_file_line : forall isL isD mC mS h es tk name B later old ts eof, Forall byte B -> tk_ok tk -> Tokenize isL isD mC mS tk old B = TzOk ts eof ->
  Forall (fun e => exists d, e = ETokens d) later -> forall a r, (1 <= tpos a)%nat ->
  let now := after isL isD mC mS h (es ++ EText tk name B :: later) in
  ((tpos a <= length B)%nat -> exists line, line_in isL isD mS B (tpos a) line /\ FileLineNow now (a :: r) = Val (name, line) /\
     RuntimeErrorNow true now (a :: r) = Val (Some (match name with [] => None | _ => Some name end, line))) /\
  (FileLineNow now (a :: r) = Crash <-> (S (length B) < tpos a)%nat) /\ (RuntimeErrorNow true now (a :: r) = Crash <-> (S (length B) < tpos a)%nat).
Proof.
  intros isL isD mC mS h es tk name B later old ts eof HB K T L a r Ha now. subst now.
  rewrite (proj1 (C87_history isL isD mC mS h h es [] tk name B later L)). cbn [app]. unfold after. cbn [fold_left happen].
  assert (X : forall s, (tpos a <= S (length B))%nat <-> LineNow (mkHeld name B s) (tpos a) <> Crash).
  { intro s. unfold LineNow, Offset. cbn [h_text]. replace (1 <=? tpos a)%nat with true by (symmetry; apply Nat.leb_le; lia). cbn [andb].
    destruct (Nat.leb_spec (tpos a) (S (length B))); cbn [bindm]; split; try lia; try congruence. }
  rewrite (state_init isL isD mC mS tk (h_sc h) old B). specialize (X (state_after isL isD mC mS tk old B)). split.
  - intro Hl. destruct (line_now isL isD mC mS tk old name B ts eof HB K T (tpos a) (conj Ha Hl)) as (line & E & Hline). exists line. split; [exact Hline|].
    unfold RuntimeErrorNow, FileLineNow. rewrite E. cbn [bindm h_name fst snd]. split; [reflexivity|destruct name; reflexivity].
  - unfold RuntimeErrorNow, FileLineNow. destruct (LineNow _ (tpos a)) as [n|]; cbn [bindm]; split; split; try discriminate; intro; try reflexivity; try (assert (tpos a <= S (length B))%nat by (apply X; discriminate); lia).
    all: destruct (Nat.le_gt_cases (tpos a) (S (length B))) as [G|G]; [apply X in G; congruence|exact G].
Qed.

(** ** The text of a MatchError *)
Lemma eof_pos : forall isL isD mC mS tk old A ts eof, Forall byte A -> tk_ok tk -> Tokenize isL isD mC mS tk old A = TzOk ts eof -> tpos eof = S (length A).
Proof.
  intros isL isD mC mS tk old A ts eof HA K T. destruct (tz_run isL isD mC mS A HA tk K old ts eof T) as (n & ts0 & s' & E & _ & Ke & _).
  destruct (after_eof isL isD mC mS A HA old _ _ _ _ E Ke) as (-> & _). reflexivity.
Qed.
(** An error of the match of the text [A], turned into text while the last text is [B]: it panics exactly when [B] is shorter than [A]; otherwise it quotes [B], and the line is that of [B]. *)
Theorem C87_error : forall isL isD mC mS tk old A ts eof, Forall byte A -> tk_ok tk -> Tokenize isL isD mC mS tk old A = TzOk ts eof ->
  forall h i k, (i + k < length ts)%nat ->
  ((length (h_text h) < length A)%nat -> ErrorInfoNow h (skipn i ts) eof k = Crash) /\
  ((length A <= length (h_text h))%nat -> exists d e0 e1 m line, nth_error ts i = Some d /\ nth_error ts (i + k) = Some e0 /\ nth_error (ts ++ [eof]) (S (i + k)) = Some e1 /\
     nine_lines (sub (h_text h) (tpos d - 1) (length A)) m /\ LineNow h (tpos e0) = Val line /\
     ErrorInfoNow h (skipn i ts) eof k = Val (line, firstn (Nat.max m (tpos e1 - tpos d)) (skipn (tpos d - 1) (h_text h)))).
Proof.
  intros isL isD mC mS tk old A ts eof HA K T h i k Hk. pose proof (eof_pos isL isD mC mS tk old A ts eof HA K T) as Pe.
  assert (Pos : forall i j ti tj, (i <= j)%nat -> nth_error (ts ++ [eof]) i = Some ti -> nth_error (ts ++ [eof]) j = Some tj -> (1 <= tpos ti <= tpos tj /\ tpos tj <= S (length A))%nat)
    by exact (tz_positions isL isD mC mS A HA tk K old ts eof T).
  destruct (skipn i ts) as [|d0 ds] eqn:Ed.
  { apply (f_equal (@List.length _)) in Ed. rewrite skipn_length in Ed. simpl in Ed. lia. }
  assert (Nt : forall k t, nth_error ((d0 :: ds) ++ [eof]) k = t -> (i + k <= length ts)%nat -> nth_error (ts ++ [eof]) (i + k) = t).
  { intros k' t Hn Hle. rewrite <- Ed in Hn. rewrite <- (firstn_skipn i ts) at 1. rewrite <- app_assoc.
    rewrite nth_error_app2 by (rewrite firstn_length; lia). rewrite firstn_length. replace (i + k' - Nat.min i (length ts))%nat with k' by lia. exact Hn. }
  assert (N0 : nth_error (ts ++ [eof]) (i + 0) = Some d0) by (apply Nt; [reflexivity|lia]).
  assert (Ne : nth_error (ts ++ [eof]) (length ts) = Some eof) by (rewrite nth_error_app2, Nat.sub_diag by lia; reflexivity).
  destruct (Pos (i + 0)%nat (length ts) _ _ ltac:(lia) N0 Ne) as (P1 & _). rewrite Pe in P1.
  unfold ErrorInfoNow, Offset. rewrite Pe. replace (1 <=? tpos d0)%nat with true by (symmetry; apply Nat.leb_le; lia). cbn [andb].
  change (1 <=? S (length A))%nat with true. cbn [andb]. split; intro HB.
  { replace (S (length A) <=? S (length (h_text h)))%nat with false by (symmetry; apply Nat.leb_gt; lia).
    destruct (tpos d0 <=? S (length (h_text h)))%nat; reflexivity. }
  replace (S (length A) <=? S (length (h_text h)))%nat with true by (symmetry; apply Nat.leb_le; lia).
  replace (tpos d0 <=? S (length (h_text h)))%nat with true by (symmetry; apply Nat.leb_le; lia). cbn [bindm].
  pose proof (Nt k _ eq_refl ltac:(lia)) as X0. pose proof (Nt (k + 1)%nat _ eq_refl ltac:(lia)) as X1.
  destruct (nth_error ((d0 :: ds) ++ [eof]) (k + 1)) as [e1|]; [|apply nth_error_None in X1; rewrite app_length in X1; simpl in X1; lia].
  destruct (nth_error ((d0 :: ds) ++ [eof]) k) as [e0|]; [|apply nth_error_None in X0; rewrite app_length in X0; simpl in X0; lia].
  destruct (Pos (i + 0)%nat (i + (k + 1))%nat _ _ ltac:(lia) N0 X1) as (P3 & P4). destruct (Pos (i + k)%nat (i + (k + 1))%nat _ _ ltac:(lia) X0 X1) as (P5 & _).
  replace (1 <=? tpos e1)%nat with true by (symmetry; apply Nat.leb_le; lia). replace (tpos e1 <=? S (length (h_text h)))%nat with true by (symmetry; apply Nat.leb_le; lia). cbn [andb bindm].
  unfold slice. replace (S (length A) - 1)%nat with (length A) by lia.
  replace ((tpos d0 - 1 <=? length A) && (length A <=? length (h_text h)))%nat with true by (symmetry; apply andb_true_iff; split; apply Nat.leb_le; lia). cbn [bindm].
  replace ((tpos d0 - 1 <=? tpos e1 - 1) && (tpos e1 - 1 <=? length (h_text h)))%nat with true by (symmetry; apply andb_true_iff; split; apply Nat.leb_le; lia).
  set (rest := sub (h_text h) (tpos d0 - 1) (length A)).
  destruct (nextLines_spec rest 9 ltac:(lia)) as (m & Em & Hm). rewrite Em.
  assert (Hm' : (m <= length rest)%nat) by (destruct Hm as [(? & _) | (? & _)]; lia).
  assert (Hr : (length rest <= length A - (tpos d0 - 1))%nat) by (unfold rest, sub; rewrite firstn_length; lia).
  rewrite firstn_length, Nat.min_l by lia.
  assert (Fm : firstn m rest = firstn m (skipn (tpos d0 - 1) (h_text h))) by (unfold rest, sub; rewrite firstn_firstn; f_equal; lia).
  assert (EL : exists line, LineNow h (tpos e0) = Val line).
  { unfold LineNow, Offset. replace ((1 <=? tpos e0) && (tpos e0 <=? S (length (h_text h))))%nat with true by (symmetry; apply andb_true_iff; split; apply Nat.leb_le; lia). eexists. reflexivity. }
  destruct EL as (line & EL). exists d0, e0, e1, m, line.
  split; [rewrite Nat.add_0_r, nth_error_app1 in N0 by lia; exact N0|]. split; [rewrite nth_error_app1 in X0 by lia; exact X0|].
  split; [replace (S (i + k)) with (i + (k + 1))%nat by lia; exact X1|]. split; [exact Hm|]. split; [exact EL|]. rewrite EL.
  replace (tpos e1 - 1 - (tpos d0 - 1))%nat with (tpos e1 - tpos d0)%nat by lia.
  destruct (Nat.ltb_spec m (tpos e1 - tpos d0)) as [L|L]; cbn [bindm].
  - rewrite Nat.max_r by lia. unfold sub. replace (tpos e1 - 1 - (tpos d0 - 1))%nat with (tpos e1 - tpos d0)%nat by lia. reflexivity.
  - rewrite Nat.max_l by lia. rewrite Fm. reflexivity.
Qed.
(** While the text that was matched is the last one: the line is that of the offending token, by the //line comments, and the quoted text that of [A]. *)
Theorem C87_error_line : forall isL isD mC mS tk name A h es later old ts eof, Forall byte A -> tk_ok tk -> Tokenize isL isD mC mS tk old A = TzOk ts eof ->
  Forall (fun e => exists d, e = ETokens d) later -> forall i k e0, nth_error ts (i + k) = Some e0 -> (tpos e0 <= length A)%nat ->
  exists d e1 m line, nth_error ts i = Some d /\ nth_error (ts ++ [eof]) (S (i + k)) = Some e1 /\ line_in isL isD mS A (tpos e0) line /\
    nine_lines (skipn (tpos d - 1) A) m /\
    ErrorInfoNow (after isL isD mC mS h (es ++ EText tk name A :: later)) (skipn i ts) eof k = Val (line, firstn (Nat.max m (tpos e1 - tpos d)) (skipn (tpos d - 1) A)).
Proof.
  intros isL isD mC mS tk name A h es later old ts eof HA K T L i k e0 H0 Hp.
  rewrite (proj1 (C87_history isL isD mC mS h h es [] tk name A later L)). cbn [app]. unfold after. cbn [fold_left happen].
  rewrite (state_init isL isD mC mS tk (h_sc h) old A).
  assert (Hk : (i + k < length ts)%nat) by (apply nth_error_Some; congruence).
  destruct (C87_error isL isD mC mS tk old A ts eof HA K T (mkHeld name A (state_after isL isD mC mS tk old A)) i k Hk) as (_ & H). cbn [h_text] in H.
  destruct (H (Nat.le_refl _)) as (d & e0' & e1 & m & line & E1 & E2 & E3 & E4 & E5 & E6). rewrite H0 in E2. injection E2 as <-.
  assert (P : (1 <= tpos e0)%nat).
  { assert (N : nth_error (ts ++ [eof]) (i + k) = Some e0) by (rewrite nth_error_app1 by exact Hk; exact H0).
    destruct (tz_positions isL isD mC mS A HA tk K old ts eof T _ _ _ _ (Nat.le_refl _) N N). lia. }
  destruct (line_now isL isD mC mS tk old name A ts eof HA K T (tpos e0) (conj P Hp)) as (line' & E & Hl). rewrite E in E5. injection E5 as <-.
  exists d, e1, m, line'. split; [exact E1|]. split; [exact E3|]. split; [exact Hl|]. split; [|exact E6].
  unfold sub in E4. rewrite firstn_all2 in E4 by (rewrite skipn_length; lia). exact E4.
Qed.

(** ** Instances *)
Definition textA : bytes := s2b "f = func" ++ [10] ++ s2b "  x/0".
Definition textB : bytes := s2b "a" ++ [10; 10; 10] ++ s2b "f() + bcd" ++ [10] ++ s2b "z".
Definition textL : bytes := s2b "//line g:42" ++ [10] ++ s2b "b" ++ [10] ++ s2b "c d".
Notation tzr src := (Tokenize no_runes no_runes false false Plain fresh src).
Notation hist es := (after no_runes no_runes false false (mkHeld [] [] fresh) es).
(** the hypotheses hold, and with one text all is right *)
Example C87_instance : exists ts eof, Forall byte textA /\ tk_ok Plain /\ tzr textA = TzOk ts eof /\ length ts = 6%nat /\
  SourceNow (hist [EText Plain (s2b "A") textA; ETokens (skipn 3 ts)]) (ts ++ [eof]) 3 6 = Val (s2b "x/0") /\
  RuntimeErrorNow true (hist [EText Plain (s2b "A") textA; ETokens (skipn 3 ts)]) (skipn 3 ts) = Val (Some (Some (s2b "A"), 2)) /\
  ErrorInfoNow (hist [EText Plain (s2b "A") textA]) (skipn 3 ts) eof 1 = Val (2, s2b "x/0").
Proof. do 2 eexists. split; [repeat constructor; unfold byte; lia|]. split; [exact Logic.I|]. split; [vm_compute; reflexivity|]. vm_compute. auto 6. Qed.
Example C87_line_instance : exists ts eof, Forall byte textL /\ tzr textL = TzOk ts eof /\ nth_error ts (1 + 0) = Some (mkTok IDENT 15 (s2b "c")) /\
  ErrorInfoNow (hist [EText Plain (s2b "A") textL]) (skipn 1 ts) eof 0 = Val (43, s2b "c d") /\
  FileLineNow (hist [EText Plain (s2b "A") textL]) (skipn 1 ts) = Val (s2b "A", 43).
Proof. do 2 eexists. split; [repeat constructor; unfold byte; lia|]. split; [vm_compute; reflexivity|]. vm_compute. auto. Qed.
(** with a second text in between, the tokens of the first show the second's text and lines ... *)
Theorem C87_other_text_refuted : exists ts eof, Forall byte textA /\ tzr textA = TzOk ts eof /\
  let now := hist [EText Plain (s2b "A") textA; EText Plain (s2b "B") textB] in
  SourceNow now (ts ++ [eof]) 3 6 = Val (s2b "cd" ++ [10]) /\ RuntimeErrorNow true now (skipn 3 ts) = Val (Some (Some (s2b "B"), 4)) /\
  ErrorInfoNow now (skipn 3 ts) eof 1 = Val (4, s2b "cd" ++ [10]).
Proof. do 2 eexists. split; [repeat constructor; unfold byte; lia|]. split; [vm_compute; reflexivity|]. vm_compute. repeat split. Qed.
(** ... and a shorter one makes all of them panic *)
Theorem C87_panic_refuted : exists ts eof, Forall byte textA /\ tzr textA = TzOk ts eof /\
  let now := hist [EText Plain (s2b "A") textA; EText Plain (s2b "B") (s2b "f()")] in
  SourceNow now (ts ++ [eof]) 3 6 = Crash /\ RuntimeErrorNow true now (skipn 3 ts) = Crash /\ ErrorInfoNow now (skipn 3 ts) eof 1 = Crash.
Proof. do 2 eexists. split; [repeat constructor; unfold byte; lia|]. split; [vm_compute; reflexivity|]. vm_compute. auto. Qed.

Print Assumptions C87_history.
Print Assumptions C87_source.
Print Assumptions C87_source_right.
Print Assumptions C87_source_kept.
Print Assumptions C87_no_tokens.
Print Assumptions C87_file_line.
Print Assumptions C87_error.
Print Assumptions C87_error_line.
Print Assumptions C87_other_text_refuted.
Print Assumptions C87_panic_refuted.
