(** Invariants of the scanner state and the calculus of scanner moves. *)
From Verif Require Import Base Token Utf8 Utf8Proofs Scanner ScannerSpec.

Section Proofs.
Variable src : bytes.
Hypothesis Hsrc : Forall byte src.

Notation next := (next src).
Notation fuel := (fuel src).
Notation while := (while src).

Definition rest (s : sc) : bytes := skipn (off s) src.

Lemma rest_bytes : forall s, Forall byte (rest s).
Proof.
  intro s. unfold rest. rewrite Forall_forall in *. intros x Hx. apply Hsrc.
  rewrite <- (firstn_skipn (off s) src). apply in_or_app. right. exact Hx.
Qed.

(** The cursor is on the character at [off]. *)
Definition Inv (s : sc) : Prop :=
  (off s <= length src)%nat /\ ch s = first (rest s) /\ rd s = (off s + width (rest s))%nat /\ stuck s = false.

(** Line starts up to offset [k]. *)
Definition line_starts (k : nat) : list nat :=
  filter (fun o => (o =? 0)%nat || ((o <? length src)%nat && (nth (o - 1) src 0 =? 10))) (seq 0 (S k)).
Definition Linv (s : sc) : Prop := lines s = rev (line_starts (off s)).
(** The start of the line of the character at [k]. *)
Fixpoint line_start (k : nat) : nat := match k with O => O | S k' => if nth k' src 0 =? 10 then k else line_start k' end.
Definition LO (s : sc) : Prop := lineOff s = line_start (off s).

(** Errors reported when the cursor moves onto the character at offset [o]. *)
Definition char_errs (o : nat) : list (nat * smsg) :=
  match skipn o src with
  | [] => []
  | b :: r =>
      if b =? 0 then [(o, ENul)]
      else if 128 <=? b then
        if (first (b :: r) =? RuneError) && (width (b :: r) =? 1)%nat then [(o, EUtf8)]
        else if (first (b :: r) =? bom) && (0 <? o)%nat then [(o, EBom)] else []
      else []
  end.

(** The character under the cursor is a legal one. *)
Definition okc (s : sc) : Prop := char_errs (off s) = [] /\ (ch s = bom -> (0 < off s)%nat).

(** A move from [s] to [s'] over [text], reporting the errors [es]. *)
Record ext (s s' : sc) (text : bytes) (es : list (nat * smsg)) : Prop := mkExt {
  ext_inv : Inv s';
  ext_rest : rest s = text ++ rest s';
  ext_off : off s' = (off s + length text)%nat;
  ext_isemi : isemi s' = isemi s;
  ext_errs : errs s' = errs s ++ es;
  ext_count : ecount s' = ecount s + Z.of_nat (length es);
  ext_lines : Linv s -> Linv s';
  ext_same_lines : ~ In 10 text -> lines s' = lines s;
  ext_clean : okc s -> es = [] -> clean text /\ okc s';
  ext_lo : LO s -> LO s';
  ext_same_lo : ~ In 10 text -> lineOff s' = lineOff s
}.

Lemma clean_app : forall a b, clean a -> clean b -> clean (a ++ b).
Proof. intros a b H. induction H; simpl; auto. intro. rewrite <- app_assoc. constructor; auto. Qed.

Lemma ext_refl : forall s, Inv s -> ext s s [] [].
Proof.
  intros s H. constructor; auto; simpl; try lia.
  - rewrite app_nil_r. reflexivity.
  - split; [constructor|assumption].
Qed.

Lemma ext_trans : forall s s1 s2 t1 t2 e1 e2, ext s s1 t1 e1 -> ext s1 s2 t2 e2 -> ext s s2 (t1 ++ t2) (e1 ++ e2).
Proof.
  intros s s1 s2 t1 t2 e1 e2 H1 H2. destruct H1, H2. constructor; auto.
  - rewrite ext_rest0, ext_rest1, app_assoc. reflexivity.
  - rewrite app_length. lia.
  - congruence.
  - rewrite ext_errs1, ext_errs0, app_assoc. reflexivity.
  - rewrite app_length. lia.
  - intro H. rewrite ext_same_lines1, ext_same_lines0; auto; intro X; apply H; apply in_or_app; auto.
  - intros Hc He. apply app_eq_nil in He. destruct He as (He1 & He2).
    destruct (ext_clean0 Hc He1) as (C1 & O1). destruct (ext_clean1 O1 He2) as (C2 & O2).
    split; [apply clean_app; assumption|assumption].
  - intro H. rewrite ext_same_lo1, ext_same_lo0; auto; intro X; apply H; apply in_or_app; auto.
Qed.

Lemma ext_sub : forall s s' t es, ext s s' t es -> sub src (off s) (off s') = t.
Proof.
  intros s s' t es H. destruct H. unfold sub. rewrite ext_off0.
  replace (off s + length t - off s)%nat with (length t) by lia.
  unfold rest in ext_rest0. rewrite ext_rest0.
  rewrite firstn_app, Nat.sub_diag, firstn_all. simpl. apply app_nil_r.
Qed.

Lemma ext_sub1 : forall s s' s'' c t es es', ext s s' [c] es -> ext s' s'' t es' ->
  sub src (off s' - 1) (off s'') = c :: t.
Proof.
  intros. assert (E : (off s' - 1)%nat = off s) by (destruct H; simpl in *; lia).
  rewrite E. eapply (ext_sub s s'' (c :: t)). change (c :: t) with ([c] ++ t). eapply ext_trans; eauto.
Qed.

(** An error report in place. *)
Lemma ext_error : forall s o m, Inv s -> ext s (error o m s) [] [(o, m)].
Proof.
  intros s o m (H1 & H2 & H3 & H4). constructor; simpl; auto; try lia.
  - unfold Inv, rest in *. simpl. auto.
  - discriminate.
Qed.

Lemma line_starts_S : forall k, line_starts (S k) = line_starts k ++
  (if ((S k <? length src)%nat && (nth k src 0 =? 10)) then [S k] else []).
Proof.
  intro k. unfold line_starts. rewrite seq_S, filter_app. f_equal.
  replace (0 + S k)%nat with (S k) by lia.
  cbn [filter Nat.eqb orb Nat.sub]. rewrite Nat.sub_0_r.
  destruct ((S k <? length src)%nat && (nth k src 0 =? 10)); reflexivity.
Qed.

Lemma line_starts_mono : forall k j, (forall i, (k <= i < j)%nat -> nth i src 0 <> 10) -> (k <= j)%nat ->
  line_starts j = line_starts k.
Proof.
  intros k j H Hkj. induction j as [|j IH].
  - replace k with 0%nat by lia. reflexivity.
  - destruct (Nat.eq_dec k (S j)) as [->|Hne]; [reflexivity|].
    rewrite line_starts_S, IH; [|intros i Hi; apply H; lia|lia].
    assert (E : nth j src 0 =? 10 = false) by (apply Z.eqb_neq; apply H; lia).
    rewrite E, andb_false_r, app_nil_r. reflexivity.
Qed.

Lemma line_start_mono : forall k j, (forall i, (k <= i < j)%nat -> nth i src 0 <> 10) -> (k <= j)%nat -> line_start j = line_start k.
Proof.
  intros k j H Hk. induction j as [|j IH]; [replace k with 0%nat by lia; reflexivity|].
  destruct (Nat.eq_dec k (S j)) as [->|Hn]; [reflexivity|]. cbn [line_start]. destruct (Z.eqb_spec (nth j src 0) 10) as [E|E]; [exfalso; apply (H j); [lia|exact E]|].
  apply IH; [intros i Hi; apply H; lia|lia].
Qed.
Lemma line_starts_last : forall k, exists l r, rev (line_starts k) = l :: r /\ (l <= k)%nat.
Proof.
  induction k as [|k (l & r & E & Hl)].
  - exists 0%nat, []. split; [reflexivity|lia].
  - rewrite line_starts_S. destruct (_ && _).
    + rewrite rev_app_distr. simpl. eauto.
    + rewrite app_nil_r. exists l, r. split; [exact E|lia].
Qed.

Lemma nth_rest : forall s i, nth i (rest s) 0 = nth (off s + i) src 0.
Proof. intros. unfold rest. rewrite <- (firstn_skipn (off s) src) at 2.
  destruct (le_lt_dec (off s) (length src)).
  - rewrite app_nth2; rewrite firstn_length; [f_equal; lia|lia].
  - rewrite skipn_all2 by lia. rewrite app_nil_r, firstn_all2 by lia.
    rewrite (nth_overflow src) by lia. destruct i; reflexivity.
Qed.

Lemma rest_nil : forall s, Inv s -> (rest s = [] <-> off s = length src).
Proof.
  intros s (H & _). pose proof (skipn_nil_iff Z (off s) src) as K. unfold rest.
  split; intro X; [apply K in X; lia|apply K; lia].
Qed.

(** ** next *)
Definition add_errs (es : list (nat * smsg)) (s : sc) : sc :=
  mkSc (ch s) (off s) (rd s) (lineOff s) (isemi s) (ecount s + Z.of_nat (length es)) (errs s ++ es) (lines s) (infos s) (stuck s).

Lemma add_errs_nil : forall s, add_errs [] s = s.
Proof. intros []. unfold add_errs. simpl. rewrite app_nil_r, Z.add_0_r. reflexivity. Qed.

Lemma next_eq : forall s, (rd s <= length src)%nat ->
  next s = set_cur (first (skipn (rd s) src)) (rd s) (rd s + width (skipn (rd s) src))
             (add_errs (char_errs (rd s)) (newline src (rd s) s)).
Proof.
  intros s H. unfold Scanner.next, char_errs. destruct (skipn (rd s) src) as [|b r] eqn:E.
  - apply skipn_nil_iff in E. replace (length src) with (rd s) by lia.
    rewrite add_errs_nil. simpl. rewrite Nat.add_0_r. reflexivity.
  - destruct (b =? 0) eqn:E0.
    + apply Z.eqb_eq in E0. subst b. rewrite first_ascii, width_ascii by lia. reflexivity.
    + destruct (128 <=? b) eqn:E1.
      * unfold first, width. destruct (DecodeRune (b :: r)) as [c w]. cbn [fst snd].
        destruct ((c =? RuneError) && (w =? 1)%nat); [reflexivity|].
        destruct ((c =? bom) && (0 <? rd s)%nat); [reflexivity|]. rewrite add_errs_nil. reflexivity.
      * apply Z.leb_gt in E1. rewrite first_ascii, width_ascii by lia. rewrite add_errs_nil. reflexivity.
Qed.

Lemma next_eof : forall s, Inv s -> rest s = [] ->
  ext s (next s) [] [] /\ ch s = -1 /\ rest (next s) = [].
Proof.
  intros s H Hr. pose proof (proj1 (rest_nil s H) Hr) as Ho. destruct H as (H1 & H2 & H3 & H4).
  rewrite Hr in H2, H3. simpl in H2, H3.
  assert (E : next s = set_cur (-1) (length src) (rd s) s).
  { unfold Scanner.next. replace (skipn (rd s) src) with (@nil Z) by (symmetry; apply skipn_nil_iff; lia).
    unfold newline. rewrite H2. reflexivity. }
  assert (Hrn : rest (next s) = []) by (rewrite E; unfold rest; simpl; apply skipn_all).
  split; [|auto]. constructor; auto; rewrite E; simpl; auto; try lia.
  - unfold Inv, rest. simpl. rewrite skipn_all. simpl. repeat split; auto; lia.
  - rewrite Hr. unfold rest. simpl. rewrite skipn_all. reflexivity.
  - rewrite app_nil_r. reflexivity.
  - unfold Linv. simpl. rewrite Ho. auto.
  - intros (Hc1 & Hc2) _. split; [constructor|]. split; simpl.
    + rewrite <- Ho. exact Hc1.
    + discriminate.
  - unfold LO. simpl. rewrite Ho. auto.
Qed.

Lemma next_move : forall s b r, Inv s -> rest s = b :: r ->
  ext s (next s) (firstn (width (rest s)) (rest s)) (char_errs (off s + width (rest s))) /\
  rest (next s) = skipn (width (rest s)) (rest s) /\
  off (next s) = (off s + width (rest s))%nat /\ (0 < width (rest s))%nat.
Proof.
  intros s b r HI Hr. pose proof HI as (H1 & H2 & H3 & H4).
  pose proof (rest_bytes s) as Hb. rewrite Hr in Hb. inversion Hb as [|b' r' Hb1 Hb2]; subst b' r'.
  pose proof (width_bounds b r Hb1) as Hw. rewrite <- Hr in Hw.
  set (w := width (rest s)) in *.
  assert (Hlen : (length (rest s) = length src - off s)%nat) by (unfold rest; apply skipn_length).
  assert (Hrest' : skipn (off s + w) src = skipn w (rest s)).
  { unfold rest. rewrite skipn_skipn'. reflexivity. }
  (* newline and line table *)
  assert (Hch : ch s = 10 <-> b = 10).
  { rewrite H2, Hr. destruct (Z.lt_ge_cases b 128) as [Hlt|Hge].
    - rewrite first_ascii by exact Hlt. reflexivity.
    - pose proof (first_high b r Hb1 Hge). lia. }
  assert (Hw10 : b = 10 -> w = 1%nat).
  { intros ->. unfold w. rewrite Hr. apply width_ascii. lia. }
  assert (Hnn : forall i, (off s <= i < off s + w)%nat -> b <> 10 -> nth i src 0 <> 10).
  { intros i Hi Hb10. replace i with (off s + (i - off s))%nat by lia. rewrite <- nth_rest.
    destruct (Z.lt_ge_cases b 128) as [Hlt|Hge].
    - assert (w = 1%nat) by (unfold w; rewrite Hr; apply width_ascii; exact Hlt).
      replace (i - off s)%nat with 0%nat by lia. rewrite Hr. simpl. exact Hb10.
    - pose proof (high_text b r Hb1 Hge) as Hh. rewrite <- Hr in Hh. fold w in Hh.
      rewrite Forall_forall in Hh.
      assert (Hin : In (nth (i - off s) (rest s) 0) (firstn w (rest s))).
      { rewrite <- (firstn_skipn w (rest s)) at 1.
        rewrite app_nth1; [apply nth_In|]; rewrite firstn_length; lia. }
      specialize (Hh _ Hin). simpl in Hh. lia. }
  assert (Hline : Linv s -> lines (newline src (off s + w) s) = rev (line_starts (off s + w))).
  { intro HL. unfold Linv in HL. unfold newline.
    destruct (ch s =? 10) eqn:E.
    - apply Z.eqb_eq in E. apply Hch in E. rewrite (Hw10 E). cbn [lines].
      replace (off s + 1)%nat with (S (off s)) by lia. rewrite line_starts_S.
      assert (Hn : nth (off s) src 0 =? 10 = true).
      { replace (off s) with (off s + 0)%nat by lia. rewrite <- nth_rest, Hr. simpl. rewrite E. reflexivity. }
      rewrite Hn, andb_true_r, rev_app_distr. unfold AddLine. rewrite HL.
      destruct (line_starts_last (off s)) as (l & rr & El & Hl). rewrite El.
      replace (l <? S (off s))%nat with true by (symmetry; apply Nat.ltb_lt; lia). simpl andb.
      destruct (S (off s) <? length src)%nat; reflexivity.
    - rewrite HL. f_equal. symmetry. apply line_starts_mono; [|lia].
      intros i Hi. apply Hnn; [lia|]. intro. apply Z.eqb_neq in E. tauto. }
  assert (Hlo : LO s -> lineOff (newline src (off s + w) s) = line_start (off s + w)).
  { intro HL. unfold LO in HL. unfold newline. destruct (ch s =? 10) eqn:E.
    - apply Z.eqb_eq in E. apply Hch in E. rewrite (Hw10 E). cbn [lineOff]. replace (off s + 1)%nat with (S (off s)) by lia. cbn [line_start].
      assert (Hn : nth (off s) src 0 =? 10 = true).
      { replace (off s) with (off s + 0)%nat by lia. rewrite <- nth_rest, Hr. simpl. rewrite E. reflexivity. }
      rewrite Hn. reflexivity.
    - rewrite HL. symmetry. apply line_start_mono; [|lia]. intros i Hi. apply Hnn; [lia|]. intro. apply Z.eqb_neq in E. tauto. }
  assert (Hslo : b <> 10 -> lineOff (newline src (off s + w) s) = lineOff s).
  { intro Hb10. unfold newline. destruct (ch s =? 10) eqn:E; [|reflexivity]. apply Z.eqb_eq in E. tauto. }
  assert (Hsl : b <> 10 -> lines (newline src (off s + w) s) = lines s).
  { intro Hb10. unfold newline. destruct (ch s =? 10) eqn:E; [|reflexivity].
    apply Z.eqb_eq in E. tauto. }
  assert (Hin10 : ~ In 10 (firstn w (rest s)) -> b <> 10).
  { intros X Y. apply X. rewrite (Hw10 Y), Hr, Y. left. reflexivity. }
  assert (Hnl : forall o, isemi (newline src o s) = isemi s /\ errs (newline src o s) = errs s /\
    ecount (newline src o s) = ecount s /\ stuck (newline src o s) = stuck s).
  { intro o. unfold newline. destruct (ch s =? 10); auto. }
  destruct (Hnl (off s + w)%nat) as (N1 & N2 & N3 & N4).
  rewrite (next_eq s) by lia. rewrite H3. fold w.
  set (s' := set_cur _ _ _ _).
  assert (Er : rest s' = skipn w (rest s)) by exact Hrest'.
  split; [|split; [exact Er|split; [reflexivity|lia]]].
  constructor.
  - unfold Inv. rewrite Er. unfold s'. simpl. rewrite Hrest', N4. repeat split; auto. lia.
  - rewrite Er. symmetry. apply firstn_skipn.
  - rewrite firstn_length. simpl. lia.
  - simpl. exact N1.
  - simpl. rewrite N2. reflexivity.
  - simpl. rewrite N3. reflexivity.
  - intro HL. unfold Linv. simpl. auto.
  - intro Hn. simpl. auto.
  - intros (Hc1 & Hc2) He. split.
    + assert (Hs : scalar (first (rest s)) /\ EncodeRune (first (rest s)) = firstn w (rest s)).
      { unfold w. unfold char_errs in Hc1. fold (rest s) in Hc1. rewrite H2 in Hc2. rewrite Hr in Hc1, Hc2 |- *.
        pose proof (decode_cases b r Hb1) as D. unfold first, width in *.
        destruct (DecodeRune (b :: r)) as [c w'] eqn:ED. cbn [fst snd] in *.
        destruct (Z.eqb_spec b 0) as [|Hb0]; [discriminate|].
        unfold scalar. unfold byte in Hb1.
        destruct D as [(D1 & -> & ->)|[(D1 & -> & ->)|(D1 & D2 & D3 & D4 & D5 & D6)]].
        - split; [lia|]. rewrite encode_ascii by lia. reflexivity.
        - replace (128 <=? b) with true in Hc1 by (symmetry; apply Z.leb_le; lia). discriminate.
        - split; [|exact D4]. split; [lia|]. split; [exact D3|].
          intro Hbom. change 65279 with bom in Hbom.
          replace (128 <=? b) with true in Hc1 by (symmetry; apply Z.leb_le; lia).
          rewrite Hbom in Hc1. specialize (Hc2 Hbom).
          replace (0 <? off s)%nat with true in Hc1 by (symmetry; apply Nat.ltb_lt; lia).
          destruct ((bom =? RuneError) && (w' =? 1)%nat); discriminate. }
      destruct Hs as (Hs1 & Hs2). rewrite <- Hs2, <- (app_nil_r (EncodeRune _)).
      constructor; [exact Hs1|constructor].
    + split; [exact He|]. intros _. simpl. lia.
  - intro HL. unfold LO. simpl. auto.
  - intro Hn. simpl. auto.
Qed.

(** One character further. *)
Lemma next_any : forall s, Inv s -> 0 <= ch s ->
  exists t es, ext s (next s) t es /\ t = firstn (width (rest s)) (rest s) /\ t <> [] /\
    ((ch s < 128 /\ t = [ch s]) \/ (128 <= ch s /\ Forall (fun b => 128 <= b) t)).
Proof.
  intros s HI Hc. pose proof HI as (H1 & H2 & H3 & H4).
  destruct (rest s) as [|b r] eqn:Hr.
  - rewrite H2 in Hc. simpl in Hc. lia.
  - destruct (next_move s b r HI Hr) as (He & _ & _ & Hw).
    pose proof (rest_bytes s) as Hb. rewrite Hr in Hb. inversion Hb as [|b' r' Hb1 Hb2]; subst b' r'.
    rewrite Hr in He, Hw. eexists _, _. split; [exact He|]. split; [reflexivity|]. split.
    + destruct (width (b :: r)); [lia|]. discriminate.
    + rewrite H2. destruct (Z.lt_ge_cases b 128) as [Hlt|Hge].
      * left. rewrite first_ascii, width_ascii by exact Hlt. auto.
      * right. pose proof (first_high b r Hb1 Hge). split; [lia|apply high_text; assumption].
Qed.

Lemma next_ascii : forall s c, Inv s -> ch s = c -> 0 <= c < 128 -> exists es, ext s (next s) [c] es.
Proof.
  intros s c HI Hc H. destruct (next_any s HI) as (t & es & He & _ & _ & [(H1 & ->)|(H1 & _)]); try lia.
  rewrite <- Hc. eauto.
Qed.

Lemma ch_range : forall s, Inv s -> ch s = -1 /\ rest s = [] \/ 0 <= ch s.
Proof.
  intros s HI. pose proof HI as (H1 & H2 & _). pose proof (rest_bytes s) as Hb.
  destruct (first_ge_m1 _ Hb) as [H|H]; [left|right; lia]. split; [lia|]. apply first_eof; auto. lia.
Qed.

Lemma ch_ascii : forall s, Inv s -> ch s < 128 -> (ch s = -1 /\ rest s = []) \/ exists r, rest s = ch s :: r.
Proof.
  intros s HI Hc. pose proof HI as (H1 & H2 & _). rewrite H2 in *.
  destruct (first_lt128 _ (rest_bytes s) Hc) as [(A & B)|(r & A & B)]; [left; auto|right; eauto].
Qed.

Lemma ext_len : forall s s' t es, ext s s' t es -> t <> [] -> (length (rest s') < length (rest s))%nat.
Proof.
  intros s s' t es H Ht. rewrite (ext_rest _ _ _ _ H), app_length. destruct t; [contradiction|simpl; lia].
Qed.

Lemma rest_le : forall s, (length (rest s) <= length src)%nat.
Proof. intro s. unfold rest. rewrite skipn_length. lia. Qed.

(** ** Character loops *)
Lemma while_spec : forall p, p (-1) = false -> forall k s, Inv s -> (length (rest s) <= k)%nat ->
  exists text es, ext s (while k p s) text es /\ p (ch (while k p s)) = false /\ chars (fun c => p c = true) text /\
    (text <> [] -> first text = ch s).
Proof.
  intros p Hp. induction k as [|k IH]; intros s HI Hk; simpl.
  - assert (rest s = []) by (destruct (rest s); [reflexivity|simpl in Hk; lia]).
    destruct (next_eof s HI H) as (_ & E & _). rewrite E, Hp. exists [], [].
    split; [apply ext_refl; exact HI|]. rewrite E. split; [exact Hp|]. split; [constructor|contradiction].
  - destruct (p (ch s)) eqn:E.
    + destruct (ch_range s HI) as [(Hc & _)|Hc]; [congruence|].
      destruct (next_any s HI Hc) as (t & es & He & Et & Hne & _).
      pose proof (ext_inv _ _ _ _ He) as HI'. pose proof (ext_len _ _ _ _ He Hne) as Hl.
      destruct (IH (next s) HI') as (t2 & es2 & He2 & Hf & Hch & _); [lia|].
      exists (t ++ t2), (es ++ es2). split; [eapply ext_trans; eauto|]. split; [exact Hf|].
      assert (Hpre : t ++ t2 = firstn (length (t ++ t2)) (rest s)).
      { rewrite (ext_rest _ _ _ _ He), (ext_rest _ _ _ _ He2), app_assoc.
        rewrite firstn_app, firstn_all, Nat.sub_diag. simpl. rewrite app_nil_r. reflexivity. }
      pose proof (rest_bytes s) as Hb.
      assert (Hw : length t = width (rest s)).
      { rewrite Et, firstn_length. destruct (rest s) as [|b r] eqn:Er; [reflexivity|].
        inversion Hb; subst. pose proof (width_bounds b r ltac:(assumption)). lia. }
      destruct (decode_firstn (rest s) (length (t ++ t2)) Hb) as (D1 & D2).
      { rewrite app_length. lia. } { rewrite app_length. destruct t; [contradiction|simpl; lia]. }
      rewrite <- Hpre in D1, D2. pose proof HI as (_ & HI2 & _).
      split; [|intros _; congruence]. apply Chars_cons.
      * destruct t; [contradiction|discriminate].
      * congruence.
      * rewrite D2, <- Hw. rewrite skipn_app, skipn_all, Nat.sub_diag. simpl. exact Hch.
    + exists [], []. split; [apply ext_refl; exact HI|]. split; [exact E|]. split; [constructor|contradiction].
Qed.

Lemma chars_ascii : forall (p : Z -> Prop) t, Forall byte t -> chars p t -> (forall c, p c -> c < 128) -> Forall p t.
Proof.
  intros p t Hb H Hp. induction H as [|t Hne Hf Hc IH]; [constructor|].
  destruct t as [|b r]; [contradiction|]. inversion Hb; subst.
  destruct (Z.lt_ge_cases b 128) as [Hlt|Hge].
  - rewrite first_ascii in Hf by exact Hlt. rewrite width_ascii in * by exact Hlt. simpl in *.
    constructor; auto.
  - pose proof (first_high b r ltac:(assumption) Hge). apply Hp in Hf. lia.
Qed.

Lemma chars_without : forall (p : Z -> Prop) x t, Forall byte t -> chars p t -> x < 128 -> ~ p x -> ~ In x t.
Proof.
  intros p x t Hb H Hx Hp. induction H as [|t Hne Hf Hc IH]; [auto|].
  destruct t as [|b r]; [contradiction|].
  pose proof Hb as Hb'. inversion Hb'; subst.
  assert (Hb2 : Forall byte (skipn (width (b :: r)) (b :: r))).
  { rewrite <- (firstn_skipn (width (b :: r)) (b :: r)) in Hb. apply Forall_app in Hb. tauto. }
  intro Hin. rewrite <- (firstn_skipn (width (b :: r)) (b :: r)) in Hin. apply in_app_or in Hin.
  destruct Hin as [Hin|Hin]; [|exact (IH Hb2 Hin)].
  destruct (Z.lt_ge_cases b 128) as [Hlt|Hge].
  - rewrite first_ascii in Hf by exact Hlt. rewrite width_ascii in Hin by exact Hlt. simpl in Hin.
    destruct Hin as [->|[]]. contradiction.
  - pose proof (high_text b r ltac:(assumption) Hge) as Hh. rewrite Forall_forall in Hh. specialize (Hh _ Hin).
    simpl in Hh. lia.
Qed.

Lemma ext_bytes : forall s s' t es, ext s s' t es -> Forall byte t.
Proof.
  intros. pose proof (rest_bytes s) as Hb. rewrite (ext_rest _ _ _ _ H) in Hb. apply Forall_app in Hb. tauto.
Qed.
End Proofs.
