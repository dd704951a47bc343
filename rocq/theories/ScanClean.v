(** Well-formed text is scanned without a report: the converse of the error side of ScannerProofs4/5. *)
From Verif Require Import Base Token Utf8 Utf8Proofs Scanner ScannerSpec ScannerProofs ScannerProofs2 ScannerProofs3 ScannerProofs4
  ScannerProofs5 ScanDet ScanRun.

Ltac zb := repeat match goal with
  | H : (_ =? _) = true |- _ => apply Z.eqb_eq in H
  | H : (_ =? _) = false |- _ => apply Z.eqb_neq in H
  | H : (_ <=? _) = true |- _ => apply Z.leb_le in H
  | H : (_ <=? _) = false |- _ => apply Z.leb_gt in H
  | H : (_ <? _) = true |- _ => apply Z.ltb_lt in H
  | H : (_ <? _) = false |- _ => apply Z.ltb_ge in H
  | H : (_ && _) = true |- _ => apply andb_true_iff in H; destruct H
  | H : (_ || _) = false |- _ => apply orb_false_iff in H; destruct H
  | H : (_ && _) = false |- _ => apply andb_false_iff in H
  | H : (_ || _) = true |- _ => apply orb_true_iff in H
  | H : negb _ = true |- _ => apply negb_true_iff in H
  | H : negb _ = false |- _ => apply negb_false_iff in H
  | H : _ = true \/ _ |- _ => destruct H
  | H : _ = false \/ _ |- _ => destruct H
  end.

(** ** UTF-8 *)
Ltac tb := repeat match goal with
  | |- context [?a <? ?b] => first [replace (a <? b) with true by (symmetry; apply Z.ltb_lt; lia) | replace (a <? b) with false by (symmetry; apply Z.ltb_ge; lia)]
  | |- context [?a <=? ?b] => first [replace (a <=? b) with true by (symmetry; apply Z.leb_le; lia) | replace (a <=? b) with false by (symmetry; apply Z.leb_gt; lia)]
  end.

Lemma decode_encode : forall r l, scalar r -> DecodeRune (EncodeRune r ++ l) = (r, length (EncodeRune r)).
Proof.
  intros r l ((H1 & H2) & H3 & _). unfold EncodeRune.
  replace ((r <? 0) || (1114111 <? r) || ((55296 <=? r) && (r <=? 57343))) with false.
  2:{ symmetry. repeat (apply orb_false_iff; split); try (apply Z.ltb_ge; lia). apply andb_false_iff. rewrite !Z.leb_gt. lia. }
  cbv zeta. destruct (r <? 128) eqn:E1; [apply Z.ltb_lt in E1|apply Z.ltb_ge in E1].
  { cbn. replace (r <? 128) with true by (symmetry; apply Z.ltb_lt; lia). reflexivity. }
  destruct (r <? 2048) eqn:E2; [apply Z.ltb_lt in E2|apply Z.ltb_ge in E2].
  { assert (A : 2 <= r / 64 < 32) by (Z.div_mod_to_equations; lia). assert (B : 0 <= r mod 64 < 64) by (Z.div_mod_to_equations; lia).
    cbn [app DecodeRune length]. unfold cont. tb. cbn [andb]. f_equal. Z.div_mod_to_equations; lia. }
  destruct (r <? 65536) eqn:E3; [apply Z.ltb_lt in E3|apply Z.ltb_ge in E3].
  { set (a := r / 4096) in *. set (b := (r / 64) mod 64) in *. set (c := r mod 64) in *.
    assert (Er : r = a * 4096 + b * 64 + c) by (unfold a, b, c; Z.div_mod_to_equations; lia).
    assert (A : 0 <= a < 16) by (unfold a; Z.div_mod_to_equations; lia).
    assert (B : 0 <= b < 64) by (unfold b; Z.div_mod_to_equations; lia).
    assert (C : 0 <= c < 64) by (unfold c; Z.div_mod_to_equations; lia). clearbody a b c.
    cbn [app DecodeRune length]. unfold cont. tb. cbv zeta.
    destruct (224 + a =? 224) eqn:F1; [apply Z.eqb_eq in F1|apply Z.eqb_neq in F1]; (destruct (224 + a =? 237) eqn:F2; [apply Z.eqb_eq in F2|apply Z.eqb_neq in F2]);
      tb; cbn [andb]; f_equal; lia. }
  { set (a := r / 262144) in *. set (b := (r / 4096) mod 64) in *. set (c := (r / 64) mod 64) in *. set (d := r mod 64) in *.
    assert (Er : r = a * 262144 + b * 4096 + c * 64 + d) by (unfold a, b, c, d; Z.div_mod_to_equations; lia).
    assert (A : 0 <= a < 5) by (unfold a; Z.div_mod_to_equations; lia).
    assert (B : 0 <= b < 64) by (unfold b; Z.div_mod_to_equations; lia).
    assert (C : 0 <= c < 64) by (unfold c; Z.div_mod_to_equations; lia).
    assert (D : 0 <= d < 64) by (unfold d; Z.div_mod_to_equations; lia). clearbody a b c d.
    cbn [app DecodeRune length]. unfold cont. tb. cbv zeta.
    destruct (240 + a =? 240) eqn:F1; [apply Z.eqb_eq in F1|apply Z.eqb_neq in F1]; (destruct (240 + a =? 244) eqn:F2; [apply Z.eqb_eq in F2|apply Z.eqb_neq in F2]);
      tb; cbn [andb]; f_equal; lia. }
Qed.

Lemma encode_shape : forall r, scalar r -> (r < 128 /\ EncodeRune r = [r]) \/
  (128 <= r /\ exists b cs, EncodeRune r = b :: cs /\ 128 <= b /\ cs <> [] /\ Forall (fun c => cont c = true) cs).
Proof.
  intros r ((H1 & H2) & H3 & _). unfold EncodeRune.
  replace ((r <? 0) || (1114111 <? r) || ((55296 <=? r) && (r <=? 57343))) with false.
  2:{ symmetry. repeat (apply orb_false_iff; split); try (apply Z.ltb_ge; lia). apply andb_false_iff. rewrite !Z.leb_gt. lia. }
  cbv zeta. destruct (r <? 128) eqn:E1; [apply Z.ltb_lt in E1; left; auto|apply Z.ltb_ge in E1]. right. split; [exact E1|].
  assert (M : forall x, cont (128 + x mod 64) = true).
  { intro x. unfold cont. apply andb_true_iff. rewrite !Z.leb_le. Z.div_mod_to_equations; lia. }
  destruct (r <? 2048); [|destruct (r <? 65536)]; eexists _, _; (split; [reflexivity|]); (split; [Z.div_mod_to_equations; lia|]);
    (split; [discriminate|]); repeat constructor; apply M.
Qed.

Lemma first_encode : forall r l, scalar r -> first (EncodeRune r ++ l) = r /\ width (EncodeRune r ++ l) = length (EncodeRune r).
Proof.
  intros r l H. pose proof (decode_encode r l H) as D. pose proof (encode_nonempty r) as N. unfold first, width.
  destruct (EncodeRune r ++ l) eqn:E; [apply app_eq_nil in E; tauto|]. rewrite D. auto.
Qed.

Lemma clean_inv : forall l, clean l -> l = [] \/ exists r l', scalar r /\ l = EncodeRune r ++ l' /\ clean l'.
Proof. intros l H. destruct H as [|r l H1 H2]; [auto|]. right. exists r, l. auto. Qed.
Lemma clean_ascii : forall c l, clean (c :: l) -> c < 128 -> clean l /\ scalar c.
Proof.
  intros c l H Hc. apply clean_inv in H. destruct H as [H|(r & l' & Hr & E & Hl)]; [discriminate|].
  destruct (encode_shape r Hr) as [(H1 & H2)|(H1 & b & cs & H2 & H3 & _)]; rewrite H2 in E; cbn [app] in E; injection E as -> ->; [|lia].
  auto.
Qed.
Lemma clean_asciis : forall e l, Forall (fun c => c < 128) e -> clean (e ++ l) -> clean l.
Proof. intros e l H. induction H; cbn [app]; auto. intro C. apply clean_ascii in C; [|exact H]. tauto. Qed.
Lemma clean_drop : forall l, clean l -> clean (skipn (width l) l).
Proof.
  intros l H. destruct (clean_inv l H) as [-> |(r & l' & Hr & -> & Hl)]; [constructor|].
  rewrite (proj2 (first_encode r l' Hr)), skipn_app, skipn_all2, Nat.sub_diag by lia. exact Hl.
Qed.

Lemma app_inj_length : forall (A : Type) (a b x y : list A), length a = length b -> a ++ x = b ++ y -> a = b /\ x = y.
Proof.
  intros A a. induction a as [|c a IH]; intros [|d b] x y L E; try discriminate; auto.
  cbn in *. injection E as -> E. injection L as L. destruct (IH b x y L E) as (-> & ->). auto.
Qed.
Arguments app_inj_length {A}.

(** ** Quoted text cut into characters *)
Inductive aligned (q : Z) : nat -> bytes -> Prop :=
| AL_nil : aligned q 0 []
| AL_char : forall r n l, scalar r -> r <> q -> r <> 92 -> r <> 10 -> aligned q n l -> aligned q (S n) (EncodeRune r ++ l)
| AL_esc : forall e n l, esc q e -> aligned q n l -> aligned q (S n) (92 :: e ++ l).

Lemma decode_app : forall t x, (2 <= width t)%nat -> DecodeRune (t ++ x) = DecodeRune t.
Proof.
  intros t x H. destruct t as [|b t]; [cbn in H; lia|]. unfold width in H. cbn [app]. unfold DecodeRune in *.
  destruct (b <? 128); [reflexivity|]. destruct (b <? 194); [reflexivity|]. destruct (b <? 224).
  { destruct t as [|b1 t]; [cbn in H; lia|]. reflexivity. }
  destruct (b <? 240).
  { destruct t as [|b1 [|b2 t]]; try (cbn in H; lia). reflexivity. }
  destruct (b <? 245); [|reflexivity].
  destruct t as [|b1 [|b2 [|b3 t]]]; try (cbn in H; lia). reflexivity.
Qed.

Lemma esc_ascii : forall q e, q < 128 -> esc q e -> Forall (fun c => c < 128) e.
Proof.
  intros q e Hq H.
  assert (X : forall ds, Forall hexdigit ds -> Forall (fun c => c < 128) ds).
  { intros ds. apply Forall_impl. intros a. unfold hexdigit, digit. lia. }
  destruct H as [c H|a b c H H1|ds H H1|ds H H1 H2|ds H H1 H2].
  - constructor; [|constructor]. cbn in H. intuition lia.
  - eapply Forall_impl; [|exact H]. intros; cbn in *; lia.
  - constructor; [lia|auto].
  - constructor; [lia|auto].
  - constructor; [lia|auto].
Qed.

Lemma drop_cont : forall q, q < 128 -> forall cs n l l2 after, good_quoted q n l -> l ++ q :: after = cs ++ l2 ->
  Forall (fun c => cont c = true) cs -> exists n' l', l = cs ++ l' /\ good_quoted q n' l' /\ (cs <> [] -> (1 <= n)%nat).
Proof.
  intros q Hq. induction cs as [|c cs IH]; intros n l l2 after G E H.
  - exists n, l. split; [reflexivity|]. split; [exact G|]. intro; contradiction.
  - inversion H as [|? ? Hc Hcs]; subst. unfold cont in Hc. apply andb_true_iff in Hc. rewrite !Z.leb_le in Hc.
    destruct G as [|t n l Ht Hw H1 H2 H3 G|e n l He G].
    + cbn in E. injection E as E _. lia.
    + destruct t as [|b t]; [contradiction|]. cbn [app] in E. injection E as -> E.
      assert (W : width (c :: t) = 1%nat).
      { unfold width, DecodeRune. replace (c <? 128) with false by (symmetry; apply Z.ltb_ge; lia).
        replace (c <? 194) with true by (symmetry; apply Z.ltb_lt; lia). reflexivity. }
      rewrite W in Hw. cbn [length] in Hw. destruct t; [|cbn in Hw; lia]. cbn [app] in E.
      destruct (IH n l l2 after G E Hcs) as (n' & l' & -> & G' & _). exists n', l'. split; [reflexivity|]. split; [exact G'|]. lia.
    + cbn in E. injection E as E _. lia.
Qed.

Lemma gq_aligned : forall q, 0 <= q < 128 -> forall k n body after, (length body <= k)%nat -> good_quoted q n body ->
  clean (body ++ q :: after) -> exists m, aligned q m body /\ (n = 0 -> m = 0)%nat /\ (n = 1 -> m = 1)%nat.
Proof.
  intros q Hq. induction k as [|k IH]; intros n body after Hk G C.
  - destruct G as [|t n l Ht Hw H1 H2 H3 G|e n l He G].
    + exists 0%nat. repeat split; auto; try discriminate. constructor.
    + destruct t; [contradiction|cbn in Hk; lia].
    + cbn in Hk. lia.
  - destruct G as [|t n l Ht Hw H1 H2 H3 G|e n l He G].
    + exists 0%nat. repeat split; auto; try discriminate. constructor.
    + rewrite app_length in Hk. rewrite <- app_assoc in C.
      destruct (clean_inv _ C) as [X|(r & l2 & Hr & E & Hl2)]; [apply app_eq_nil in X; tauto|].
      destruct t as [|b t]; [contradiction|].
      destruct (Nat.eq_dec (width (b :: t)) 1) as [W|W].
      * rewrite W in Hw. destruct t; [|cbn in Hw; lia]. cbn [app] in E.
        destruct (encode_shape r Hr) as [(R1 & R2)|(R1 & b' & cs & R2 & R3 & R4 & R5)]; rewrite R2 in E; cbn [app] in E; injection E as -> E.
        -- rewrite first_ascii in H1, H2, H3 by exact R1. subst l2. cbn in Hk.
           destruct (IH n l after ltac:(lia) G Hl2) as (m & A & M0 & M1). exists (S m). split.
           ++ rewrite <- R2. apply AL_char; auto.
           ++ split; [discriminate|]. intro X. rewrite M0; lia.
        -- destruct (drop_cont q ltac:(lia) cs n l l2 after G E R5) as (n' & l' & -> & G' & Hn). specialize (Hn R4).
           rewrite <- app_assoc in E. apply app_inv_head in E. subst l2. rewrite app_length in Hk. cbn in Hk.
           destruct (IH n' l' after ltac:(lia) G' Hl2) as (m & A & _). exists (S m). split.
           ++ change ([b'] ++ cs ++ l') with ((b' :: cs) ++ l'). rewrite <- R2. apply AL_char; auto; lia.
           ++ split; [discriminate|]. lia.
      * assert (W2 : (2 <= width (b :: t))%nat) by (cbn [length] in Hw; lia).
        pose proof (decode_app (b :: t) (l ++ q :: after) W2) as D. rewrite E, decode_encode in D by exact Hr.
        assert (F1 : first (b :: t) = r) by (unfold first; rewrite <- D; reflexivity).
        assert (F2 : length (b :: t) = length (EncodeRune r)) by (rewrite Hw; unfold width; rewrite <- D; reflexivity).
        destruct (app_inj_length _ _ _ _ F2 E) as (F3 & F4). rewrite F3. rewrite F1 in *. subst l2. cbn in Hk.
        destruct (IH n l after ltac:(lia) G Hl2) as (m & A & M0 & M1). exists (S m). split.
        -- apply AL_char; auto.
        -- split; [discriminate|]. intro X. rewrite M0; lia.
    + cbn [app length] in C, Hk. apply clean_ascii in C; [|lia]. destruct C as (C & _). rewrite <- app_assoc in C.
      apply clean_asciis in C; [|eapply esc_ascii; [|exact He]; lia]. rewrite app_length in Hk.
      destruct (IH n l after ltac:(lia) G C) as (m & A & M0 & M1). exists (S m). split; [apply AL_esc; auto|].
      split; [discriminate|]. intro X. rewrite M0; lia.
Qed.

Section Clean.
Variables isL isD : Z -> bool.
Variables mComments mSemis : bool.
Variable src : bytes.
Hypothesis Hsrc : Forall byte src.
Notation next := (next src).
Notation rest := (rest src).
Notation Inv := (Inv src).
Notation mv := (mv src).
Notation fuel := (fuel src).

(** The cursor stands on a character of a text without encoding errors. *)
Definition Cl (s : sc) : Prop :=
  (off s <= length src)%nat /\ ch s = first (rest s) /\ rd s = (off s + width (rest s))%nat /\ clean (rest s).
Lemma cl_of : forall s, Inv s -> clean (rest s) -> Cl s.
Proof. intros s (H1 & H2 & H3 & _) C. repeat split; auto. Qed.

Lemma char_errs_clean : forall o, clean (skipn o src) -> char_errs src o = [].
Proof.
  intros o C. unfold char_errs. destruct (clean_inv _ C) as [-> |(r & l & Hr & E & Hl)]; [reflexivity|].
  rewrite E. destruct (first_encode r l Hr) as (F1 & F2). pose proof (encode_nonempty r) as N.
  destruct (encode_shape r Hr) as [(R1 & R2)|(R1 & b' & cs & R2 & R3 & R4 & _)].
  - rewrite R2 in *. cbn [app]. destruct Hr as ((A & _) & _). replace (r =? 0) with false by (symmetry; apply Z.eqb_neq; lia).
    replace (128 <=? r) with false by (symmetry; apply Z.leb_gt; lia). reflexivity.
  - rewrite R2 in *. cbn [app] in *. rewrite F1, F2. replace (b' =? 0) with false by (symmetry; apply Z.eqb_neq; lia).
    destruct (128 <=? b'); [|reflexivity].
    replace ((length (b' :: cs) =? 1)%nat) with false by (symmetry; apply Nat.eqb_neq; destruct cs; [contradiction|cbn; lia]).
    rewrite andb_false_r. destruct Hr as (_ & _ & Hr). replace (r =? bom) with false by (symmetry; apply Z.eqb_neq; exact Hr). reflexivity.
Qed.

Lemma errs_newline : forall o s, errs (newline src o s) = errs s.
Proof. intros o s. unfold newline. destruct (ch s =? 10); reflexivity. Qed.

Lemma next_at : forall s, (rd s <= length src)%nat -> clean (skipn (rd s) src) ->
  errs (next s) = errs s /\ Cl (next s) /\ rest (next s) = skipn (rd s) src /\ off (next s) = rd s.
Proof.
  intros s H C. rewrite next_eq by exact H. rewrite char_errs_clean, add_errs_nil by exact C.
  unfold set_cur, ScannerProofs.rest. cbn [errs off]. rewrite errs_newline. split; [reflexivity|]. split; [|auto].
  repeat split; cbn; auto.
Qed.

Lemma cl_rd : forall s, Cl s -> (rd s <= length src)%nat /\ skipn (rd s) src = skipn (width (rest s)) (rest s).
Proof.
  intros s (H1 & H2 & H3 & H4). split.
  - rewrite H3. assert (L : length (rest s) = (length src - off s)%nat) by (unfold ScannerProofs.rest; apply skipn_length).
    assert (Hb : Forall byte (rest s)) by (apply rest_bytes; exact Hsrc).
    destruct (rest s) as [|b r]; [cbn in *; lia|]. inversion Hb; subst. pose proof (width_bounds b r ltac:(assumption)). lia.
  - unfold ScannerProofs.rest at 2. rewrite skipn_skipn'. f_equal. lia.
Qed.

Lemma cl_next : forall s, Cl s -> Cl (next s) /\ errs (next s) = errs s /\ rest (next s) = skipn (width (rest s)) (rest s) /\
  off (next s) = (off s + width (rest s))%nat.
Proof.
  intros s H. destruct (cl_rd s H) as (R1 & R2). pose proof H as (H1 & H2 & H3 & H4).
  destruct (next_at s R1) as (E & C & R & O); [rewrite R2; apply clean_drop; exact H4|].
  split; [exact C|]. split; [exact E|]. split; [congruence|congruence].
Qed.
Lemma cl_rune : forall s r l, Cl s -> rest s = EncodeRune r ++ l -> scalar r ->
  ch s = r /\ Cl (next s) /\ errs (next s) = errs s /\ rest (next s) = l /\ off (next s) = (off s + length (EncodeRune r))%nat.
Proof.
  intros s r l H E Hr. destruct (first_encode r l Hr) as (F1 & F2). destruct (cl_next s H) as (C & X & R & O).
  split; [destruct H as (_ & -> & _); congruence|]. split; [exact C|]. split; [exact X|]. rewrite E, F2 in R. split; [|congruence].
  rewrite R, skipn_app, skipn_all2, Nat.sub_diag by lia. reflexivity.
Qed.
Lemma cl_ascii : forall s c l, Cl s -> rest s = c :: l -> c < 128 ->
  ch s = c /\ Cl (next s) /\ errs (next s) = errs s /\ rest (next s) = l /\ off (next s) = S (off s).
Proof.
  intros s c l H E Hc. pose proof H as (_ & _ & _ & C). rewrite E in C. apply clean_ascii in C; [|exact Hc]. destruct C as (_ & Hr).
  assert (R : EncodeRune c = [c]) by (apply encode_ascii; destruct Hr; lia).
  destruct (cl_rune s c l H) as (A & B & D & F & G); [rewrite R; exact E|exact Hr|]. rewrite R in G. cbn in G.
  repeat (split; [assumption|]). lia.
Qed.

(** Moves that report nothing on clean text. *)
Definition quiet (s s' : sc) : Prop := Cl s -> Cl s' /\ errs s' = errs s.
Lemma q_refl : forall s, quiet s s.
Proof. intros s H. auto. Qed.
Lemma q_trans : forall s s1 s2, quiet s s1 -> quiet s1 s2 -> quiet s s2.
Proof. intros s s1 s2 A B H. destruct (A H) as (A1 & A2). destruct (B A1) as (B1 & B2). split; [exact B1|congruence]. Qed.
Lemma q_next : forall s, quiet s (next s).
Proof. intros s H. destruct (cl_next s H) as (A & B & _). auto. Qed.
Lemma q_after : forall s s', quiet s s' -> quiet s (next s').
Proof. intros s s' H. eapply q_trans; [exact H|apply q_next]. Qed.
Lemma q_stuck : forall s s', quiet s s' -> quiet s (set_stuck s').
Proof. intros s s' H C. destruct (H C) as (A & B). auto. Qed.
Lemma q_isemi : forall b s s', quiet s s' -> quiet s (set_isemi b s').
Proof. intros b s s' H C. destruct (H C) as (A & B). auto. Qed.

Lemma q_while : forall k p s, quiet s (while src k p s).
Proof.
  induction k as [|k IH]; intros p s; unfold while; fold while; destruct (p (ch s)); try apply q_refl; try exact (q_stuck _ _ (q_refl _)).
  eapply q_trans; [apply q_next|apply IH].
Qed.
Lemma q_skip : forall s, quiet s (skipWhitespace src s).
Proof. intro s. apply q_while. Qed.
Lemma q_mant : forall b s, quiet s (scanMantissa src b s).
Proof. intros b s. apply q_while. Qed.
Lemma q_lcom : forall k cr s, quiet s (snd (lcom_loop src k cr s)).
Proof.
  induction k as [|k IH]; intros cr s; simpl; destruct (_ && _); cbn [snd]; try apply q_refl; try exact (q_stuck _ _ (q_refl _)).
  eapply q_trans; [apply q_next|apply IH].
Qed.
Lemma q_bcom : forall k cr s, quiet s (snd (bcom_loop src k cr s)).
Proof.
  induction k as [|k IH]; intros cr s; simpl; destruct (0 <=? ch s); cbn [snd]; try apply q_refl; try exact (q_stuck _ _ (q_refl _)).
  destruct (_ && _); cbn [snd]; [apply q_after, q_next|]. eapply q_trans; [apply q_next|apply IH].
Qed.
Lemma q_fle_block : forall k s, quiet s (snd (fle_block src k s)).
Proof.
  induction k as [|k IH]; intros s; simpl; destruct (0 <=? ch s); cbn [snd]; try apply q_refl; try exact (q_stuck _ _ (q_refl _)).
  destruct (ch s =? 10); [apply q_refl|]. destruct (_ && _); cbn [snd]; [apply q_after, q_next|]. eapply q_trans; [apply q_next|apply IH].
Qed.
Lemma q_fle : forall k s, quiet s (snd (fle_loop src k s)).
Proof.
  induction k as [|k IH]; intros s; cbn [fle_loop]; destruct (ch s =? 47); try apply q_refl; destruct (ch s =? 42); cbn [snd]; try apply q_refl; try exact (q_stuck _ _ (q_refl _)).
  pose proof (q_fle_block fuel (next s)) as B. destruct (fle_block src fuel (next s)) as [r s1]. cbn [snd] in B.
  assert (B1 : quiet s s1) by (eapply q_trans; [apply q_next|exact B]).
  assert (B2 : quiet s (skipWhitespace src s1)) by (eapply q_trans; [exact B1|apply q_skip]).
  destruct r; [exact B1|]. destruct (_ || _); [exact B2|]. destruct (negb _); [exact B2|].
  eapply q_trans; [apply q_after, B2|apply IH].
Qed.
Lemma q_exp : forall k s, quiet s (snd (scan_exponent src k s)).
Proof.
  intros k s. unfold scan_exponent.
  assert (X : forall (r : Z * sc), quiet s (snd r) -> quiet s (snd (let '(tok1, s1) := r in if ch s1 =? 105 then (IMAG, next s1) else (tok1, s1)))).
  { intros [a b] H. cbn [snd] in *. destruct (ch b =? 105); [apply q_after, H|exact H]. }
  apply X. destruct (_ || _); [|apply q_refl]. cbn [snd]. destruct (_ || _).
  - eapply q_trans; [apply q_after, q_next|apply q_mant].
  - eapply q_trans; [apply q_next|apply q_mant].
Qed.
Lemma q_frac : forall k s, quiet s (snd (scan_fraction src k s)).
Proof.
  intros k s. unfold scan_fraction. destruct (ch s =? 46); [|apply q_exp]. eapply q_trans; [apply q_next|].
  eapply q_trans; [apply q_mant|apply q_exp].
Qed.

(** ** Quoted literals *)
Lemma cl_ch : forall s c l, Cl s -> rest s = c :: l -> c < 128 -> ch s = c.
Proof. intros s c l H E Hc. exact (proj1 (cl_ascii s c l H E Hc)). Qed.

Lemma hexdigit_val : forall d, hexdigit d -> digitVal d = hexval d /\ digitVal d < 16.
Proof.
  intros d H. unfold hexdigit, digit in H. unfold digitVal, hexval.
  destruct H as [H|[H|H]].
  - replace ((48 <=? d) && (d <=? 57)) with true by (symmetry; apply andb_true_iff; rewrite !Z.leb_le; lia).
    replace (d <=? 57) with true by (symmetry; apply Z.leb_le; lia). lia.
  - replace ((48 <=? d) && (d <=? 57)) with false by (symmetry; apply andb_false_iff; rewrite !Z.leb_gt; lia).
    replace ((97 <=? d) && (d <=? 102)) with true by (symmetry; apply andb_true_iff; rewrite !Z.leb_le; lia).
    replace (d <=? 57) with false by (symmetry; apply Z.leb_gt; lia). replace (d <=? 70) with false by (symmetry; apply Z.leb_gt; lia). lia.
  - replace ((48 <=? d) && (d <=? 57)) with false by (symmetry; apply andb_false_iff; rewrite !Z.leb_gt; lia).
    replace ((97 <=? d) && (d <=? 102)) with false by (symmetry; apply andb_false_iff; rewrite !Z.leb_gt; lia).
    replace ((65 <=? d) && (d <=? 70)) with true by (symmetry; apply andb_true_iff; rewrite !Z.leb_le; lia).
    replace (d <=? 57) with false by (symmetry; apply Z.leb_gt; lia). replace (d <=? 70) with true by (symmetry; apply Z.leb_le; lia). lia.
Qed.

Lemma esc_loop_quiet : forall base, base <= 16 -> forall ds x s l, Forall (fun d => hexdigit d /\ hexval d < base) ds -> Cl s -> rest s = ds ++ l ->
  exists s', esc_loop src (length ds) base x s = (Some (fold_left (fun x d => x * base + hexval d) ds x), s') /\
    Cl s' /\ errs s' = errs s /\ rest s' = l.
Proof.
  intros base Hb. induction ds as [|d ds IH]; intros x s l H C R.
  - exists s. split; [reflexivity|auto].
  - inversion H as [|? ? (Hd & Hv) Hds]; subst. destruct (hexdigit_val d Hd) as (V & _).
    assert (A : d < 128) by (unfold hexdigit, digit in Hd; lia).
    destruct (cl_ascii s d (ds ++ l) C R A) as (E & C1 & X1 & R1 & _). cbn [length esc_loop]. rewrite E, V.
    replace (base <=? hexval d) with false by (symmetry; apply Z.leb_gt; lia).
    destruct (IH (x * base + hexval d) (next s) l Hds C1 R1) as (s' & E' & C' & X' & R').
    exists s'. split; [exact E'|]. split; [exact C'|]. split; [congruence|exact R'].
Qed.

Lemma escape_quiet : forall q e s l, q = 34 \/ q = 39 -> esc q e -> Cl s -> rest s = e ++ l ->
  exists s', scanEscape src q s = (true, s') /\ Cl s' /\ errs s' = errs s /\ rest s' = l.
Proof.
  intros q e s l Hq He C R. unfold scanEscape.
  assert (NC : forall d, (48 <= d <= 55 \/ d = 120 \/ d = 117 \/ d = 85) ->
     (d =? 97) || (d =? 98) || (d =? 102) || (d =? 110) || (d =? 114) || (d =? 116) || (d =? 118) || (d =? 92) || (d =? q) = false).
  { intros d Hd. repeat (apply orb_false_iff; split); apply Z.eqb_neq; lia. }
  assert (HX : forall ds, Forall hexdigit ds -> Forall (fun d => hexdigit d /\ hexval d < 16) ds).
  { intros ds. apply Forall_impl. intros d Hd. destruct (hexdigit_val d Hd). split; [exact Hd|lia]. }
  destruct He as [c Hc|a b c Ho Hv|ds Hn Hd|ds Hn Hd Hv|ds Hn Hd Hv].
  - assert (A : c < 128) by (cbn in Hc; intuition lia). destruct (cl_ascii s c l C R A) as (E & C1 & X1 & R1 & _). rewrite E.
    replace (_ || _) with true.
    + exists (next s). auto.
    + symmetry. rewrite !orb_true_iff, !Z.eqb_eq. cbn in Hc. intuition congruence.
  - assert (A : 48 <= a <= 55) by (inversion Ho; auto). assert (A' : a < 128) by lia.
    destruct (cl_ascii s a (b :: c :: l) C R A') as (E & _). rewrite E.
    rewrite (NC a) by lia. replace ((48 <=? a) && (a <=? 55)) with true by (symmetry; apply andb_true_iff; rewrite !Z.leb_le; lia).
    destruct (esc_loop_quiet 8 ltac:(lia) [a; b; c] 0 s l) as (s' & E' & C' & X' & R'); auto.
    { eapply Forall_impl; [|exact Ho]. intros d Hd. cbn beta in Hd. unfold hexdigit, digit, hexval. split; [lia|].
      replace (d <=? 57) with true by (symmetry; apply Z.leb_le; lia). lia. }
    cbn [length] in E'. rewrite E'. change (fold_left _ _ _) with (value 8 [a; b; c]).
    replace (_ || _) with false.
    + exists s'. auto.
    + symmetry. apply orb_false_iff. split; [apply Z.ltb_ge; exact Hv|]. apply andb_false_iff. left. apply Z.leb_gt. lia.
  - destruct (cl_ascii s 120 (ds ++ l) C R ltac:(lia)) as (E & C1 & X1 & R1 & _). rewrite E.
    rewrite (NC 120) by lia. cbn [Z.leb Z.compare Pos.compare Pos.compare_cont andb Z.eqb Pos.eqb].
    destruct (esc_loop_quiet 16 ltac:(lia) ds 0 (next s) l) as (s' & E' & C' & X' & R'); auto. rewrite Hn in E'. rewrite E'.
    assert (B : 0 <= value 16 ds <= 255).
    { unfold value. destruct ds as [|d1 [|d2 [|]]]; try discriminate. cbn [fold_left]. inversion Hd as [|? ? D1 D2]; subst. inversion D2 as [|? ? D3 _]; subst.
      destruct (hexdigit_val _ D1), (hexdigit_val _ D3).
      assert (0 <= hexval d1 /\ 0 <= hexval d2) by (unfold hexdigit, digit, hexval in *; repeat match goal with |- context [if ?b then _ else _] => destruct b eqn:? end; lia). lia. }
    change (fold_left _ _ _) with (value 16 ds). replace (_ || _) with false.
    + exists s'. split; [reflexivity|]. split; [exact C'|]. split; [congruence|exact R'].
    + symmetry. apply orb_false_iff. split; [apply Z.ltb_ge; lia|]. apply andb_false_iff. left. apply Z.leb_gt. lia.
  - destruct (cl_ascii s 117 (ds ++ l) C R ltac:(lia)) as (E & C1 & X1 & R1 & _). rewrite E.
    rewrite (NC 117) by lia. cbn [Z.leb Z.compare Pos.compare Pos.compare_cont andb Z.eqb Pos.eqb].
    destruct (esc_loop_quiet 16 ltac:(lia) ds 0 (next s) l) as (s' & E' & C' & X' & R'); auto. rewrite Hn in E'. rewrite E'.
    change (fold_left _ _ _) with (value 16 ds). destruct Hv as (V1 & V2). replace (_ || _) with false.
    + exists s'. split; [reflexivity|]. split; [exact C'|]. split; [congruence|exact R'].
    + symmetry. apply orb_false_iff. split; [apply Z.ltb_ge; lia|]. apply andb_false_iff. rewrite Z.leb_gt, Z.ltb_ge. lia.
  - destruct (cl_ascii s 85 (ds ++ l) C R ltac:(lia)) as (E & C1 & X1 & R1 & _). rewrite E.
    rewrite (NC 85) by lia. cbn [Z.leb Z.compare Pos.compare Pos.compare_cont andb Z.eqb Pos.eqb].
    destruct (esc_loop_quiet 16 ltac:(lia) ds 0 (next s) l) as (s' & E' & C' & X' & R'); auto. rewrite Hn in E'. rewrite E'.
    change (fold_left _ _ _) with (value 16 ds). destruct Hv as (V1 & V2). replace (_ || _) with false.
    + exists s'. split; [reflexivity|]. split; [exact C'|]. split; [congruence|exact R'].
    + symmetry. apply orb_false_iff. split; [apply Z.ltb_ge; lia|]. apply andb_false_iff. rewrite Z.leb_gt, Z.ltb_ge. lia.
Qed.

Lemma str_quiet : forall n body, aligned 34 n body -> forall k offs s after, Cl s -> rest s = body ++ 34 :: after -> (n < k)%nat ->
  Cl (str_loop src k offs s) /\ errs (str_loop src k offs s) = errs s.
Proof.
  intros n body H. induction H as [|r n l Hr N1 N2 N3 H IH|e n l He H IH]; intros k offs s after C R Hk; (destruct k as [|k]; [lia|]); cbn [str_loop].
  - cbn [app] in R. destruct (cl_ascii s 34 after C R ltac:(lia)) as (-> & C1 & X1 & _). cbn. auto.
  - rewrite <- app_assoc in R. destruct (cl_rune s r _ C R Hr) as (-> & C1 & X1 & R1 & _).
    assert (P : 0 < r) by (destruct Hr; lia).
    replace ((r =? 10) || (r <? 0)) with false by (symmetry; apply orb_false_iff; split; [apply Z.eqb_neq; lia|apply Z.ltb_ge; lia]).
    replace (r =? 34) with false by (symmetry; apply Z.eqb_neq; lia). replace (r =? 92) with false by (symmetry; apply Z.eqb_neq; lia).
    destruct (IH k offs (next s) after C1 R1 ltac:(lia)) as (A & B). split; [exact A|congruence].
  - cbn [app] in R. rewrite <- app_assoc in R. destruct (cl_ascii s 92 _ C R ltac:(lia)) as (-> & C1 & X1 & R1 & _). cbn [Z.eqb Pos.eqb orb Z.ltb Z.compare].
    destruct (escape_quiet 34 e (next s) _ (or_introl eq_refl) He C1 R1) as (s' & -> & C2 & X2 & R2).
    destruct (IH k offs s' after C2 R2 ltac:(lia)) as (A & B). split; [exact A|congruence].
Qed.

Lemma rune_quiet : forall n body, aligned 39 n body -> forall k offs n0 s after, Cl s -> rest s = body ++ 39 :: after -> (n < k)%nat ->
  exists s', rune_loop src k offs true n0 s = (true, (n0 + n)%nat, s') /\ Cl s' /\ errs s' = errs s.
Proof.
  intros n body H. induction H as [|r n l Hr N1 N2 N3 H IH|e n l He H IH]; intros k offs n0 s after C R Hk; (destruct k as [|k]; [lia|]); cbn [rune_loop].
  - cbn [app] in R. destruct (cl_ascii s 39 after C R ltac:(lia)) as (-> & C1 & X1 & _). cbn. exists (next s). rewrite Nat.add_0_r. auto.
  - rewrite <- app_assoc in R. destruct (cl_rune s r _ C R Hr) as (-> & C1 & X1 & R1 & _).
    assert (P : 0 < r) by (destruct Hr; lia).
    replace ((r =? 10) || (r <? 0)) with false by (symmetry; apply orb_false_iff; split; [apply Z.eqb_neq; lia|apply Z.ltb_ge; lia]).
    replace (r =? 39) with false by (symmetry; apply Z.eqb_neq; lia). replace (r =? 92) with false by (symmetry; apply Z.eqb_neq; lia).
    destruct (IH k offs (S n0) (next s) after C1 R1 ltac:(lia)) as (s' & E & A & B). exists s'. rewrite E. split; [f_equal; f_equal; lia|]. split; [exact A|congruence].
  - cbn [app] in R. rewrite <- app_assoc in R. destruct (cl_ascii s 92 _ C R ltac:(lia)) as (-> & C1 & X1 & R1 & _). cbn [Z.eqb Pos.eqb orb Z.ltb Z.compare].
    destruct (escape_quiet 39 e (next s) _ (or_intror eq_refl) He C1 R1) as (s' & -> & C2 & X2 & R2). cbn [andb].
    destruct (IH k offs (S n0) s' after C2 R2 ltac:(lia)) as (s2 & E & A & B). exists s2. rewrite E. split; [f_equal; f_equal; lia|]. split; [exact A|congruence].
Qed.

Lemma raw_quiet : forall k offs cr s body after, Cl s -> rest s = body ++ 96 :: after -> (length body < k)%nat ->
  Cl (snd (raw_loop src k offs cr s)) /\ errs (snd (raw_loop src k offs cr s)) = errs s.
Proof.
  induction k as [|k IH]; intros offs cr s body after C R Hk; [lia|]. cbn [raw_loop]. destruct (cl_next s C) as (C1 & X1 & R1 & _).
  pose proof C as (_ & Ec & _ & Cr).
  destruct (clean_inv _ Cr) as [X|(r & l & Hr & El & Hl)]; [rewrite X in R; destruct body; discriminate|].
  destruct (cl_rune s r l C El Hr) as (Ech & _ & _ & R2 & _). rewrite Ech.
  replace (r <? 0) with false by (symmetry; apply Z.ltb_ge; destruct Hr; lia).
  destruct (r =? 96) eqn:E96; [cbn [snd]; auto|]. apply Z.eqb_neq in E96.
  assert (B : exists body', rest (next s) = body' ++ 96 :: after /\ (length body' < length body)%nat).
  { rewrite R2. rewrite R in El. destruct (encode_shape r Hr) as [(A1 & A2)|(A1 & b & cs & A2 & A3 & _ & A5)]; rewrite A2 in El; cbn [app] in El.
    - destruct body as [|c body]; cbn [app] in El; injection El as E1 E2; [lia|]. exists body. split; [congruence|cbn; lia].
    - destruct body as [|c body]; cbn [app] in El; injection El as E1 E2; [lia|]. revert body E2 R Hk. clear -A5.
      assert (G : forall body, body ++ 96 :: after = cs ++ l -> exists body', l = body' ++ 96 :: after /\ (length body' <= length body)%nat).
      { induction A5 as [|c1 cs Hc Hcs IH1]; intros body0 E; cbn [app] in E; [exists body0; auto|].
        destruct body0 as [|d body0]; cbn [app] in E; injection E as E1 E2.
        - subst c1. discriminate.
        - destruct (IH1 body0 E2) as (b' & B1 & B2). exists b'. split; [exact B1|cbn; lia]. }
      intros body E2 _ _. destruct (G body E2) as (b' & B1 & B2). exists b'. split; [exact B1|cbn; lia]. }
  destruct B as (body' & B1 & B2). destruct (IH offs (cr || (r =? 13)) (next s) body' after C1 B1 ltac:(lia)) as (A & B). split; [exact A|congruence].
Qed.

Lemma aligned_len : forall q n body, aligned q n body -> (n <= length body)%nat.
Proof.
  intros q n body H. induction H as [|r n l Hr N1 N2 N3 H IH|e n l He H IH]; [cbn; lia| |].
  - pose proof (encode_nonempty r). rewrite app_length. destruct (EncodeRune r); [contradiction|cbn; lia].
  - cbn. rewrite app_length. lia.
Qed.
Lemma rest_fuel : forall s, (length (rest s) < fuel)%nat.
Proof. intro s. pose proof (rest_le src s). unfold Scanner.fuel. lia. Qed.

(** ** The scanners of the token kinds *)
Definition ended (c : bytes) : Prop := line_comment c \/ sharp_comment c \/ closed_comment c.

Lemma comment_quiet : forall s0 s lit s', mv s0 s [47] True -> (ch s = 47 \/ ch s = 42) -> scanComment src s = (lit, s') ->
  ended (sub src (off s - 1) (off s')) -> quiet s s'.
Proof.
  intros s0 s lit s' M0 Hc E W. unfold scanComment in E. pose proof (mv_inv src _ _ _ _ M0) as HI.
  pose proof (mv_ascii src Hsrc s (ch s) HI eq_refl ltac:(lia)) as M1. pose proof (mv_inv src _ _ _ _ M1) as I1.
  destruct (ch s =? 47) eqn:E1.
  - pose proof (q_lcom fuel false (next s)) as Q. destruct (lcom_loop src fuel false (next s)) as [cr s1]. injection E as _ <-.
    assert (Q1 : quiet s s1) by (eapply q_trans; [apply q_next|exact Q]). destruct (_ =? _)%nat; [|exact Q1].
    destruct (info_same src (sub src (off s - 1) (off s1)) s1) as (li & ->). exact Q1.
  - zb. destruct Hc as [Hc|Hc]; [lia|]. rewrite Hc in M1. pose proof (q_bcom fuel false (next s)) as Q.
    destruct (bcom_mv src Hsrc fuel false (next s) I1) as (closed & cr & s1 & t & El & M2 & _ & H2).
    { pose proof (rest_fuel (next s)). lia. }
    rewrite El in *. cbn [snd] in Q. destruct closed.
    + injection E as _ <-. eapply q_trans; [apply q_next|exact Q].
    + exfalso. destruct H2 as (_ & H4). injection E as _ <-. cbn [off error] in W.
      assert (M : mv s s1 ([42] ++ t) True) by (eapply mv_app; [exact M1|exact M2]). cbn [app] in M.
      rewrite (mv_sub1 src _ _ _ _ _ _ _ M0 M) in W. destruct W as [(b & X & _)|[(b & X & _)|(b & X & _)]]; try discriminate.
      injection X as X. apply H4. exists b, []. exact X.
Qed.

Lemma sharp_quiet : forall s lit s', scanSharpComment src s = (lit, s') -> quiet s s'.
Proof. intros s lit s' E. unfold scanSharpComment in E. injection E as _ <-. apply q_while. Qed.

Lemma ident_quiet : forall s lit s', scanIdentifier isL isD src s = (lit, s') -> quiet s s'.
Proof. intros s lit s' E. unfold scanIdentifier in E. injection E as _ <-. apply q_while. Qed.

Lemma point_quiet : forall s k lit s', scanNumber src true s = (k, lit, s') -> quiet s s'.
Proof.
  intros s k lit s' E. unfold scanNumber in E. pose proof (q_exp FLOAT (scanMantissa src 10 s)) as Q.
  destruct (scan_exponent src FLOAT (scanMantissa src 10 s)) as [k1 s1]. injection E as _ _ <-. eapply q_trans; [apply q_mant|exact Q].
Qed.

Lemma number_quiet : forall s k lit s', Inv s -> digit (ch s) -> scanNumber src false s = (k, lit, s') ->
  (k = INT -> lit <> [48; 120] /\ lit <> [48; 88] /\ ~ bad_octal lit) -> quiet s s'.
Proof.
  intros s k lit s' HI Hd E W. unfold scanNumber in E. destruct (ch s =? 48) eqn:E0.
  2:{ pose proof (q_frac INT (scanMantissa src 10 s)) as Q. destruct (scan_fraction src INT (scanMantissa src 10 s)) as [k1 s1].
      injection E as _ _ <-. eapply q_trans; [apply q_mant|exact Q]. }
  zb. pose proof (mv_ascii src Hsrc s 48 HI E0 ltac:(lia)) as M1. pose proof (mv_inv src _ _ _ _ M1) as I1.
  destruct ((ch (next s) =? 120) || (ch (next s) =? 88)) eqn:Ex.
  - assert (Hx : ch (next s) = 120 \/ ch (next s) = 88) by (zb; auto). clear Ex.
    pose proof (mv_ascii src Hsrc (next s) (ch (next s)) I1 eq_refl ltac:(lia)) as M2. pose proof (mv_inv src _ _ _ _ M2) as I2.
    destruct (mant_mv src Hsrc 16 _ ltac:(lia) I2) as (hs & M3 & _).
    set (s3 := scanMantissa src 16 (next (next s))) in *.
    assert (M : mv s s3 ([48] ++ [ch (next s)] ++ hs) True) by (eapply mv_app; [exact M1|]; eapply mv_app; [exact M2|exact M3]).
    assert (Q : quiet s s3) by (eapply q_trans; [apply q_after, q_next|apply q_mant]).
    destruct (off s3 - off s <=? 2)%nat eqn:El; [|injection E as _ _ <-; exact Q].
    exfalso. apply Nat.leb_le in El. injection E as <- <- <-. cbn [off error] in W. rewrite (mv_sub src _ _ _ _ M) in W.
    rewrite (mv_off src _ _ _ _ M), !app_length in El. cbn in El. assert (hs = []) by (destruct hs; [reflexivity|cbn in El; lia]). subst hs.
    destruct (W eq_refl) as (W1 & W2 & _). cbn [app] in *. destruct Hx as [Hx|Hx]; rewrite Hx in *; contradiction.
  - destruct (mant_mv src Hsrc 8 _ ltac:(lia) I1) as (d8 & M2 & Hd8 & _). set (s2 := scanMantissa src 8 (next s)) in *.
    pose proof (mv_inv src _ _ _ _ M2) as I2.
    assert (Q2 : quiet s s2) by (eapply q_trans; [apply q_next|apply q_mant]).
    destruct ((ch s2 =? 56) || (ch s2 =? 57)) eqn:E8.
    + assert (E9 : ch s2 = 56 \/ ch s2 = 57) by (zb; auto). clear E8. rename E9 into E8.
      assert (Q3 : quiet s (scanMantissa src 10 s2)) by (eapply q_trans; [exact Q2|apply q_mant]).
      destruct (mant10 src Hsrc s2 I2) as (d9 & M3 & H9 & Hs9). set (s3 := scanMantissa src 10 s2) in *.
      destruct ((ch s3 =? 46) || (ch s3 =? 101) || (ch s3 =? 69) || (ch s3 =? 105)).
      * pose proof (q_frac INT s3) as Q. destruct (scan_fraction src INT s3) as [k1 s4]. injection E as _ _ <-. eapply q_trans; [exact Q3|exact Q].
      * exfalso. injection E as <- <- <-. cbn [off error] in W.
        assert (M : mv s s3 ([48] ++ d8 ++ d9) True) by (eapply mv_app; [exact M1|]; eapply mv_app; [exact M2|exact M3]).
        rewrite (mv_sub src _ _ _ _ M) in W. destruct (W eq_refl) as (_ & _ & W3). apply W3. exists (d8 ++ d9). split; [reflexivity|].
        assert (Hne : d9 <> []).
        { intros ->. pose proof (mv_nil_ch src _ _ _ I2 M3) as C3. rewrite C3 in Hs9.
          assert (D : digit (ch s2)) by (unfold digit; destruct E8; lia). apply dig_iff in D. congruence. }
        assert (Hf : exists d9', d9 = ch s2 :: d9').
        { destruct d9 as [|d d9']; [contradiction|]. pose proof (mv_rest src _ _ _ _ M3) as R. cbn [app] in R.
          inversion H9 as [|? ? D _]; subst. unfold digit in D. exists d9'. f_equal. symmetry. eapply ch_of_rest; [exact I2|exact R|lia]. }
        split.
        -- apply Forall_app. split; [|exact H9]. eapply Forall_impl; [|exact Hd8]. intros c Hc. apply oct_iff in Hc. unfold digit. lia.
        -- destruct Hf as (d9' & ->). destruct E8 as [E8|E8]; rewrite E8; [left|right]; apply in_or_app; right; left; reflexivity.
    + destruct ((ch s2 =? 46) || (ch s2 =? 101) || (ch s2 =? 69) || (ch s2 =? 105)).
      * pose proof (q_frac INT s2) as Q. destruct (scan_fraction src INT s2) as [k1 s4]. injection E as _ _ <-. eapply q_trans; [exact Q2|exact Q].
      * injection E as _ _ <-. exact Q2.
Qed.

Lemma string_quiet : forall s0 s lit s', mv s0 s [34] True -> scanString src s = (lit, s') ->
  (exists n body, lit = 34 :: body ++ [34] /\ good_quoted 34 n body) -> quiet s s'.
Proof.
  intros s0 s lit s' M0 E (n & body & W & G) C. destruct (string_mv src Hsrc s0 s M0) as (t & s2 & E2 & M & _).
  rewrite E in E2. injection E2 as -> <-. injection W as ->. pose proof (mv_rest src _ _ _ _ M) as R. rewrite <- app_assoc in R. cbn [app] in R.
  unfold scanString in E. apply (f_equal snd) in E. cbn [snd] in E. rewrite <- E. pose proof C as (_ & _ & _ & Cr). rewrite R in Cr.
  destruct (gq_aligned 34 ltac:(lia) (length body) n body _ (le_n _) G Cr) as (m & A & _).
  apply (str_quiet m body A _ _ _ _ C R). pose proof (aligned_len _ _ _ A). pose proof (rest_fuel s) as F. rewrite R, app_length in F. lia.
Qed.

Lemma char_quiet : forall s0 s lit s', mv s0 s [39] True -> scanRune src s = (lit, s') ->
  (exists body, lit = 39 :: body ++ [39] /\ good_quoted 39 1 body) -> quiet s s'.
Proof.
  intros s0 s lit s' M0 E (body & W & G) C. destruct (char_mv src Hsrc s0 s M0) as (t & s2 & E2 & M & _).
  rewrite E in E2. injection E2 as -> <-. injection W as ->. pose proof (mv_rest src _ _ _ _ M) as R. rewrite <- app_assoc in R. cbn [app] in R.
  unfold scanRune in E. pose proof C as (_ & _ & _ & Cr). rewrite R in Cr.
  destruct (gq_aligned 39 ltac:(lia) (length body) 1 body _ (le_n _) G Cr) as (m & A & _ & A1). rewrite (A1 eq_refl) in A.
  destruct (rune_quiet 1 body A fuel (off s - 1) 0 s _ C R) as (s1 & E1 & C1 & X1).
  { pose proof (aligned_len _ _ _ A). pose proof (rest_fuel s) as F. rewrite R, app_length in F. lia. }
  rewrite E1 in E. cbn [andb negb Nat.add Nat.eqb] in E. injection E as _ <-. auto.
Qed.

Lemma rawstring_quiet : forall s0 s lit s', mv s0 s [96] True -> scanRawString src s = (lit, s') ->
  (exists body, sub src (off s - 1) (off s') = 96 :: body ++ [96]) -> quiet s s'.
Proof.
  intros s0 s lit s' M0 E (body & W) C. destruct (rawstring_mv src Hsrc s0 s M0) as (t & s2 & E2 & M & _).
  rewrite E in E2. injection E2 as _ <-. rewrite (mv_sub1 src _ _ _ _ _ _ _ M0 M) in W. injection W as ->.
  pose proof (mv_rest src _ _ _ _ M) as R. rewrite <- app_assoc in R. cbn [app] in R.
  unfold scanRawString in E. destruct (raw_quiet fuel (off s - 1) false s body _ C R) as (A & B).
  { pose proof (rest_fuel s) as F. rewrite R, app_length in F. lia. }
  destruct (raw_loop src fuel (off s - 1) false s) as [cr s1]. injection E as _ <-. auto.
Qed.

Lemma lineend_quiet : forall s0 s r s', Cl s0 -> mv s0 s [47] True -> findLineEnd src s = (r, s') -> quiet s s'.
Proof.
  intros s0 s r s' C0 M E C. unfold findLineEnd in E. pose proof (q_fle fuel s) as Q. destruct (fle_loop src fuel s) as [r1 s1]. cbn [snd] in Q.
  destruct (Q C) as (C1 & X1). injection E as _ <-. pose proof C as (A1 & _ & _ & A4).
  assert (Eo : (off s - 1 + 1)%nat = off s) by (rewrite (mv_off src _ _ _ _ M); cbn; lia).
  destruct (next_at (set_cur 47 (off s - 1) (off s - 1 + 1) s1)) as (B1 & B2 & _).
  - cbn [rd set_cur]. rewrite Eo. exact A1.
  - cbn [rd set_cur]. rewrite Eo. exact A4.
  - split; [exact B2|]. rewrite B1. exact X1.
Qed.

(** ** One pass *)
Definition Post (s0 : sc) (r : pass) : Prop :=
  match r with
  | Tok t s' => auto_semi t \/ well_formed (tkind t) (sub src (tpos t - 1) (off s')) -> quiet s0 s'
  | Again s' => ended (sub src (off (skipWhitespace src s0)) (off s')) -> quiet s0 s'
  end.
Lemma post_fin : forall s0 pos b k lit s', (well_formed k (sub src (pos - 1) (off s')) -> quiet s0 s') -> k <> SEMICOLON ->
  Post s0 (finish mSemis pos b k lit s').
Proof.
  intros s0 pos b k lit s' H Hk. unfold finish. cbn [Post tkind tpos]. intros [(X & _)|X]; [contradiction|].
  destruct mSemis; [apply q_isemi|]; apply H; exact X.
Qed.
Lemma post_any : forall s0 pos b k lit s', quiet s0 s' -> Post s0 (finish mSemis pos b k lit s').
Proof. intros s0 pos b k lit s' H. unfold finish. cbn [Post]. intros _. destruct mSemis; [apply q_isemi|]; exact H. Qed.
Lemma post_op : forall s0 pos b r, quiet s0 (snd r) -> Post s0 (fin_op mSemis pos b r).
Proof. intros. apply post_any. assumption. Qed.
Lemma q_switch2 : forall s0 a b s, quiet s0 s -> quiet s0 (snd (switch2 src a b s)).
Proof. intros s0 a b s H. unfold switch2. destruct (ch s =? 61); [apply q_after|]; exact H. Qed.
Lemma q_switch3 : forall s0 a b c d s, quiet s0 s -> quiet s0 (snd (switch3 src a b c d s)).
Proof. intros s0 a b c d s H. unfold switch3. destruct (ch s =? 61); [apply q_after; exact H|]. destruct (ch s =? c); [apply q_after|]; exact H. Qed.
Lemma q_switch4 : forall s0 a b c d e s, quiet s0 s -> quiet s0 (snd (switch4 src a b c d e s)).
Proof.
  intros s0 a b c d e s H. unfold switch4. destruct (ch s =? 61); [apply q_after; exact H|]. destruct (ch s =? c); [|exact H].
  destruct (ch (next s) =? 61); cbn [snd]; repeat apply q_after; exact H.
Qed.
Lemma q_back : forall s0 s s2 c t Q, quiet s0 s -> quiet s0 s2 -> Inv s -> mv s s2 (c :: t) Q -> 0 <= c < 128 ->
  quiet s0 (set_cur c (off s) (off s + 1) s2).
Proof.
  intros s0 s s2 c t Q H H2 HI M Hc C. destruct (H C) as (C1 & X1). destruct (H2 C) as (C2 & X2). split; [|exact X2].
  pose proof (mv_rest src _ _ _ _ M) as R. cbn [app] in R. destruct C1 as (A1 & A2 & A3 & A4).
  unfold Cl. cbn [off ch rd set_cur]. change (rest (set_cur c (off s) (off s + 1) s2)) with (rest s).
  split; [exact A1|]. split; [rewrite R, first_ascii by lia; reflexivity|]. split; [rewrite R, width_ascii by lia; lia|exact A4].
Qed.

Lemma pass_quiet : forall s0, Inv s0 -> Cl s0 -> Post s0 (scan_pass isL isD mComments mSemis src s0).
Proof.
  intros s0 HI0 C0. unfold Scanner.scan_pass.
  destruct (skip_mv src Hsrc s0 HI0) as (g & M0 & _). pose proof (mv_inv src _ _ _ _ M0) as HI.
  pose proof (q_skip s0) as Q0. assert (Hpos : off (skipWhitespace src s0) = (S (off (skipWhitespace src s0)) - 1)%nat) by lia.
  assert (PA : forall s', (ended (sub src (S (off (skipWhitespace src s0)) - 1) (off s')) -> quiet s0 s') -> Post s0 (Again s')).
  { intros s' H. cbn [Post]. rewrite <- Hpos in H. exact H. }
  set (s := skipWhitespace src s0) in *.
  destruct (isLetter isL (ch s)).
  { destruct (scanIdentifier isL isD src s) as [lit s1] eqn:E. apply post_any. eapply q_trans; [exact Q0|eapply ident_quiet; exact E]. }
  destruct ((48 <=? ch s) && (ch s <=? 57)) eqn:ED.
  { assert (Hd : digit (ch s)) by (zb; split; assumption). destruct (scanNumber src false s) as [[k lit] s1] eqn:E.
    assert (Hk : k <> SEMICOLON /\ lit = sub src (off s) (off s1)).
    { destruct (num_mv src Hsrc s HI Hd) as (k' & t & s1' & E' & M & Hn & _). rewrite E in E'. injection E' as -> -> ->. split.
      - destruct Hn; unfold number_kind; try discriminate; repeat destruct (is_nil _); discriminate.
      - symmetry. eapply mv_sub; exact M. }
    destruct Hk as (Hk & ->). apply post_fin; [|exact Hk]. rewrite <- Hpos. intros (_ & _ & W & _). eapply q_trans; [exact Q0|].
    eapply number_quiet; eauto. }
  clear ED. assert (Q1 : quiet s0 (next s)) by (apply q_after; exact Q0).
  destruct (ch s =? -1) eqn:Em.
  { destruct (isemi (next s)); [cbn [Post]; intros _; apply q_isemi; exact Q1|apply post_any; exact Q1]. }
  assert (HC : 0 <= ch s) by (zb; destruct (ch_range src Hsrc s HI) as [(X & _)|X]; [lia|exact X]).
  assert (M1 : forall c, ch s = c -> c < 128 -> mv s (next s) [c] True) by (intros c <- Hc; apply (mv_ascii src Hsrc); auto).
  assert (Et : forall s', off s' = off s' -> sub src (S (off s) - 1) (off s') = sub src (off s) (off s')) by (intros; f_equal; lia).
  destruct (ch s =? 10); [cbn [Post]; intros _; apply q_isemi; exact Q1|].
  assert (EO : forall c, ch s = c -> c < 128 -> (S (off s) - 1)%nat = (off (next s) - 1)%nat).
  { intros c H1 H2. rewrite (mv_off src _ _ _ _ (M1 c H1 H2)). cbn. lia. }
  destruct (ch s =? 34) eqn:E34.
  { zb. destruct (scanString src (next s)) as [lit s2] eqn:E. apply post_fin; [|discriminate].
    rewrite (EO _ E34) by lia. pose proof (M1 _ E34 ltac:(lia)) as M. intros (W & _). eapply q_trans; [exact Q1|].
    eapply string_quiet; [exact M|exact E|].
    destruct (string_mv src Hsrc s (next s) M) as (t & s2' & E' & M2 & _).
    rewrite E in E'. injection E' as -> <-. rewrite (mv_sub1 src _ _ _ _ _ _ _ M M2) in W.
    destruct (W eq_refl) as [X|(b & X & _)]; [exact X|discriminate]. }
  destruct (ch s =? 39) eqn:E39.
  { zb. destruct (scanRune src (next s)) as [lit s2] eqn:E. apply post_fin; [|discriminate].
    rewrite (EO _ E39) by lia. pose proof (M1 _ E39 ltac:(lia)) as M. intros (_ & W & _). eapply q_trans; [exact Q1|].
    eapply char_quiet; [exact M|exact E|]. destruct (char_mv src Hsrc s (next s) M) as (t & s2' & E' & M2 & _).
    rewrite E in E'. injection E' as -> <-. rewrite <- (mv_sub1 src _ _ _ _ _ _ _ M M2). apply W. reflexivity. }
  destruct (ch s =? 96) eqn:E96.
  { zb. destruct (scanRawString src (next s)) as [lit s2] eqn:E. apply post_fin; [|discriminate].
    rewrite (EO _ E96) by lia. pose proof (M1 _ E96 ltac:(lia)) as M. intros (W & _). eapply q_trans; [exact Q1|].
    eapply rawstring_quiet; [exact M|exact E|]. destruct (rawstring_mv src Hsrc s (next s) M) as (t & s2' & E' & M2 & _).
    rewrite E in E'. injection E' as _ <-. destruct (W eq_refl) as [(n & b & X & _)|(b & X & _)]; [|eauto].
    rewrite (mv_sub1 src _ _ _ _ _ _ _ M M2) in X. discriminate. }
  destruct (ch s =? 58); [apply post_op, q_switch2, Q1|].
  destruct (ch s =? 46).
  { destruct ((48 <=? ch (next s)) && (ch (next s) <=? 57)).
    - destruct (scanNumber src true (next s)) as [[k lit] s2] eqn:E. apply post_any. eapply q_trans; [exact Q1|]. eapply point_quiet; exact E.
    - destruct (ch (next s) =? 46); [|apply post_any, Q1]. destruct (ch (next (next s)) =? 46); apply post_any; repeat apply q_after; exact Q0. }
  repeat match goal with
  | |- Post s0 (if ch s =? 47 then _ else _) => fail 1
  | |- Post s0 (if ch s =? ?c then _ else _) => destruct (ch s =? c);
      [first [apply post_any, Q1 | apply post_op; first [apply q_switch2, Q1 | apply q_switch3, Q1]]|]
  end.
  destruct (ch s =? 47) eqn:E47.
  { zb. pose proof (M1 _ E47 ltac:(lia)) as M. destruct ((ch (next s) =? 47) || (ch (next s) =? 42)) eqn:E1; [|apply post_op, q_switch2, Q1].
    assert (Hc : ch (next s) = 47 \/ ch (next s) = 42) by (zb; auto). clear E1.
    destruct (if isemi (next s) then findLineEnd src (next s) else (false, next s)) as [le s2] eqn:E2.
    assert (X : quiet s0 s2 /\ mv s s2 [47] True).
    { destruct (isemi (next s)) eqn:Es.
      - destruct (lineend_mv src Hsrc s (next s) HI M Es) as (r & s' & E' & M' & _). rewrite E2 in E'. injection E' as <- <-. split; [|exact M'].
        eapply q_trans; [exact Q1|]. eapply lineend_quiet; [exact (proj1 (Q0 C0))|exact M|exact E2].
      - injection E2 as <- <-. split; [exact Q1|exact M]. }
    destruct X as (Q2 & M2). destruct le.
    - cbn [Post]. intros _. apply q_isemi. eapply q_back; [exact Q0|exact Q2|exact HI|exact M2|lia].
    - assert (Hc2 : ch s2 = 47 \/ ch s2 = 42).
      { pose proof (mv_rest src _ _ _ _ M) as R. rewrite (mv_rest src _ _ _ _ M2) in R. cbn in R. injection R as R.
        destruct (mv_inv src _ _ _ _ M) as (_ & A & _). destruct (mv_inv src _ _ _ _ M2) as (_ & B & _). rewrite B, R, <- A. exact Hc. }
      assert (EO2 : (S (off s) - 1)%nat = (off s2 - 1)%nat) by (rewrite (mv_off src _ _ _ _ M2); cbn; lia).
      destruct (scanComment src s2) as [lit s3] eqn:E3. destruct mComments.
      + apply post_fin; [|discriminate]. rewrite EO2. intros (_ & _ & _ & W & _). eapply q_trans; [exact Q2|].
        eapply comment_quiet; [exact M2|exact Hc2|exact E3|apply W; reflexivity].
      + apply PA. rewrite EO2. intro W. apply q_isemi. eapply q_trans; [exact Q2|].
        eapply comment_quiet; [exact M2|exact Hc2|exact E3|exact W]. }
  destruct (ch s =? 35) eqn:E35.
  { zb. pose proof (M1 _ E35 ltac:(lia)) as M. destruct (isemi (next s)).
    - cbn [Post]. intros _. apply q_isemi. eapply q_back; [exact Q0|exact Q1|exact HI|exact M|lia].
    - destruct (scanSharpComment src (next s)) as [lit s2] eqn:E2. pose proof (sharp_quiet _ _ _ E2) as Q2.
      assert (Q3 : quiet s0 s2) by (eapply q_trans; [exact Q1|exact Q2]).
      destruct mComments; [apply post_any, Q3|cbn [Post]; intros _; exact Q3]. }
  destruct (ch s =? 37); [apply post_op, q_switch2, Q1|].
  destruct (ch s =? 94); [apply post_op, q_switch2, Q1|].
  destruct (ch s =? 60).
  { destruct (ch (next s) =? 45); [apply post_any, q_after, Q1|apply post_op, q_switch4, Q1]. }
  destruct (ch s =? 62); [apply post_op, q_switch4, Q1|].
  destruct (ch s =? 61); [apply post_op, q_switch2, Q1|].
  destruct (ch s =? 33); [apply post_op, q_switch2, Q1|].
  destruct (ch s =? 38).
  { destruct (ch (next s) =? 94); [apply post_op, q_switch2, q_after, Q1|apply post_op, q_switch3, Q1]. }
  destruct (ch s =? 124); [apply post_op, q_switch3, Q1|].
  destruct (ch s =? 63); [apply post_any, Q1|].
  destruct (ch s =? 126); [apply post_any, Q1|].
  destruct (ch s =? 64); [apply post_any, Q1|].
  apply post_fin; [|discriminate]. intros (_ & _ & _ & _ & W). specialize (W eq_refl).
  destruct (ch s =? bom) eqn:Eb; [exact Q1|]. exfalso. cbn [off error] in W. rewrite <- Hpos in W.
  destruct (mv_any src Hsrc s HI HC) as (tc & M & _ & _ & Ht). rewrite (mv_sub src _ _ _ _ M) in W.
  destruct Ht as [(_ & Ht)|(_ & Ht)]; rewrite W in Ht; [discriminate|inversion Ht; lia].
Qed.

(** ** A call of Scan *)
Notation Sinv := (Sinv mSemis).
Notation step := (step isL isD mComments mSemis src).
Notation scan_loop := (scan_loop isL isD mComments mSemis src).
Notation scan_pass := (scan_pass isL isD mComments mSemis src).

Lemma step_text : forall s s' g text t es, step s s' g text t es ->
  rest s = g ++ text ++ rest s' /\ off s' = (off s + length g + length text)%nat /\ sub src (tpos t - 1) (off s') = text.
Proof.
  intros s s' g text t es [X _ _ _ P _ _]. pose proof (ext_rest _ _ _ _ _ X) as R. pose proof (ext_off _ _ _ _ _ X) as O.
  change (rest (set_isemi (isemi s') s)) with (rest s) in R. rewrite <- app_assoc in R. cbn [off set_isemi] in O. rewrite app_length in O.
  split; [exact R|]. split; [lia|]. rewrite P. unfold sub. replace (S (off s + length g) - 1)%nat with (off s + length g)%nat by lia.
  replace (off s' - (off s + length g))%nat with (length text) by lia.
  replace (skipn (off s + length g) src) with (skipn (length g) (rest s)) by (unfold ScannerProofs.rest; rewrite skipn_skipn'; f_equal; lia). rewrite R.
  rewrite skipn_app, skipn_all2, Nat.sub_diag by lia. cbn [app skipn]. rewrite firstn_app, Nat.sub_diag, firstn_all. apply app_nil_r.
Qed.

Lemma closed_gap_ws : forall w g after, Forall ws w -> closed_gap (w ++ g) after -> closed_gap g after.
Proof.
  intros w g after H. induction H as [|b w Hb Hw IH]; cbn [app]; auto. intro G. apply IH.
  inversion G as [? E|b' g' ? Hb' G' E|c g' ? Hc G' E]; subst; [exact G'|].
  exfalso. assert (Cm : comment c (g' ++ after)) by (destruct Hc as [Hc|Hc]; [left|right; left]; exact Hc).
  destruct (comment_head _ _ Cm) as (x & y & -> & Hx). cbn in E. injection E as -> _. unfold ws in Hb. lia.
Qed.
Lemma closed_gap_comment : forall c g after, comment c (g ++ after) -> closed_gap (c ++ g) after -> ended c /\ closed_gap g after.
Proof.
  intros c g after Hc G. destruct (comment_head _ _ Hc) as (x & y & Ec & Hx).
  inversion G as [? E|b' g' ? Hb' G' E|c' g' ? Hc' G' E]; subst.
  - discriminate.
  - exfalso. cbn in E. injection E as -> _. unfold ws in Hb'. lia.
  - assert (Cm : comment c' (g' ++ after)) by (destruct Hc' as [Hc'|Hc']; [left|right; left]; exact Hc').
    assert (EE : c' ++ g' ++ after = (x :: y) ++ g ++ after) by (rewrite !app_assoc, E; reflexivity).
    assert (c' = x :: y) by (eapply comment_det; eauto). subst c'. apply app_inv_head in E. subst g'.
    split; [|exact G']. unfold ended. destruct Hc' as [[[H|H] _]|H]; auto.
Qed.

Lemma scan_quiet : forall k s t s' g text es, Inv s -> Sinv s -> Cl s -> (length (rest s) < k)%nat -> scan_loop k s = (t, s') ->
  step s s' g text t es -> closed_gap g (text ++ rest s') -> auto_semi t \/ well_formed (tkind t) text -> Cl s' /\ errs s' = errs s.
Proof.
  induction k as [|k IH]; intros s t s' g text es HI HS C Hk E ST G W; [lia|].
  pose proof (step_text _ _ _ _ _ _ ST) as (R & O & T).
  pose proof (pass_quiet s HI C) as P. pose proof (pass_spec isL isD mComments mSemis src Hsrc s HI HS) as PS.
  assert (U : scan_loop (S k) s = match scan_pass s with Tok t s' => (t, s') | Again s' => scan_loop k s' end) by reflexivity.
  rewrite U in E. clear U. destruct (scan_pass s) as [t1 s1|s1]; cbn [pspec Post] in *.
  - injection E as -> ->. rewrite T in P. apply P; assumption.
  - destruct PS as (w & c & Hw & Hc & Hcom & M & Hs1 & _ & _).
    pose proof (mv_rest src _ _ _ _ M) as R1. pose proof (mv_off src _ _ _ _ M) as O1. pose proof (mv_inv src _ _ _ _ M) as I1.
    change (rest (set_isemi false s)) with (rest s) in R1. cbn [off set_isemi] in O1. rewrite <- app_assoc in R1. rewrite app_length in O1.
    assert (HL : (length (rest s1) < length (rest s))%nat) by (rewrite R1, !app_length; destruct c; [contradiction|cbn; lia]).
    assert (HS1 : Sinv s1) by (intro; exact Hs1).
    destruct (step_spec isL isD mComments mSemis src Hsrc k s1 I1 HS1 ltac:(lia)) as (g2 & text2 & e2 & t2 & s2 & E2 & ST2 & _).
    rewrite E in E2. injection E2 as <- <-. pose proof (step_text _ _ _ _ _ _ ST2) as (R2 & O2 & T2).
    assert (L : length g = length (w ++ c ++ g2)).
    { destruct ST as [_ _ _ _ P1 _ _], ST2 as [_ _ _ _ P2 _ _]. rewrite !app_length. lia. }
    assert (EE : g ++ text ++ rest s' = (w ++ c ++ g2) ++ text2 ++ rest s') by (rewrite <- R, R1, R2, <- !app_assoc; reflexivity).
    destruct (app_inj_length _ _ _ _ L EE) as (-> & E3). apply app_inv_tail in E3. clear T T2. subst text2.
    assert (Hww : Forall ws w) by (eapply Forall_impl; [|exact Hw]; intros a Ha; eapply white_is_ws; exact Ha).
    apply closed_gap_ws in G; [|exact Hww]. apply closed_gap_comment in G; [|rewrite <- R2; exact Hcom]. destruct G as (Ge & G2).
    destruct (skip_mv src Hsrc s HI) as (w' & M' & Hw' & Hstop). pose proof (mv_rest src _ _ _ _ M') as R'. pose proof (mv_off src _ _ _ _ M') as O'.
    assert (w = w').
    { apply (ws_prefix_det (fun c => is_white (isemi s) c = true) w w' (c ++ rest s1) (rest (skipWhitespace src s)) Hw Hw').
      - intros b r Eb Hb. destruct (comment_head _ _ Hcom) as (x & y & -> & Hx). cbn in Eb. injection Eb as -> _.
        apply white_is_ws in Hb. unfold ws in Hb. lia.
      - intros b r Eb Hb. apply white_is_ws in Hb as Hb'. assert (b < 128) by (unfold ws in Hb'; lia).
        assert (ch (skipWhitespace src s) = b) by (eapply ch_of_rest; [eapply mv_inv; exact M'|exact Eb|assumption]). congruence.
      - congruence. }
    subst w'. assert (Q1 : quiet s s1).
    { apply P. replace (sub src (off (skipWhitespace src s)) (off s1)) with c; [exact Ge|]. unfold sub. rewrite O', O1.
      replace (off s + (length w + length c) - (off s + length w))%nat with (length c) by lia.
      replace (skipn (off s + length w) src) with (skipn (length w) (rest s)) by (unfold ScannerProofs.rest; rewrite skipn_skipn'; f_equal; lia). rewrite R1.
      rewrite skipn_app, skipn_all2, Nat.sub_diag by lia. cbn [app skipn]. rewrite firstn_app, Nat.sub_diag, firstn_all. symmetry. apply app_nil_r. }
    destruct (Q1 C) as (C1 & X1). destruct (IH s1 t s' g2 text e2 I1 HS1 C1 ltac:(lia) E ST2 G2 W) as (C2 & X2). split; [exact C2|congruence].
Qed.

(** ** Runs *)
Hypothesis HL : isL RuneError = false.
Hypothesis HD : isD RuneError = false.
Notation scans := (scans isL isD mComments mSemis src).
Notation scanned := (scanned isL isD mComments mSemis).
Notation at_pieces := (at_pieces mSemis src).

Lemma scans_quiet : forall ps s b after, at_pieces s b -> Cl s -> rest s = flat ps ++ after -> scanned b (off s) ps after ->
  good_pieces ps after -> exists s', scans (length ps) s = (map p_tok ps, s') /\ rest s' = after /\ errs s' = errs s.
Proof.
  induction ps as [|p ps IH]; intros s b after Ha C Hr Hs G.
  - exists s. split; [reflexivity|]. split; [exact Hr|reflexivity].
  - destruct (scan_sound isL isD mComments mSemis src Hsrc s b Ha) as (p1 & s1 & e1 & E & A1 & R1 & O1 & _ & _ & _ & _ & S1).
    destruct G as (G & Gs). apply scanned_one in Hs. destruct Hs as (Hs1 & Hs2).
    assert (X : scanned b (off s) [p1] (rest s1)) by (apply S1; [reflexivity|constructor]).
    rewrite flat_cons, <- !app_assoc in Hr.
    destruct (piece_det isL isD mComments mSemis HL HD b (off s) p1 p (rest s1) (flat ps ++ after)) as (-> & Er); auto.
    { rewrite <- R1. apply rest_bytes. exact Hsrc. }
    { congruence. }
    rewrite <- O1 in Hs2. destruct Ha as [HI HS _].
    destruct (scan_step isL isD mComments mSemis src Hsrc s HI HS) as (g & text & es & t & s2 & E2 & ST & _ & _).
    rewrite E in E2. injection E2 as <- <-. pose proof (step_text _ _ _ _ _ _ ST) as (R2 & O2 & T2).
    assert (Lg : length g = length (p_gap p)).
    { destruct ST as [_ _ _ _ P _ _]. inversion Hs1; subst; lia. }
    assert (EE : g ++ text ++ rest s1 = p_gap p ++ p_text p ++ rest s1) by congruence.
    destruct (app_inj_length _ _ _ _ Lg EE) as (-> & E3). apply app_inv_tail in E3. clear T2. subst text.
    destruct G as (G1 & G2). rewrite <- Er in G1.
    destruct (scan_quiet (fuel) s (p_tok p) s1 (p_gap p) (p_text p) es HI HS C (rest_fuel s) E ST G1 G2) as (C1 & X1).
    destruct (IH s1 (p :: b) after A1 C1 Er Hs2 Gs) as (s' & E' & R' & X'). exists s'. cbn [ScanRun.scans length]. rewrite E, E'.
    split; [reflexivity|]. split; [exact R'|congruence].
Qed.
End Clean.
