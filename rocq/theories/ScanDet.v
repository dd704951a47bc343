(** The lexical grammar is unambiguous: a text starts with at most one lexeme. *)
From Verif Require Import Base Token Utf8 Utf8Proofs Scanner ScannerSpec ScannerProofs2 ScannerProofs3.

(** ** A decoded character does not depend on what follows *)
Lemma first_app : forall t l, t <> [] -> first t <> RuneError -> first (t ++ l) = first t /\ width (t ++ l) = width t.
Proof.
  intros [|b0 t] l Hne H; [congruence|]. unfold first, width in *. simpl app. unfold DecodeRune in *.
  destruct (b0 <? 128); [auto|]. destruct (b0 <? 194); [auto|].
  destruct (b0 <? 224).
  { destruct t as [|b1 t]; simpl in *; [congruence|]. destruct (cont b1); auto. }
  destruct (b0 <? 240).
  { destruct t as [|b1 [|b2 t]]; simpl in *; try congruence. destruct (_ && cont b2); auto. }
  destruct (b0 <? 245); [|auto].
  destruct t as [|b1 [|b2 [|b3 t]]]; simpl in *; try congruence. destruct (_ && cont b3); auto.
Qed.

Lemma app_firstn : forall (t l : bytes) n, (n <= length t)%nat -> firstn n (t ++ l) = firstn n t.
Proof. intros. rewrite firstn_app. replace (n - length t)%nat with 0%nat by lia. simpl. apply app_nil_r. Qed.
Lemma app_skipn : forall (t l : bytes) n, (n <= length t)%nat -> skipn n (t ++ l) = skipn n t ++ l.
Proof. intros. rewrite skipn_app. replace (n - length t)%nat with 0%nat by lia. reflexivity. Qed.
Lemma same_len : forall (t1 t2 a1 a2 : bytes), t1 ++ a1 = t2 ++ a2 -> length t1 = length t2 -> t1 = t2.
Proof.
  intros t1 t2 a1 a2 H L. assert (E : firstn (length t1) (t1 ++ a1) = firstn (length t2) (t2 ++ a2)) by congruence.
  rewrite !firstn_app, !Nat.sub_diag, !firstn_all in E. simpl in E. rewrite !app_nil_r in E. exact E.
Qed.

Lemma chars_det : forall (p : Z -> Prop), ~ p RuneError -> forall t1, chars p t1 -> forall t2 a1 a2,
  Forall byte (t1 ++ a1) -> chars p t2 -> ~ p (first a1) -> ~ p (first a2) -> t1 ++ a1 = t2 ++ a2 -> t1 = t2.
Proof.
  intros p Hp. assert (F : forall t l, t <> [] -> p (first t) -> first (t ++ l) = first t /\ width (t ++ l) = width t).
  { intros t l Hne Ht. apply first_app; auto. intro X. apply Hp. rewrite <- X. exact Ht. }
  intros t1 H1. induction H1 as [|t1 Hne1 P1 C1 IH]; intros t2 a1 a2 Hb H2 N1 N2 E.
  - destruct H2 as [|t2 Hne2 P2 C2]; [reflexivity|]. exfalso. apply N1. simpl in E. rewrite E.
    destruct (F t2 a2 Hne2 P2) as (X & _). rewrite X. exact P2.
  - destruct (F t1 a1 Hne1 P1) as (X1 & W1). destruct H2 as [|t2 Hne2 P2 C2].
    + exfalso. apply N2. simpl in E. rewrite <- E, X1. exact P1.
    + destruct (F t2 a2 Hne2 P2) as (X2 & W2). rewrite E in W1.
      assert (Hw : width t1 = width t2) by congruence.
      assert (L : forall t, t <> [] -> Forall byte t -> (1 <= width t <= length t)%nat).
      { intros t Hn Ht. destruct t as [|b t]; [congruence|]. inversion Ht; subst. apply width_bounds. assumption. }
      assert (B1 : Forall byte t1) by (apply Forall_app in Hb; tauto).
      assert (B2 : Forall byte t2) by (rewrite E in Hb; apply Forall_app in Hb; tauto).
      pose proof (L t1 Hne1 B1) as L1. pose proof (L t2 Hne2 B2) as L2.
      rewrite <- (firstn_skipn (width t1) t1), <- (firstn_skipn (width t2) t2). f_equal.
      * rewrite <- (app_firstn t1 a1) by lia. rewrite <- (app_firstn t2 a2) by lia. congruence.
      * apply (IH (skipn (width t2) t2) a1 a2); auto.
        -- rewrite <- app_skipn by lia. rewrite Forall_forall in Hb |- *. intros x Hx. apply Hb.
           rewrite <- (firstn_skipn (width t1) (t1 ++ a1)). apply in_or_app. auto.
        -- rewrite <- !app_skipn by lia. congruence.
Qed.

(** ** Lengths *)
Fixpoint qlen (q : Z) (l : bytes) : nat :=
  match l with
  | [] => 0%nat
  | c :: l1 =>
      if c =? 10 then 0%nat
      else if c =? q then 1%nat
      else if c =? 92 then
        match l1 with
        | [] => 1%nat
        | d :: l2 => if d =? 10 then 1%nat else S (S (qlen q l2))
        end
      else S (qlen q l1)
  end.
Lemma qlen_quoted : forall q b X, q <> 92 -> quoted q b -> qlen q (b ++ X) = (length b + qlen q X)%nat.
Proof.
  intros q b X Hq H. induction H as [|b l Hb1 Hb2 Hb3 H IH|c l Hc H IH].
  - reflexivity.
  - simpl. apply Z.eqb_neq in Hb1, Hb2, Hb3. rewrite Hb1, Hb2, Hb3, IH. reflexivity.
  - assert (E : (92 =? q) = false) by (apply Z.eqb_neq; lia). apply Z.eqb_neq in Hc.
    cbn [app qlen]. rewrite E, Hc, IH. change (92 =? 10) with false. change (92 =? 92) with true. reflexivity.
Qed.
Lemma quoted_len : forall q t after, q <> 92 -> q <> 10 -> quoted_lit q t after ->
  exists r, t = q :: r /\ length r = qlen q (r ++ after).
Proof.
  intros q t after Hq H10 [(b & -> & H)|(b & Ht & H & Ha)].
  - exists (b ++ [q]). split; [reflexivity|]. rewrite <- app_assoc, qlen_quoted, app_length by assumption. simpl.
    apply Z.eqb_neq in H10. rewrite H10, Z.eqb_refl. reflexivity.
  - assert (E0 : qlen q after = 0%nat) by (destruct Ha as [-> | (r & ->)]; reflexivity).
    destruct Ht as [-> | ->].
    + exists b. split; [reflexivity|]. rewrite qlen_quoted by assumption. lia.
    + exists (b ++ [92]). split; [reflexivity|]. rewrite <- app_assoc, qlen_quoted, app_length by assumption. cbn [app qlen length].
      assert (E : (92 =? q) = false) by (apply Z.eqb_neq; lia). rewrite E. change (92 =? 10) with false. change (92 =? 92) with true.
      destruct Ha as [-> | (r & ->)]; reflexivity.
Qed.

Fixpoint rlen (l : bytes) : nat := match l with [] => 0%nat | c :: r => if c =? 96 then 1%nat else S (rlen r) end.
Lemma rlen_app : forall b X, ~ In 96 b -> rlen (b ++ X) = (length b + rlen X)%nat.
Proof.
  induction b as [|c b IH]; intros X H; [reflexivity|]. simpl. destruct (c =? 96) eqn:E.
  - apply Z.eqb_eq in E. subst. contradiction H. left. reflexivity.
  - rewrite IH; [reflexivity|]. intro Y. apply H. right. exact Y.
Qed.
Lemma raw_len : forall t after, raw_lit t after -> exists r, t = 96 :: r /\ length r = rlen (r ++ after).
Proof.
  intros t after [(b & -> & H)|(b & -> & H & ->)].
  - exists (b ++ [96]). split; [reflexivity|]. rewrite <- app_assoc, rlen_app, app_length by assumption. reflexivity.
  - exists b. split; [reflexivity|]. rewrite rlen_app by assumption. simpl. lia.
Qed.

Fixpoint llen (l : bytes) : nat := match l with [] => 0%nat | c :: r => if c =? 10 then 0%nat else S (llen r) end.
Lemma llen_app : forall b after, ~ In 10 b -> at_line_end after -> llen (b ++ after) = length b.
Proof.
  intros b after H Ha. induction b as [|c b IH].
  - destruct Ha as [-> | (r & ->)]; reflexivity.
  - simpl. destruct (c =? 10) eqn:E.
    + apply Z.eqb_eq in E. subst. contradiction H. left. reflexivity.
    + rewrite IH; [reflexivity|]. intro Y. apply H. right. exact Y.
Qed.

Fixpoint clen (l : bytes) : nat :=
  match l with
  | [] => 0%nat
  | c :: r => match r with d :: _ => if (c =? 42) && (d =? 47) then 2%nat else S (clen r) | [] => S (clen r) end
  end.
Lemma has_close_cons : forall c l, has_close l -> has_close (c :: l).
Proof. intros c l (a & b & ->). exists (c :: a), b. reflexivity. Qed.
Lemma clen_closed : forall b after, ~ has_close (b ++ [42]) -> clen (b ++ 42 :: 47 :: after) = (length b + 2)%nat.
Proof.
  induction b as [|c b IH]; intros after H; [reflexivity|].
  assert (H' : ~ has_close (b ++ [42])) by (intro X; apply H; apply has_close_cons; exact X).
  specialize (IH after H'). change ((c :: b) ++ 42 :: 47 :: after) with (c :: (b ++ 42 :: 47 :: after)). cbn [clen].
  destruct (b ++ 42 :: 47 :: after) as [|d r] eqn:Eb; [destruct b; discriminate|].
  destruct ((c =? 42) && (d =? 47)) eqn:E.
  - exfalso. apply andb_true_iff in E. rewrite !Z.eqb_eq in E. destruct E as (-> & ->). apply H.
    destruct b as [|e b]; simpl in Eb; injection Eb as Eb1 Eb2; [discriminate|]. subst. exists [], (b ++ [42]). reflexivity.
  - rewrite IH. simpl. lia.
Qed.
Lemma clen_open : forall b, ~ has_close b -> clen b = length b.
Proof.
  induction b as [|c b IH]; intros H; [reflexivity|].
  assert (H' : ~ has_close b) by (intro X; apply H; apply has_close_cons; exact X).
  cbn [clen]. rewrite (IH H'). destruct b as [|d r]; [reflexivity|].
  destruct ((c =? 42) && (d =? 47)) eqn:E; [|reflexivity].
  exfalso. apply andb_true_iff in E. rewrite !Z.eqb_eq in E. destruct E as (-> & ->). apply H. exists [], r. reflexivity.
Qed.

(** Length of the comment starting a text. *)
Definition comlen (l : bytes) : nat :=
  match l with
  | 35 :: r => S (llen r)
  | 47 :: 42 :: r => S (S (clen r))
  | 47 :: 47 :: r => S (S (llen r))
  | _ => 0%nat
  end.
Lemma comment_len : forall t after, comment t after -> comlen (t ++ after) = length t.
Proof.
  intros t after [[[(b & -> & H)|(b & -> & H)] Ha]|[(b & -> & H)|[(b & -> & H) ->]]]; simpl.
  - rewrite llen_app; auto.
  - rewrite llen_app; auto.
  - rewrite <- app_assoc. simpl. rewrite clen_closed, app_length by assumption. reflexivity.
  - rewrite app_nil_r, clen_open by assumption. reflexivity.
Qed.
Lemma comment_det : forall t1 t2 a1 a2, comment t1 a1 -> comment t2 a2 -> t1 ++ a1 = t2 ++ a2 -> t1 = t2.
Proof.
  intros t1 t2 a1 a2 H1 H2 E. eapply same_len; [exact E|].
  rewrite <- (comment_len _ _ H1), <- (comment_len _ _ H2). congruence.
Qed.

(** ** Longest matches *)
Lemma longest_det : forall L t1 a1 t2 a2, longest L t1 a1 -> longest L t2 a2 -> t1 ++ a1 = t2 ++ a2 -> t1 = t2.
Proof.
  intros L t1 a1 t2 a2 (L1 & M1) (L2 & M2) E. destruct (app_cases _ _ _ _ E) as (z & [(X & Y)|(X & Y)]).
  - destruct z as [|c z]; [rewrite app_nil_r in X; exact X|]. exfalso. apply (M2 (c :: z) a1); [exact Y|discriminate|congruence].
  - destruct z as [|c z]; [rewrite app_nil_r in X; auto|]. exfalso. apply (M1 (c :: z) a2); [exact Y|discriminate|congruence].
Qed.

Definition numk (t : bytes) : Z :=
  match t with
  | _ :: 120 :: _ => INT
  | _ :: 88 :: _ => INT
  | _ => if existsb (Z.eqb 105) t then IMAG else if existsb (fun c => (c =? 46) || (c =? 101) || (c =? 69)) t then FLOAT else INT
  end.
Lemma digit_none : forall (f : Z -> bool) ds, Forall digit ds -> (forall c, digit c -> f c = false) -> existsb f ds = false.
Proof. intros f ds H Hf. induction H; simpl; auto. rewrite Hf, IHForall by assumption. reflexivity. Qed.
Lemma ex_i : forall ex, exponent ex -> existsb (Z.eqb 105) ex = false.
Proof.
  intros ex [-> | (e & sg & ds & -> & He & Hs & Hd)]; [reflexivity|]. simpl. rewrite existsb_app.
  rewrite (digit_none _ ds Hd) by (intros c Hc; unfold digit in Hc; apply Z.eqb_neq; lia).
  destruct He as [-> | ->]; destruct Hs as [-> | [-> | ->]]; reflexivity.
Qed.
Lemma im_i : forall im, imag im -> existsb (Z.eqb 105) im = negb (is_nil im).
Proof. intros im [-> | ->]; reflexivity. Qed.
Lemma numk_general : forall t, (forall a r, t <> a :: 120 :: r /\ t <> a :: 88 :: r) ->
  numk t = if existsb (Z.eqb 105) t then IMAG else if existsb (fun c => (c =? 46) || (c =? 101) || (c =? 69)) t then FLOAT else INT.
Proof.
  intros t H. destruct t as [|a [|b r]]; try reflexivity.
  destruct (Z.eq_dec b 120) as [->|H1]; [destruct (H a r) as (X & _); contradiction X; reflexivity|].
  destruct (Z.eq_dec b 88) as [->|H2]; [destruct (H a r) as (_ & X); contradiction X; reflexivity|].
  unfold numk. destruct b as [|p|p]; try reflexivity.
  do 7 (destruct p as [p|p|]; try reflexivity; try congruence).
Qed.
Lemma tail_chars : forall fr ex im, fraction fr -> exponent ex -> imag im -> Forall (fun c => c <> 120 /\ c <> 88) (fr ++ ex ++ im).
Proof.
  intros fr ex im Hf He Hi.
  assert (D : forall ds, Forall digit ds -> Forall (fun c => c <> 120 /\ c <> 88) ds).
  { intros ds H. eapply Forall_impl; [|exact H]. intros c Hc. unfold digit in Hc. lia. }
  apply Forall_app. split; [|apply Forall_app; split].
  - destruct Hf as [-> | (ds & -> & Hd)]; [constructor|]. constructor; [lia|auto].
  - destruct He as [-> | (e & sg & ds & -> & He & Hs & Hd)]; [constructor|]. constructor; [lia|].
    apply Forall_app. split; [|auto]. destruct Hs as [-> | [-> | ->]]; repeat constructor; lia.
  - destruct Hi as [-> | ->]; repeat constructor; lia.
Qed.
Lemma no_x : forall t, Forall (fun c => c <> 120 /\ c <> 88) t -> forall a r, t <> a :: 120 :: r /\ t <> a :: 88 :: r.
Proof.
  intros t H a r. split; intros ->; inversion H as [|x l _ H2]; inversion H2 as [|y m H3 _]; lia.
Qed.
Lemma number_kind_det : forall k t, number k t -> k = numk t.
Proof.
  intros k t H. destruct H as [x hs Hx Hh|ds fr ex im Hne Hd Hf He Hi|d ds ex im Hd Hds He Hi].
  - destruct Hx as [-> | ->]; reflexivity.
  - assert (T : Forall (fun c => c <> 120 /\ c <> 88) (ds ++ fr ++ ex ++ im)).
    { apply Forall_app. split; [|apply tail_chars; assumption]. eapply Forall_impl; [|exact Hd]. intros c Hc. unfold digit in Hc. lia. }
    rewrite numk_general by (apply no_x; exact T). rewrite !existsb_app, (ex_i ex He), (im_i im Hi).
    rewrite (digit_none (Z.eqb 105) ds Hd) by (intros c Hc; unfold digit in Hc; apply Z.eqb_neq; lia).
    assert (F105 : existsb (Z.eqb 105) fr = false).
    { destruct Hf as [-> | (fs & -> & Hfs)]; [reflexivity|]. simpl.
      apply digit_none; [exact Hfs|]. intros c Hc; unfold digit in Hc; apply Z.eqb_neq; lia. }
    rewrite F105. unfold number_kind. simpl. destruct Hi as [-> | ->]; [|reflexivity]. simpl.
    set (f := fun c => (c =? 46) || (c =? 101) || (c =? 69)).
    assert (Df : forall l, Forall digit l -> existsb f l = false).
    { intros l Hl. apply digit_none; [exact Hl|]. intros c Hc. unfold digit in Hc. unfold f.
      repeat (apply orb_false_iff; split); apply Z.eqb_neq; lia. }
    rewrite (Df ds Hd).
    destruct Hf as [-> | (fs & -> & Hfs)]; [|reflexivity].
    destruct He as [-> | (e & sg & es & -> & He & Hs & Hes)]; [reflexivity|].
    destruct He as [-> | ->]; reflexivity.
  - assert (T : Forall (fun c => c <> 120 /\ c <> 88) (46 :: d :: ds ++ ex ++ im)).
    { constructor; [lia|]. constructor; [unfold digit in Hd; lia|]. apply Forall_app. split.
      - eapply Forall_impl; [|exact Hds]. intros c Hc. unfold digit in Hc. lia.
      - apply (tail_chars [] ex im); auto. left. reflexivity. }
    rewrite numk_general by (apply no_x; exact T). cbn [existsb]. rewrite !existsb_app, (ex_i ex He), (im_i im Hi).
    rewrite (digit_none (Z.eqb 105) ds Hds) by (intros c Hc; unfold digit in Hc; apply Z.eqb_neq; lia).
    replace (105 =? d) with false by (symmetry; apply Z.eqb_neq; unfold digit in Hd; lia). simpl.
    destruct Hi as [-> | ->]; reflexivity.
Qed.
Lemma number_head : forall k t, number k t -> (exists d r, t = d :: r /\ digit d) \/ (exists d r, t = 46 :: d :: r /\ digit d).
Proof.
  intros k t H. destruct H as [x hs Hx Hh|ds fr ex im Hne Hd Hf He Hi|d ds ex im Hd Hds He Hi].
  - left. exists 48, (x :: hs). split; [reflexivity|unfold digit; lia].
  - left. destruct ds as [|d ds]; [congruence|]. inversion Hd; subst. exists d, (ds ++ fr ++ ex ++ im). auto.
  - right. eauto.
Qed.
Lemma number_kinds : forall k t, number k t -> k = INT \/ k = FLOAT \/ k = IMAG.
Proof. intros k t H. destruct H; unfold number_kind; repeat destruct (is_nil _); simpl; auto. Qed.

(** ** Classes of lexemes *)
Section Det.
Variables isL isD : Z -> bool.
Hypothesis HL : isL RuneError = false.
Hypothesis HD : isD RuneError = false.

Definition dig (c : Z) : bool := (48 <=? c) && (c <=? 57).
Definition asciiL (c : Z) : bool := ((97 <=? c) && (c <=? 122)) || ((65 <=? c) && (c <=? 90)) || (c =? 95).

Definition cls (l : bytes) : nat :=
  match l with
  | [] => 0%nat
  | b :: r =>
      if 128 <=? b then if isL (first l) then 1%nat else 9%nat
      else if asciiL b then 1%nat
      else if dig b then 2%nat
      else if b =? 34 then 3%nat
      else if b =? 39 then 4%nat
      else if b =? 96 then 5%nat
      else if b =? 59 then 7%nat
      else if b =? 46 then
        match r with
        | c :: r' => if c =? 46 then (match r' with d :: _ => if d =? 46 then 6%nat else 8%nat | [] => 8%nat end)
                     else if dig c then 2%nat else 6%nat
        | [] => 6%nat
        end
      else if b =? 47 then match r with c :: _ => if (c =? 47) || (c =? 42) then 10%nat else 6%nat | [] => 6%nat end
      else if b =? 35 then 10%nat
      else if (b <=? 8) || (b =? 11) || (b =? 12) || ((14 <=? b) && (b <=? 31)) || (b =? 36) || (b =? 92) || (b =? 127) then 9%nat
      else 6%nat
  end.

Lemma dig_iff' : forall c, dig c = true <-> digit c.
Proof. intro c. unfold dig, digit. rewrite andb_true_iff, !Z.leb_le. tauto. Qed.
Lemma asciiL_iff : forall c, asciiL c = true <-> (97 <= c <= 122 \/ 65 <= c <= 90 \/ c = 95).
Proof. intro c. unfold asciiL. rewrite !orb_true_iff, !andb_true_iff, !Z.leb_le, Z.eqb_eq. tauto. Qed.

Lemma cls_ident : forall t after, Forall byte (t ++ after) -> ident isL isD t -> cls (t ++ after) = 1%nat.
Proof.
  intros t after Hb (Hne & Hl & _).
  assert (X : first (t ++ after) = first t).
  { apply first_app; auto. intro X. rewrite X in Hl. unfold letter, RuneError in Hl.
    destruct Hl as [Y|[Y|[Y|(_ & Y)]]]; try lia. fold RuneError in Y. congruence. }
  destruct t as [|b t]; [congruence|]. simpl app in *. inversion Hb; subst. unfold cls. rewrite X.
  destruct (128 <=? b) eqn:E.
  - apply Z.leb_le in E. pose proof (first_high b t H1 E) as Y. unfold letter in Hl.
    destruct Hl as [Z1|[Z1|[Z1|(_ & Z1)]]]; try lia. rewrite Z1. reflexivity.
  - apply Z.leb_gt in E. rewrite first_ascii in Hl by exact E. unfold letter in Hl.
    replace (asciiL b) with true; [reflexivity|]. symmetry. apply asciiL_iff. lia.
Qed.

Lemma cls_number : forall k t after, number k t -> cls (t ++ after) = 2%nat.
Proof.
  assert (D : forall d, digit d -> (128 <=? d) = false /\ asciiL d = false /\ dig d = true).
  { intros d Hd. split; [apply Z.leb_gt; unfold digit in Hd; lia|]. split; [|apply dig_iff'; exact Hd].
    apply not_true_is_false. rewrite asciiL_iff. unfold digit in Hd. lia. }
  intros k t after H. destruct (number_head _ _ H) as [(d & r & -> & Hd)|(d & r & -> & Hd)];
    destruct (D d Hd) as (D1 & D2 & D3); simpl.
  - rewrite D1, D2, D3. reflexivity.
  - rewrite D3. replace (d =? 46) with false; [reflexivity|]. symmetry. apply Z.eqb_neq. unfold digit in Hd. lia.
Qed.

Lemma cls_op : forall k t after, k <> SEMICOLON -> op_spelling k t -> longest operator t after -> op_alone t (first after) ->
  Forall byte after -> cls (t ++ after) = 6%nat.
Proof.
  intros k t after Hk Ho Hl Ha Hb. apply op_out in Ho.
  assert (C : forallb (fun p => (fst p =? SEMICOLON) || beq (snd p) [46] || beq (snd p) [47] ||
     match snd p with
     | [a] => Nat.eqb (cls [a; 46]) 6 && Nat.eqb (cls [a]) 6 && negb (a =? 46) && negb (a =? 47) && (a <? 128)
     | [a; b] => Nat.eqb (cls [a; b]) 6 && negb ((a =? 46) && (b =? 46)) && (a <? 128)
     | [a; b; c] => Nat.eqb (cls [a; b; c]) 6 && (a <? 128)
     | _ => false end) optab = true) by (vm_compute; reflexivity).
  rewrite forallb_forall in C. specialize (C _ Ho). cbn [fst snd] in C.
  apply orb_true_iff in C. destruct C as [C|C]; [apply orb_true_iff in C; destruct C as [C|C]; [apply orb_true_iff in C; destruct C as [C|C]|]|].
  - apply Z.eqb_eq in C. contradiction.
  - apply beq_eq in C. subst t. destruct Ha as (Ha & _). destruct (Ha eq_refl) as (H1 & H2).
    destruct after as [|c r]; [reflexivity|]. simpl. inversion Hb; subst.
    destruct (Z.lt_ge_cases c 128) as [Hc|Hc].
    + rewrite first_ascii in H1, H2 by exact Hc. apply Z.eqb_neq in H1. rewrite H1.
      replace (dig c) with false; [reflexivity|]. symmetry. apply not_true_is_false. rewrite dig_iff'. exact H2.
    + replace (c =? 46) with false by (symmetry; apply Z.eqb_neq; lia).
      replace (dig c) with false; [reflexivity|]. symmetry. apply not_true_is_false. rewrite dig_iff'. unfold digit. lia.
  - apply beq_eq in C. subst t. destruct Ha as (_ & Ha). destruct (Ha eq_refl) as (H1 & H2).
    destruct after as [|c r]; [reflexivity|]. simpl. inversion Hb; subst.
    destruct (Z.lt_ge_cases c 128) as [Hc|Hc].
    + rewrite first_ascii in H1, H2 by exact Hc. apply Z.eqb_neq in H1, H2. rewrite H1, H2. reflexivity.
    + replace (c =? 47) with false by (symmetry; apply Z.eqb_neq; lia).
      replace (c =? 42) with false by (symmetry; apply Z.eqb_neq; lia). reflexivity.
  - destruct t as [|a [|b [|c [|? ?]]]]; try discriminate.
    + rewrite !andb_true_iff, !negb_true_iff, !Nat.eqb_eq in C. destruct C as ((((C1 & C2) & C3) & C4) & C5).
      apply Z.ltb_lt in C5. simpl app. unfold cls in C1, C2 |- *. replace (128 <=? a) with false in * by (symmetry; apply Z.leb_gt; lia).
      rewrite C3, C4 in *. repeat match type of C2 with context [if ?x then _ else _] => destruct x; try discriminate C2 end. reflexivity.
    + rewrite !andb_true_iff, !negb_true_iff, !Nat.eqb_eq in C. destruct C as ((C1 & C2) & C3).
      apply Z.ltb_lt in C3. simpl app. unfold cls in C1 |- *. replace (128 <=? a) with false in * by (symmetry; apply Z.leb_gt; lia).
      repeat match type of C1 with context [if ?x then _ else _] => destruct x eqn:?; try discriminate C1 end; try reflexivity.
    + rewrite !andb_true_iff, !Nat.eqb_eq in C. destruct C as (C1 & C3).
      apply Z.ltb_lt in C3. simpl app. unfold cls in C1 |- *. replace (128 <=? a) with false in * by (symmetry; apply Z.leb_gt; lia).
      repeat match type of C1 with context [if ?x then _ else _] => destruct x eqn:?; try discriminate C1 end; reflexivity.
Qed.

Lemma stray_cases : forall c, stray c -> 128 <= c \/
  ((c <=? 8) || (c =? 11) || (c =? 12) || ((14 <=? c) && (c <=? 31)) || (c =? 36) || (c =? 92) || (c =? 127)) = true /\ 0 <= c < 128.
Proof.
  intros c H. unfold stray in H. destruct (Z.lt_ge_cases c 128); [right|left; lia]. split; [|lia].
  rewrite !orb_true_iff, !andb_true_iff, !Z.leb_le, !Z.eqb_eq. lia.
Qed.

Lemma cls_stray : forall T, Forall byte T -> stray (first T) -> ~ letter isL (first T) -> cls T = 9%nat.
Proof.
  intros [|b r] Hb Hs Hl.
  - unfold stray in Hs. simpl in Hs. lia.
  - inversion Hb; subst. unfold cls. destruct (128 <=? b) eqn:E.
    + apply Z.leb_le in E. pose proof (first_high b r H1 E) as Y. destruct (isL (first (b :: r))) eqn:Ei; [|reflexivity].
      exfalso. apply Hl. right; right; right. split; [lia|exact Ei].
    + apply Z.leb_gt in E. rewrite first_ascii in Hs by exact E. destruct (stray_cases b Hs) as [Y|(Y & Y2)]; [lia|].
      rewrite Y. unfold stray in Hs.
      replace (asciiL b) with false by (symmetry; apply not_true_is_false; rewrite asciiL_iff; lia).
      replace (dig b) with false by (symmetry; apply not_true_is_false; rewrite dig_iff'; unfold digit; lia).
      replace (b =? 34) with false by (symmetry; apply Z.eqb_neq; lia).
      replace (b =? 39) with false by (symmetry; apply Z.eqb_neq; lia).
      replace (b =? 96) with false by (symmetry; apply Z.eqb_neq; lia).
      replace (b =? 59) with false by (symmetry; apply Z.eqb_neq; lia).
      replace (b =? 46) with false by (symmetry; apply Z.eqb_neq; lia).
      replace (b =? 47) with false by (symmetry; apply Z.eqb_neq; lia).
      replace (b =? 35) with false by (symmetry; apply Z.eqb_neq; lia). reflexivity.
Qed.

Lemma cls_comment : forall t after, comment t after -> cls (t ++ after) = 10%nat.
Proof.
  intros t after [[[(b & -> & H)|(b & -> & H)] Ha]|[(b & -> & H)|[(b & -> & H) _]]]; reflexivity.
Qed.

Lemma lor_rune_error : ~ letter_or_digit isL isD RuneError.
Proof. unfold letter_or_digit, letter, digit, RuneError in *. intros [[H|[H|[H|(_ & H)]]]|[H|(_ & H)]]; try lia; congruence. Qed.

(** What each class says. *)
Definition lexc (n : nat) (k : Z) (lit text after : bytes) : Prop :=
  match n with
  | 0%nat => text = [] /\ after = [] /\ k = EOF /\ lit = []
  | 1%nat => ident isL isD text /\ ~ letter_or_digit isL isD (first after) /\ k = IDENT /\ lit = text
  | 2%nat => number k text /\ longest (fun t => exists k, number k t) text after /\ lit = text
  | 3%nat => quoted_lit 34 text after /\ k = STRING /\ lit = text
  | 4%nat => quoted_lit 39 text after /\ k = CHAR /\ lit = text
  | 5%nat => raw_lit text after /\ k = STRING /\ lit = filter (fun b => negb (b =? 13)) text
  | 6%nat => k <> SEMICOLON /\ op_spelling k text /\ longest operator text after /\ lit = []
  | 7%nat => text = [59] /\ k = SEMICOLON /\ lit = [59]
  | 8%nat => text = [46; 46] /\ k = ILLEGAL /\ lit = []
  | 9%nat => text = firstn (width (text ++ after)) (text ++ after) /\ k = ILLEGAL /\ lit = EncodeRune (first (text ++ after))
  | _ => comment text after /\ k = COMMENT /\
      lit = match text with 35 :: _ => text | _ => filter (fun b => negb (b =? 13)) text end
  end.

Lemma lexeme_class : forall k lit text after, Forall byte (text ++ after) -> lexeme isL isD k lit text after ->
  lexc (cls (text ++ after)) k lit text after.
Proof.
  intros k lit text after Hb H. destruct H.
  - rewrite cls_ident by assumption. simpl. auto.
  - rewrite (cls_number k) by assumption. simpl. auto.
  - assert (E : cls (t ++ after) = 3%nat) by (destruct (quoted_len 34 t after ltac:(lia) ltac:(lia) H) as (r & -> & _); reflexivity).
    rewrite E. simpl. auto.
  - assert (E : cls (t ++ after) = 4%nat) by (destruct (quoted_len 39 t after ltac:(lia) ltac:(lia) H) as (r & -> & _); reflexivity).
    rewrite E. simpl. auto.
  - assert (E : cls (t ++ after) = 5%nat) by (destruct (raw_len t after H) as (r & -> & _); reflexivity).
    rewrite E. simpl. auto.
  - rewrite (cls_op k) by (auto; apply Forall_app in Hb; tauto). simpl. auto.
  - simpl. auto.
  - assert (E : cls ([46; 46] ++ after) = 8%nat).
    { simpl. destruct after as [|c r]; [reflexivity|]. destruct (c =? 46) eqn:E; [|reflexivity].
      apply Z.eqb_eq in E. subst. contradiction (H r eq_refl). }
    rewrite E. simpl. auto.
  - rewrite cls_stray by (try rewrite H2; assumption). cbn [lexc]. rewrite H2. auto.
  - rewrite cls_comment by assumption. cbn [lexc]. split; [assumption|]. split; [reflexivity|].
    destruct t as [|b t]; [reflexivity|]. destruct (Z.eq_dec b 35) as [-> | Hn]; [contradiction (H0 t eq_refl)|].
    destruct b as [|p|p]; try reflexivity. do 6 (destruct p as [p|p|]; try reflexivity; try congruence).
  - assert (Hc : comment t after) by (left; auto). rewrite cls_comment by exact Hc. cbn [lexc]. split; [exact Hc|]. split; [reflexivity|].
    destruct H as (b & -> & _). reflexivity.
  - simpl. auto.
Qed.

Theorem lexeme_det : forall k1 l1 t1 a1 k2 l2 t2 a2, Forall byte (t1 ++ a1) -> t1 ++ a1 = t2 ++ a2 ->
  lexeme isL isD k1 l1 t1 a1 -> lexeme isL isD k2 l2 t2 a2 -> k1 = k2 /\ l1 = l2 /\ t1 = t2.
Proof.
  intros k1 l1 t1 a1 k2 l2 t2 a2 Hb E H1 H2. apply lexeme_class in H1; [|exact Hb].
  apply lexeme_class in H2; [|rewrite <- E; exact Hb]. rewrite <- E in H2.
  destruct (cls (t1 ++ a1)) as [|[|[|[|[|[|[|[|[|[|n]]]]]]]]]]; cbn [lexc] in *.
  - destruct H1 as (-> & _ & -> & ->). destruct H2 as (-> & _ & -> & ->). auto.
  - destruct H1 as ((_ & _ & C1) & N1 & -> & ->). destruct H2 as ((_ & _ & C2) & N2 & -> & ->).
    assert (t1 = t2) by (eapply (chars_det _ lor_rune_error t1 C1); eauto). auto.
  - destruct H1 as (K1 & L1 & ->). destruct H2 as (K2 & L2 & ->).
    assert (t1 = t2) by (eapply longest_det; eauto). subst t2. split; [|auto].
    rewrite (number_kind_det _ _ K1), (number_kind_det _ _ K2). reflexivity.
  - destruct H1 as (Q1 & -> & ->). destruct H2 as (Q2 & -> & ->).
    destruct (quoted_len 34 _ _ ltac:(lia) ltac:(lia) Q1) as (r1 & -> & L1). destruct (quoted_len 34 _ _ ltac:(lia) ltac:(lia) Q2) as (r2 & -> & L2).
    simpl in E. injection E as E. assert (r1 = r2) by (eapply same_len; [exact E|congruence]). subst. auto.
  - destruct H1 as (Q1 & -> & ->). destruct H2 as (Q2 & -> & ->).
    destruct (quoted_len 39 _ _ ltac:(lia) ltac:(lia) Q1) as (r1 & -> & L1). destruct (quoted_len 39 _ _ ltac:(lia) ltac:(lia) Q2) as (r2 & -> & L2).
    simpl in E. injection E as E. assert (r1 = r2) by (eapply same_len; [exact E|congruence]). subst. auto.
  - destruct H1 as (Q1 & -> & ->). destruct H2 as (Q2 & -> & ->).
    destruct (raw_len _ _ Q1) as (r1 & -> & L1). destruct (raw_len _ _ Q2) as (r2 & -> & L2).
    simpl in E. injection E as E. assert (r1 = r2) by (eapply same_len; [exact E|congruence]). subst. auto.
  - destruct H1 as (K1 & O1 & L1 & ->). destruct H2 as (K2 & O2 & L2 & ->).
    assert (t1 = t2) by (eapply longest_det; eauto). subst t2. split; [|auto].
    apply op_out in O1. apply op_out in O2.
    assert (C : forallb (fun p => forallb (fun r => negb (beq (snd p) (snd r)) || (fst p =? fst r)) optab) optab = true) by (vm_compute; reflexivity).
    rewrite forallb_forall in C. specialize (C _ O1). rewrite forallb_forall in C. specialize (C _ O2). cbn [fst snd] in C.
    rewrite beq_refl in C. simpl in C. apply Z.eqb_eq in C. exact C.
  - destruct H1 as (-> & -> & ->). destruct H2 as (-> & -> & ->). auto.
  - destruct H1 as (-> & -> & ->). destruct H2 as (-> & -> & ->). auto.
  - destruct H1 as (T1 & -> & ->). destruct H2 as (T2 & -> & ->). rewrite <- E in T2. split; [reflexivity|]. split; congruence.
  - destruct H1 as (C1 & -> & ->). destruct H2 as (C2 & -> & ->).
    assert (t1 = t2) by (eapply comment_det; eauto). subst. auto.
Qed.

(** Only the end of file is spelled by the empty text, and no lexeme starts with white space. *)
Lemma lexeme_nil : forall k lit after, Forall byte after -> lexeme isL isD k lit [] after -> k = EOF /\ lit = [] /\ after = [].
Proof.
  intros k lit after Hb H. apply lexeme_class in H; [|exact Hb]. simpl app in H.
  destruct after as [|b r]; [simpl in H; tauto|]. exfalso.
  destruct (cls (b :: r)) as [|[|[|[|[|[|[|[|[|[|n]]]]]]]]]] eqn:E; cbn [lexc] in *.
  - destruct H as (_ & X & _). discriminate.
  - destruct H as ((X & _) & _). congruence.
  - destruct H as (X & _). destruct (number_head _ _ X) as [(d & l & Y & _)|(d & l & Y & _)]; discriminate.
  - destruct H as (X & _). destruct (quoted_len 34 _ _ ltac:(lia) ltac:(lia) X) as (? & Y & _). discriminate.
  - destruct H as (X & _). destruct (quoted_len 39 _ _ ltac:(lia) ltac:(lia) X) as (? & Y & _). discriminate.
  - destruct H as (X & _). destruct (raw_len _ _ X) as (? & Y & _). discriminate.
  - destruct H as (_ & X & _). apply op_out in X.
    assert (C : forallb (fun p => negb (beq (snd p) [])) optab = true) by (vm_compute; reflexivity).
    rewrite forallb_forall in C. specialize (C _ X). cbn [snd] in C. rewrite beq_refl in C. discriminate.
  - destruct H as (X & _). discriminate.
  - destruct H as (X & _). discriminate.
  - destruct H as (X & _). simpl app in X. assert (Hb1 : byte b) by (inversion Hb; auto). pose proof (width_bounds b r Hb1) as W.
    destruct (width (b :: r)) eqn:Ew; [lia|]. discriminate.
  - destruct H as (X & _). destruct X as [[[(y & X & _)|(y & X & _)] _]|[(y & X & _)|[(y & X & _) _]]]; discriminate.
Qed.

End Det.
