(** Facts about UTF-8 decoding. *)
From Verif Require Import Base Utf8.

Definition byte (b : Z) : Prop := 0 <= b < 256.

(** First character of a text: -1 at the end, and its width in bytes. *)
Definition first (l : bytes) : Z := match l with [] => -1 | _ => fst (DecodeRune l) end.
Definition width (l : bytes) : nat := match l with [] => 0%nat | _ => snd (DecodeRune l) end.

Ltac dif := match goal with
  | |- context [if ?b then _ else _] => let E := fresh "E" in destruct b eqn:E
  | H : context [if ?b then _ else _] |- _ => let E := fresh "E" in destruct b eqn:E
  end.

Ltac tob := repeat match goal with
  | H : (_ && _) = true |- _ => apply andb_true_iff in H; destruct H
  | H : (_ || _) = false |- _ => apply orb_false_iff in H; destruct H
  | H : negb _ = true |- _ => apply negb_true_iff in H
  | H : negb _ = false |- _ => apply negb_false_iff in H
  | H : (_ <=? _) = true |- _ => apply Z.leb_le in H
  | H : (_ <=? _) = false |- _ => apply Z.leb_gt in H
  | H : (_ <? _) = true |- _ => apply Z.ltb_lt in H
  | H : (_ <? _) = false |- _ => apply Z.ltb_ge in H
  | H : (_ =? _) = true |- _ => apply Z.eqb_eq in H
  | H : (_ =? _) = false |- _ => apply Z.eqb_neq in H
  end.

(** Possible results of decoding a non-empty text. *)
Lemma decode_cases : forall b l, byte b ->
  let '(r, w) := DecodeRune (b :: l) in
  (b < 128 /\ r = b /\ w = 1%nat) \/
  (128 <= b /\ r = RuneError /\ w = 1%nat) \/
  (128 <= b /\ 128 <= r <= 1114111 /\ ~ (55296 <= r <= 57343) /\ EncodeRune r = firstn w (b :: l) /\
   (2 <= w <= length (b :: l))%nat /\ Forall (fun x => 128 <= x) (firstn w (b :: l))).
Proof.
  intros b l Hb. unfold byte in Hb. unfold DecodeRune.
  dif; tob; [left; auto|].
  dif; tob; [right; left; auto|].
  dif; tob.
  { destruct l as [|b1 l1]; [right; left; auto|].
    dif; [|right; left; repeat split; auto]. unfold cont in E2. tob.
    right; right. split; [lia|].
    assert (R : 128 <= (b - 192) * 64 + (b1 - 128) < 2048) by lia.
    split; [lia|]. split; [lia|]. split.
    - unfold EncodeRune.
      replace ((_ <? 0) || _ || _) with false by (symmetry; repeat (apply orb_false_iff; split);
        try (apply Z.ltb_ge; lia); try (apply andb_false_iff; left; apply Z.leb_gt; lia)).
      cbv beta iota zeta.
      replace (_ <? 128) with false by (symmetry; apply Z.ltb_ge; lia).
      replace (_ <? 2048) with true by (symmetry; apply Z.ltb_lt; lia).
      cbn [firstn]. repeat (apply f_equal2; [Z.div_mod_to_equations; lia|]); reflexivity.
    - split; [simpl; lia|]. simpl. repeat constructor; lia. }
  dif; tob.
  { destruct l as [|b1 [|b2 l1]]; [right; left; auto..|].
    cbv zeta. dif; [|right; left; repeat split; auto]. unfold cont in E3. tob.
    assert (L : 128 <= b1 <= 191) by (repeat dif; lia).
    assert (R : 2048 <= (b - 224) * 4096 + (b1 - 128) * 64 + (b2 - 128) < 65536).
    { repeat dif; tob; lia. }
    assert (R2 : ~ (55296 <= (b - 224) * 4096 + (b1 - 128) * 64 + (b2 - 128) <= 57343)).
    { repeat dif; tob; lia. }
    right; right. split; [lia|]. split; [lia|]. split; [exact R2|]. split.
    - unfold EncodeRune.
      replace ((_ <? 0) || _ || _) with false by (symmetry; repeat (apply orb_false_iff; split);
        try (apply Z.ltb_ge; lia);
        apply not_true_is_false; intro X; apply andb_true_iff in X; destruct X; tob; lia).
      cbv beta iota zeta.
      replace (_ <? 128) with false by (symmetry; apply Z.ltb_ge; lia).
      replace (_ <? 2048) with false by (symmetry; apply Z.ltb_ge; lia).
      replace (_ <? 65536) with true by (symmetry; apply Z.ltb_lt; lia).
      cbn [firstn]. clear - L H0 H1 E E0 E1 E2 R Hb. repeat (apply f_equal2; [Z.div_mod_to_equations; lia|]); reflexivity.
    - split; [simpl; lia|]. simpl. repeat constructor; lia. }
  dif; tob.
  { destruct l as [|b1 [|b2 [|b3 l1]]]; [right; left; auto..|].
    cbv zeta. dif; [|right; left; repeat split; auto]. unfold cont in E4. tob.
    assert (L : 128 <= b1 <= 191) by (repeat dif; lia).
    assert (R : 65536 <= (b - 240) * 262144 + (b1 - 128) * 4096 + (b2 - 128) * 64 + (b3 - 128) <= 1114111).
    { repeat dif; tob; lia. }
    right; right. split; [lia|]. split; [lia|]. split; [lia|]. split.
    - unfold EncodeRune.
      replace ((_ <? 0) || _ || _) with false by (symmetry; repeat (apply orb_false_iff; split);
        try (apply Z.ltb_ge; lia);
        apply not_true_is_false; intro X; apply andb_true_iff in X; destruct X; tob; lia).
      cbv beta iota zeta.
      replace (_ <? 128) with false by (symmetry; apply Z.ltb_ge; lia).
      replace (_ <? 2048) with false by (symmetry; apply Z.ltb_ge; lia).
      replace (_ <? 65536) with false by (symmetry; apply Z.ltb_ge; lia).
      cbn [firstn]. repeat (apply f_equal2; [Z.div_mod_to_equations; lia|]); reflexivity.
    - split; [simpl; lia|]. simpl. repeat constructor; lia. }
  right; left; auto.
Qed.

Lemma width_bounds : forall b l, byte b -> (1 <= width (b :: l) <= length (b :: l))%nat.
Proof.
  intros b l Hb. unfold width. pose proof (decode_cases b l Hb) as H.
  destruct (DecodeRune (b :: l)) as [r w]. simpl. destruct H as [(_ & _ & ->)|[(_ & _ & ->)|H]]; simpl; try lia.
  destruct H as (_ & _ & _ & _ & H & _). simpl in H. lia.
Qed.

Lemma encode_ascii : forall b, 0 <= b < 128 -> EncodeRune b = [b].
Proof.
  intros b H. unfold EncodeRune.
  replace (b <? 0) with false by (symmetry; apply Z.ltb_ge; lia).
  replace (1114111 <? b) with false by (symmetry; apply Z.ltb_ge; lia).
  replace (55296 <=? b) with false by (symmetry; apply Z.leb_gt; lia). cbn [orb andb].
  replace (b <? 128) with true by (symmetry; apply Z.ltb_lt; lia). reflexivity.
Qed.

Lemma encode_nonempty : forall r, EncodeRune r <> [].
Proof. intro r. unfold EncodeRune. repeat dif; discriminate. Qed.

Lemma first_ascii : forall b l, b < 128 -> first (b :: l) = b.
Proof. intros. unfold first, DecodeRune. replace (b <? 128) with true by (symmetry; apply Z.ltb_lt; lia). reflexivity. Qed.

Lemma width_ascii : forall b l, b < 128 -> width (b :: l) = 1%nat.
Proof. intros. unfold width, DecodeRune. replace (b <? 128) with true by (symmetry; apply Z.ltb_lt; lia). reflexivity. Qed.

Lemma first_high : forall b l, byte b -> 128 <= b -> 128 <= first (b :: l) <= 1114111.
Proof.
  intros b l Hb H. unfold first. pose proof (decode_cases b l Hb) as D.
  destruct (DecodeRune (b :: l)) as [r w]. simpl. unfold RuneError in D.
  destruct D as [D|[(_ & -> & _)|(_ & D & _)]]; lia.
Qed.

Lemma high_text : forall b l, byte b -> 128 <= b -> Forall (fun x => 128 <= x) (firstn (width (b :: l)) (b :: l)).
Proof.
  intros b l Hb H. unfold width. pose proof (decode_cases b l Hb) as D.
  destruct (DecodeRune (b :: l)) as [r w]. simpl snd.
  destruct D as [D|[(_ & _ & ->)|(_ & _ & _ & _ & _ & D)]]; [lia| |exact D].
  simpl. repeat constructor; exact H.
Qed.

(** The character is ASCII exactly when the first byte is. *)
Lemma first_lt128 : forall l, Forall byte l -> first l < 128 ->
  (l = [] /\ first l = -1) \/ exists r, l = first l :: r /\ 0 <= first l.
Proof.
  intros [|b l] Hb H; [left; auto|]. right. inversion Hb; subst.
  destruct (Z.lt_ge_cases b 128) as [Hlt|Hge].
  - rewrite first_ascii by exact Hlt. exists l. split; [reflexivity|]. unfold byte in *. lia.
  - pose proof (first_high b l H2 Hge). lia.
Qed.

Lemma first_ge_m1 : forall l, Forall byte l -> first l = -1 \/ 0 <= first l.
Proof.
  intros l Hl. destruct (Z.lt_ge_cases (first l) 128) as [H|H]; [|right; lia].
  destruct (first_lt128 l Hl H) as [[_ H1]|(r & _ & H1)]; auto.
Qed.

Lemma first_eof : forall l, Forall byte l -> first l < 0 -> l = [].
Proof.
  intros l Hl H. destruct (first_lt128 l Hl) as [[H1 _]|(r & _ & H1)]; auto; lia.
Qed.

(** Decoding does not depend on what follows the character. *)
Lemma decode_firstn : forall l n, Forall byte l -> (width l <= n)%nat -> (0 < n)%nat ->
  first (firstn n l) = first l /\ width (firstn n l) = width l.
Proof.
  intros l n Hl Hw Hn. destruct l as [|b l]; [rewrite firstn_nil; auto|].
  destruct n as [|n]; [lia|]. simpl firstn. inversion Hl; subst. unfold byte in H1.
  unfold first, width in *. unfold DecodeRune in *.
  dif; [auto|]. dif; [auto|]. dif.
  { destruct l as [|b1 l]; [rewrite firstn_nil; auto|].
    destruct n as [|n]; simpl.
    - destruct (cont b1); simpl in *; auto; lia.
    - auto. }
  dif.
  { destruct l as [|b1 [|b2 l]]; [rewrite firstn_nil; auto|destruct n as [|[|n]]; auto|].
    destruct n as [|[|n]]; simpl firstn; cbv beta iota zeta in *.
    - dif; simpl in *; auto; lia.
    - dif; simpl in *; auto; lia.
    - auto. }
  dif; auto.
  destruct l as [|b1 [|b2 [|b3 l]]]; [rewrite firstn_nil; auto|destruct n as [|[|n]]; auto|destruct n as [|[|[|n]]]; auto|].
  destruct n as [|[|[|n]]]; simpl firstn; cbv beta iota zeta in *; try (dif; simpl in *; auto; lia).
Qed.
