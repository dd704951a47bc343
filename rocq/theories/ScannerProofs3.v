(** Line ends, operators and one pass of Scan. *)
From Verif Require Import Base Token Utf8 Utf8Proofs Scanner ScannerSpec ScannerProofs ScannerProofs2.

(** ** Operators *)
Definition strip_quotes (l : bytes) : option bytes :=
  match l with
  | q :: r => if ((q =? 39) || (q =? 34)) then Some (removelast r) else None
  | [] => None
  end.
Definition optab : list (Z * bytes) := Eval vm_compute in
  flat_map (fun p => match strip_quotes (snd p) with Some t => [(fst p, t)] | None => [] end) toktab.

Lemma op_in : forall k t, In (k, t) optab -> op_spelling k t.
Proof.
  assert (C : forallb (fun p => existsb (fun e => (fst e =? fst p) &&
     (beq (snd e) (39 :: snd p ++ [39]) || beq (snd e) (34 :: snd p ++ [34]))) toktab) optab = true) by (vm_compute; reflexivity).
  intros k t H. rewrite forallb_forall in C. apply C in H. apply existsb_exists in H.
  destruct H as ((k' & l) & Hin & H). cbn [fst snd] in H. apply andb_true_iff in H. destruct H as (H1 & H2).
  apply Z.eqb_eq in H1. subst k'. apply orb_true_iff in H2.
  destruct H2 as [H2|H2]; apply beq_eq in H2; subst l; [exists 39|exists 34]; auto.
Qed.
Lemma op_out : forall k t, op_spelling k t -> In (k, t) optab.
Proof.
  intros k t (q & Hq & H).
  assert (E : forall l : list (Z * bytes), In (k, q :: t ++ [q]) l -> In (k, t)
     (flat_map (fun p => match strip_quotes (snd p) with Some t => [(fst p, t)] | None => [] end) l)).
  { clear H. intros l Hin. induction l as [|p l IH]; [contradiction|]. destruct Hin as [E|Hin].
    - subst p. cbn [flat_map]. apply in_or_app. left. cbn [snd fst strip_quotes].
      rewrite removelast_last. destruct Hq as [-> | ->]; left; reflexivity.
    - cbn [flat_map]. apply in_or_app. right. apply IH. exact Hin. }
  apply (E toktab) in H. exact H.
Qed.

Fixpoint after_prefix (t o : bytes) : option bytes :=
  match t, o with
  | [], _ => Some o
  | a :: t', b :: o' => if a =? b then after_prefix t' o' else None
  | _, [] => None
  end.
Lemma after_prefix_app : forall t x, after_prefix t (t ++ x) = Some x.
Proof. induction t as [|a t IH]; intros x; simpl; [reflexivity|]. rewrite Z.eqb_refl. apply IH. Qed.
(** the characters that extend the operator [t] to (the beginning of) a longer one *)
Definition op_next (t : bytes) : list Z :=
  flat_map (fun p => match after_prefix t (snd p) with Some (c :: _) => [c] | _ => [] end) optab.

Lemma op_longest : forall k t after, op_spelling k t ->
  (forall c r, after = c :: r -> ~ In c (op_next t)) -> longest operator t after.
Proof.
  intros k t after H Hn. split; [exists k; exact H|]. intros x y Hx Hne (k' & Hk').
  destruct x as [|c x]; [contradiction|]. apply (Hn c (x ++ y)); [exact Hx|].
  apply op_out in Hk'. unfold op_next. apply in_flat_map. exists (k', t ++ c :: x). split; [exact Hk'|].
  simpl. rewrite after_prefix_app. left. reflexivity.
Qed.

(** ** Line ends *)
Lemma app_cases : forall (a b c d : bytes), a ++ b = c ++ d ->
  exists z, (a = c ++ z /\ d = z ++ b) \/ (c = a ++ z /\ b = z ++ d).
Proof.
  induction a as [|x a IH]; intros b c d H.
  - exists c. right. auto.
  - destruct c as [|y c].
    + exists (x :: a). left. auto.
    + simpl in H. injection H as -> H. destruct (IH _ _ _ H) as (z & [(-> & ->)|(-> & ->)]); exists z; auto.
Qed.

Lemma LE_slash : forall l, line_ends_c (47 :: l) ->
  (exists r, l = 47 :: r) \/
  exists X, l = 42 :: X /\
    ((exists body r, X = body ++ 10 :: r /\ ~ has_close body) \/ ~ has_close X \/
     (exists body r, X = body ++ 42 :: 47 :: r /\ ~ has_close (body ++ [42]) /\ line_ends_c r)).
Proof.
  intros l H. inversion H; subst; eauto.
  - unfold blank in *. lia.
  - right. eexists. split; [reflexivity|]. left. eauto.
  - right. eexists. split; [reflexivity|]. right. left. assumption.
  - right. eexists. split; [reflexivity|]. right. right. eauto.
Qed.

Lemma LE_block_iff : forall body l, ~ In 10 body -> ~ has_close (body ++ [42]) ->
  (line_ends_c (47 :: 42 :: body ++ 42 :: 47 :: l) <-> line_ends_c l).
Proof.
  intros body l H10 Hc. split; [|intro H; apply LE_block; auto].
  intro H. apply LE_slash in H. destruct H as [(r & H)|(X & HX & H)]; [discriminate|].
  injection HX as <-. destruct H as [(b' & r & E & Hb)|[H|(b' & r & E & Hb & Hl)]].
  - exfalso. apply app_cases in E. destruct E as (z & [(-> & E)|(-> & E)]).
    + destruct z as [|z1 z]; simpl in E; [discriminate|]. injection E as <- E. apply H10. apply in_or_app. right. left. reflexivity.
    + destruct z as [|z1 [|z2 z]]; simpl in E; try discriminate. injection E as <- <- E.
      apply Hb. exists body, z. reflexivity.
  - exfalso. apply H. exists body, l. reflexivity.
  - apply app_cases in E. destruct E as (z & [(-> & E)|(-> & E)]).
    + destruct z as [|z1 [|z2 z]]; simpl in E; try discriminate.
      * injection E as <-. exact Hl.
      * injection E as <- <- E. exfalso. apply Hc. exists b', (z ++ [42]). rewrite <- app_assoc. reflexivity.
    + destruct z as [|z1 [|z2 z]]; simpl in E; try discriminate.
      * injection E as <-. exact Hl.
      * injection E as <- <- E. exfalso. apply Hb. exists body, (z ++ [42]). rewrite <- app_assoc. reflexivity.
Qed.

Lemma LE_blank_iff : forall b l, blank b -> (line_ends_c (b :: l) <-> line_ends_c l).
Proof.
  intros b l Hb. split; [|intro; constructor; auto]. intro H.
  inversion H; subst; auto; unfold blank in Hb; lia.
Qed.
Lemma LE_blanks_iff : forall g l, Forall blank g -> (line_ends_c (g ++ l) <-> line_ends_c l).
Proof. intros g l H. induction H as [|b g Hb H IH]; simpl; [tauto|]. rewrite LE_blank_iff by exact Hb. exact IH. Qed.
Lemma LEx_blanks_iff : forall g l, Forall blank g -> (line_ends (g ++ l) <-> line_ends l).
Proof.
  intros g l H. unfold line_ends. rewrite (LE_blanks_iff g l H). split; (intros [X|X]; [left; exact X|right]).
  - destruct X as (bl & r & E & Hb). apply app_cases in E. destruct E as (z & [(-> & E)|(-> & E)]).
    + destruct z as [|z1 z]; [exists [], r; split; [symmetry; exact E|constructor]|].
      exfalso. simpl in E. injection E as <- E. apply Forall_app in H. destruct H as (_ & H). inversion H; subst.
      unfold blank in *. lia.
    + exists z, r. split; [exact E|]. apply Forall_app in Hb. tauto.
  - destruct X as (bl & r & -> & Hb). exists (g ++ bl), r. split; [apply app_assoc|]. apply Forall_app. auto.
Qed.
(** the first character already decides *)
Lemma LE_head : forall c l, line_ends (c :: l) -> blank c \/ c = 10 \/ c = 47 \/ c = 35.
Proof.
  intros c l [H|(bl & r & E & Hb)].
  - inversion H; subst; auto.
  - destruct bl as [|b bl]; simpl in E; injection E as -> E; auto. inversion Hb; subst. auto.
Qed.
Lemma LE_slash_c : forall l, line_ends (47 :: l) -> line_ends_c (47 :: l).
Proof.
  intros l [H|(bl & r & E & Hb)]; [exact H|]. exfalso.
  destruct bl as [|b bl]; simpl in E; [discriminate|]. injection E as <- E. inversion Hb; subst. unfold blank in *. lia.
Qed.

Lemma white_blank : forall c, is_white true c = true <-> blank c.
Proof.
  intro c. unfold is_white, blank. simpl. rewrite andb_false_r, orb_false_r, !orb_true_iff, !Z.eqb_eq. tauto.
Qed.
Lemma white_ws : forall c, is_white false c = true <-> ws c.
Proof.
  intro c. unfold is_white, ws. simpl. rewrite andb_true_r, !orb_true_iff, !Z.eqb_eq. tauto.
Qed.

Section Proofs.
Variable src : bytes.
Hypothesis Hsrc : Forall byte src.

Notation next := (next src).
Notation fuel := (fuel src).
Notation rest := (rest src).
Notation Inv := (Inv src).
Notation ext := (ext src).
Notation mv := (mv src).

Lemma fle_block_mv : forall k s, Inv s -> (length (rest s) <= k)%nat ->
  exists r s' t, fle_block src k s = (r, s') /\ mv s s' t True /\ ~ In 10 t /\
    (if r then ~ has_close t /\ ch s' = 10
     else (exists body, t = body ++ [42; 47] /\ ~ has_close (body ++ [42])) \/ (rest s' = [] /\ ~ has_close t)).
Proof.
  assert (Hnil : ~ has_close []) by (intros ([|] & ? & X); discriminate).
  induction k as [|k IH]; intros s HI Hk; simpl; destruct (0 <=? ch s) eqn:E.
  - apply Z.leb_le in E. destruct (rest s) eqn:Er; [|simpl in Hk; lia]. destruct HI as (_ & HI & _). rewrite Er in HI. simpl in HI. lia.
  - apply Z.leb_gt in E. exists false, s, []. split; [reflexivity|]. split; [apply mv_refl; auto|]. split; [auto|].
    right. destruct (ch_range src Hsrc s HI) as [(_ & ->)|X]; [auto|lia].
  - apply Z.leb_le in E. destruct (ch s =? 10) eqn:E10.
    { apply Z.eqb_eq in E10. exists true, s, []. split; [reflexivity|]. split; [apply mv_refl; auto|]. auto. }
    apply Z.eqb_neq in E10.
    destruct (mv_any src Hsrc s HI E) as (t & M & _ & Hne & Ht).
    pose proof (mv_len src _ _ _ _ M Hne). pose proof (mv_inv src _ _ _ _ M) as I1.
    set (s1 := next s) in *.
    destruct ((ch s =? 42) && (ch s1 =? 47)) eqn:E1.
    + apply andb_true_iff in E1. destruct E1 as (E1 & E2). apply Z.eqb_eq in E1. apply Z.eqb_eq in E2.
      pose proof (mv_ascii src Hsrc s1 47 I1 E2 ltac:(lia)) as M2.
      destruct Ht as [(_ & ->)|(X & _)]; [|lia].
      eexists false, _, [42; 47]. split; [reflexivity|]. split.
      { change [42; 47] with ([42] ++ [47]). rewrite <- E1. eapply mv_app; [exact M|exact M2]. }
      split; [simpl; lia|]. left.
      exists []. split; [reflexivity|]. simpl. intro X. apply has_close_cons in X.
      destruct X as [X|(_ & r & X)]; [contradiction|discriminate].
    + destruct (IH s1 I1) as (r & s' & t' & E' & M' & H3 & H4); [lia|].
      exists r, s', (t ++ t'). split; [exact E'|]. split; [eapply mv_app; eauto|].
      split.
      { intro X. apply in_app_or in X. destruct X as [X|X]; [|contradiction].
        revert X. apply (char_no s); auto. lia. }
      assert (Hcc : ch s = 42 -> ch s1 <> 47) by (intros X Y; rewrite X, Y in E1; discriminate).
      pose proof (mv_rest src _ _ _ _ M') as Hr.
      destruct r; [|destruct H4 as [H4|H4]].
      * destruct H4 as (H4 & H5). split; [|exact H5]. eapply no_close_char; eauto.
      * left. destruct H4 as (body & -> & Hb). exists (t ++ body). split; [rewrite app_assoc; reflexivity|].
        rewrite <- app_assoc. eapply no_close_char with (s1 := s1) (y := 47 :: rest s'); eauto.
        rewrite Hr, <- !app_assoc. reflexivity.
      * right. destruct H4 as (H4 & H5). split; [exact H4|]. eapply no_close_char; eauto.
  - apply Z.leb_gt in E. exists false, s, []. split; [reflexivity|]. split; [apply mv_refl; auto|]. split; [auto|].
    right. destruct (ch_range src Hsrc s HI) as [(_ & ->)|X]; [auto|lia].
Qed.

Lemma fle_loop_mv : forall k s, Inv s -> isemi s = true -> (length (rest s) < k)%nat ->
  exists r s' t, fle_loop src k s = (r, s') /\ mv s s' t True /\ ~ In 10 t /\
    (r = true <-> line_ends_c (47 :: rest s)).
Proof.
  induction k as [|k IH]; intros s HI Hs Hk; [lia|]. cbn [fle_loop].
  destruct (ch s =? 47) eqn:E1.
  - apply Z.eqb_eq in E1. exists true, s, []. split; [reflexivity|]. split; [apply mv_refl; auto|]. split; [auto|].
    split; [|auto]. intros _. destruct (ch_ascii src Hsrc s HI) as [(A & _)|(r & A)]; [lia|lia|].
    rewrite A, E1. apply LE_line.
  - apply Z.eqb_neq in E1. destruct (ch s =? 42) eqn:E2.
    + apply Z.eqb_eq in E2. pose proof (mv_ascii src Hsrc s 42 HI E2 ltac:(lia)) as M1.
      pose proof (mv_inv src _ _ _ _ M1) as I1. pose proof (mv_rest src _ _ _ _ M1) as R1. simpl in R1.
      pose proof (mv_len src _ _ _ _ M1 ltac:(discriminate)) as L1.
      pose proof (mv_isemi src _ _ _ _ M1) as S1.
      set (s1 := next s) in *.
      destruct (fle_block_mv fuel s1 I1 (fuel_ok src s1)) as (r & s2 & t2 & E & M2 & H10 & H). rewrite E.
      pose proof (mv_inv src _ _ _ _ M2) as I2. pose proof (mv_rest src _ _ _ _ M2) as R2.
      pose proof (mv_isemi src _ _ _ _ M2) as S2.
      assert (M12 : mv s s2 (42 :: t2) True) by (change (42 :: t2) with ([42] ++ t2); eapply mv_app; eauto).
      destruct r.
      { destruct H as (H & Hc). exists true, s2, (42 :: t2). split; [reflexivity|]. split; [exact M12|].
        split; [simpl; intros [X|X]; [lia|contradiction]|]. split; [|auto]. intros _. rewrite R1, R2.
        destruct (ch_ascii src Hsrc s2 I2) as [(A & _)|(r & A)]; [lia|lia|]. rewrite A, Hc.
        apply LE_block_nl. exact H. }
      destruct (skip_mv src Hsrc s2 I2) as (g & M3 & Hg & Hstop).
      set (s3 := skipWhitespace src s2) in *. pose proof (mv_inv src _ _ _ _ M3) as I3.
      pose proof (mv_rest src _ _ _ _ M3) as R3. pose proof (mv_isemi src _ _ _ _ M3) as S3.
      assert (Si2 : isemi s2 = true) by congruence. rewrite Si2 in Hg, Hstop.
      assert (Hg' : Forall blank g) by (eapply Forall_impl; [|exact Hg]; intros c Hc; apply white_blank; exact Hc).
      assert (Hg10 : ~ In 10 g).
      { intro X. rewrite Forall_forall in Hg'. apply Hg' in X. unfold blank in X. lia. }
      assert (M13 : mv s s3 (42 :: t2 ++ g) True).
      { change (42 :: t2 ++ g) with ((42 :: t2) ++ g). eapply mv_app; eauto. }
      assert (N13 : ~ In 10 (42 :: t2 ++ g)).
      { simpl. intros [X|X]; [lia|]. apply in_app_or in X. tauto. }
      (* the state of affairs behind the block comment *)
      assert (HLE : (rest s3 = [] /\ line_ends_c (47 :: rest s)) \/ (line_ends_c (47 :: rest s) <-> line_ends_c (rest s3))).
      { destruct H as [(body & -> & Hb)|(H & Hb)].
        - right. rewrite R1, R2, R3. rewrite <- !app_assoc. simpl.
          assert (~ In 10 body) by (intro X; apply H10; apply in_or_app; auto).
          rewrite LE_block_iff by auto. apply LE_blanks_iff. exact Hg'.
        - left. rewrite H in R3. symmetry in R3. apply app_eq_nil in R3. destruct R3 as (_ & R3). split; [exact R3|].
          rewrite R1, R2, H, app_nil_r. apply LE_block_open. exact Hb. }
      destruct ((ch s3 <? 0) || (ch s3 =? 10)) eqn:E3.
      { exists true, s3, (42 :: t2 ++ g). split; [reflexivity|]. split; [exact M13|]. split; [exact N13|].
        split; [|auto]. intros _. destruct HLE as [(_ & X)|X]; [exact X|]. apply X.
        apply orb_true_iff in E3. destruct E3 as [E3|E3].
        - apply Z.ltb_lt in E3. destruct (ch_range src Hsrc s3 I3) as [(_ & ->)|Y]; [constructor|lia].
        - apply Z.eqb_eq in E3. destruct (ch_ascii src Hsrc s3 I3) as [(A & _)|(r & A)]; [lia|lia|]. rewrite A, E3. apply LE_nl. }
      apply orb_false_iff in E3. destruct E3 as (E3 & E4). apply Z.ltb_ge in E3. apply Z.eqb_neq in E4.
      destruct HLE as [(X & _)|HLE].
      { destruct I3 as (_ & I3 & _). rewrite X in I3. simpl in I3. lia. }
      destruct (negb (ch s3 =? 47)) eqn:E5.
      { apply negb_true_iff in E5. apply Z.eqb_neq in E5. exists false, s3, (42 :: t2 ++ g).
        split; [reflexivity|]. split; [exact M13|]. split; [exact N13|]. split; [discriminate|].
        intro X. exfalso. apply HLE in X. destruct (rest s3) as [|c l] eqn:Er.
        - destruct I3 as (_ & I3 & _). rewrite Er in I3. simpl in I3. lia.
        - assert (Hc : blank c \/ c = 10 \/ c = 47) by (inversion X; subst; auto).
          assert (c = ch s3) by (symmetry; eapply (ch_of_rest src); eauto; unfold blank in Hc; lia).
          subst c. destruct Hc as [Hc|Hc]; [|lia]. apply white_blank in Hc. congruence. }
      apply negb_false_iff in E5. apply Z.eqb_eq in E5.
      pose proof (mv_ascii src Hsrc s3 47 I3 E5 ltac:(lia)) as M4. pose proof (mv_inv src _ _ _ _ M4) as I4.
      pose proof (mv_rest src _ _ _ _ M4) as R4. simpl in R4. pose proof (mv_isemi src _ _ _ _ M4) as S4.
      set (s4 := next s3) in *.
      destruct (IH s4 I4) as (r & s' & t & El & M5 & H5 & HL).
      { congruence. } { pose proof (mv_len' src _ _ _ _ M3). pose proof (mv_len' src _ _ _ _ M2). pose proof (mv_len' src _ _ _ _ M4). lia. }
      exists r, s', ((42 :: t2 ++ g) ++ [47] ++ t). split; [exact El|].
      split; [eapply mv_app; [exact M13|]; eapply mv_app; [exact M4|exact M5]|].
      split.
      { intro X. apply in_app_or in X. destruct X as [X|X]; [contradiction|]. apply in_app_or in X.
        destruct X as [[X|[]]|X]; [lia|contradiction]. }
      rewrite HL, HLE, R4. tauto.
    + apply Z.eqb_neq in E2. exists false, s, []. split; [reflexivity|]. split; [apply mv_refl; auto|]. split; [auto|].
      split; [discriminate|]. intro X. exfalso. apply LE_slash in X.
      assert (Hh : forall b r, rest s = b :: r -> b < 128 -> ch s = b) by (intros; eapply ch_of_rest; eauto).
      destruct X as [(r & X)|(Y & X & _)]; apply Hh in X; lia.
Qed.

(** Going back to the character where a look-ahead started. *)
Lemma mv_back : forall s s2 c t Q, Inv s -> mv s s2 (c :: t) Q -> ~ In 10 (c :: t) -> 0 <= c < 128 ->
  mv s (set_cur c (off s) (off s + 1) s2) [] True.
Proof.
  intros s s2 c t Q HI (es & H & _) H10 Hc. exists es. split; [|auto].
  assert (Hr : rest s = c :: t ++ rest s2) by (apply (ext_rest _ _ _ _ _ H)).
  pose proof HI as (HI1 & HI2 & HI3 & HI4).
  assert (Hch : ch s = c) by (eapply ch_of_rest; eauto; lia).
  assert (Er : rest (set_cur c (off s) (off s + 1) s2) = rest s) by reflexivity.
  destruct H. constructor; auto.
  - destruct ext_inv as (A & B & C & D). unfold ScannerProofs.Inv. rewrite Er. simpl.
    split; [exact HI1|]. split; [congruence|]. split; [|exact D].
    rewrite Hr, width_ascii by lia. reflexivity.
  - intro HL. unfold Linv in *. simpl. rewrite ext_same_lines by exact H10. exact HL.
  - intros (C1 & C2) He. split; [constructor|]. split; [exact C1|]. simpl. rewrite <- Hch. exact C2.
  - intro HL. unfold LO in *. simpl. rewrite ext_same_lo by exact H10. exact HL.
Qed.

Lemma lineend_mv : forall s0 s, Inv s0 -> mv s0 s [47] True -> isemi s = true ->
  exists r s', findLineEnd src s = (r, s') /\ mv s0 s' [47] True /\ (r = true <-> line_ends_c (rest s0)).
Proof.
  intros s0 s HI0 M0 Hs. unfold findLineEnd.
  pose proof (mv_inv src _ _ _ _ M0) as HI. pose proof (mv_rest src _ _ _ _ M0) as R0. simpl in R0.
  destruct (fle_loop_mv fuel s HI Hs) as (r & s1 & t & E & M1 & H10 & HL).
  { pose proof (rest_le src s). unfold Scanner.fuel. lia. }
  rewrite E. assert (Eo : (off s - 1)%nat = off s0) by (rewrite (mv_off src _ _ _ _ M0); simpl; lia). rewrite Eo.
  assert (M : mv s0 s1 (47 :: t) True) by (change (47 :: t) with ([47] ++ t); eapply mv_app; eauto).
  assert (MB : mv s0 (set_cur 47 (off s0) (off s0 + 1) s1) [] True).
  { eapply mv_back; eauto; [|lia]. simpl. intros [X|X]; [lia|contradiction]. }
  pose proof (mv_inv src _ _ _ _ MB) as IB.
  pose proof (mv_ascii src Hsrc _ 47 IB eq_refl ltac:(lia)) as MN.
  eexists r, _. split; [reflexivity|]. split; [|rewrite R0; exact HL].
  change [47] with ([] ++ [47]). eapply mv_app; [exact MB|exact MN].
Qed.
End Proofs.
