(** Scanning with and without ScanComments. *)
From Verif Require Import Base Token Utf8 Utf8Proofs Scanner ScannerSpec ScannerProofs ScannerProofs2 ScannerProofs3 ScannerProofs4
  ScannerProofs5 ScanDet ScanRun ScanInit ScanObs.

Section Modes.
Variables isL isD : Z -> bool.
Variable mSemis : bool.
Variable src : bytes.
Hypothesis Hsrc : Forall byte src.
Notation pass_c := (scan_pass isL isD true mSemis src).
Notation pass_n := (scan_pass isL isD false mSemis src).
Notation Scan_c := (Scan isL isD true mSemis src).
Notation Scan_n := (Scan isL isD false mSemis src).
Notation loop_n := (scan_loop isL isD false mSemis src).

Lemma pass_modes_eq : forall s, pass_c s = pass_n s \/
  exists t s' s'', pass_c s = Tok t s' /\ tkind t = COMMENT /\ pass_n s = Again s'' /\ set_isemi false s' = set_isemi false s''.
Proof.
  intro s. unfold scan_pass.
  repeat (match goal with |- (if ?b then _ else _) = (if ?b then _ else _) \/ _ => destruct b eqn:?; [left; reflexivity|] end).
  destruct (_ =? 47) eqn:E47; [|destruct (_ =? 35) eqn:E35; [|left; reflexivity]].
  - destruct ((_ =? 47) || (_ =? 42)); [|left; reflexivity].
    destruct (if isemi _ then _ else _) as [le s2]. destruct le; [left; reflexivity|].
    destruct (scanComment src s2) as [lit s3]. right. unfold finish. do 3 eexists. split; [reflexivity|]. split; [reflexivity|].
    split; [reflexivity|]. destruct mSemis; reflexivity.
  - destruct (isemi _); [left; reflexivity|]. destruct (scanSharpComment src _) as [lit s3]. right. unfold finish.
    do 3 eexists. split; [reflexivity|]. split; [reflexivity|]. split; [reflexivity|]. destruct mSemis; reflexivity.
Qed.

(** One Scan in ScanComments mode is one Scan without it, or skips a comment. *)
Lemma pass_modes : forall s, Inv src s -> Sinv mSemis s ->
  exists t s', pass_c s = Tok t s' /\
    ((tkind t <> COMMENT /\ pass_n s = Tok t s') \/ (tkind t = COMMENT /\ pass_n s = Again s' /\ (length (rest src s') < length (rest src s))%nat)).
Proof.
  intros s HI HS. pose proof (pass_spec isL isD true mSemis src Hsrc s HI HS) as PC.
  pose proof (pass_spec isL isD false mSemis src Hsrc s HI HS) as PN.
  destruct (pass_c s) as [t s1|s1] eqn:EC; cbn [pspec] in PC.
  2: { destruct PC as (? & ? & _ & _ & _ & _ & _ & X & _). discriminate. }
  exists t, s1. split; [reflexivity|].
  destruct (pass_modes_eq s) as [E|(t2 & s2 & s3 & E1 & K & E2 & ES)].
  - left. rewrite EC in E. symmetry in E. split; [|exact E]. rewrite E in PN. cbn [pspec] in PN.
    destruct PN as (g & text & _ & _ & _ & [(_ & _ & X & _)|(_ & _ & X & _)]).
    + intro K. specialize (X K). discriminate.
    + rewrite X. discriminate.
  - right. rewrite EC in E1. injection E1 as -> ->. split; [exact K|]. rewrite E2 in PN. cbn [pspec] in PN.
    destruct PN as (g & c & _ & Hc & _ & M & Hs3 & _).
    assert (Hs2 : isemi s2 = false).
    { destruct PC as (g' & text & _ & _ & _ & [(_ & _ & _ & X)|(_ & _ & X & _)]).
      - destruct (isemi s2); [|reflexivity]. exfalso. destruct (proj1 X eq_refl) as (_ & [Y|(Y & _)]); rewrite K in Y.
        + unfold line_final in Y. repeat (destruct Y as [Y|Y]; [discriminate|]). discriminate.
        + discriminate.
      - rewrite K in X. discriminate. }
    assert (E : s2 = s3).
    { rewrite <- (set_isemi_same s2), <- (set_isemi_same s3), Hs2, Hs3. exact ES. }
    subst s3. split; [exact E2|]. pose proof (mv_rest src _ _ _ _ M) as R.
    change (rest src (set_isemi false s)) with (rest src s) in R. rewrite R, !app_length. destruct c; [congruence|]. simpl. lia.
Qed.

Lemma loop_fuel : forall k j s, Inv src s -> Sinv mSemis s -> (length (rest src s) < k)%nat -> (length (rest src s) < j)%nat ->
  loop_n k s = loop_n j s.
Proof.
  induction k as [|k IH]; intros j s HI HS Hk Hj; [lia|]. destruct j as [|j]; [lia|].
  cbn [scan_loop]. pose proof (pass_spec isL isD false mSemis src Hsrc s HI HS) as P.
  destruct (pass_n s) as [t s1|s1]; [reflexivity|]. cbn [pspec] in P.
  destruct P as (g & c & _ & Hc & _ & M & Hs & _). pose proof (mv_rest src _ _ _ _ M) as R.
  change (rest src (set_isemi false s)) with (rest src s) in R.
  assert (length (rest src s1) < length (rest src s))%nat by (rewrite R, !app_length; destruct c; [congruence|]; simpl; lia).
  apply IH; try lia; [exact (mv_inv src _ _ _ _ M)|intro; exact Hs].
Qed.

Lemma Scan_modes : forall s t s', Inv src s -> Sinv mSemis s -> Scan_c s = (t, s') ->
  (tkind t <> COMMENT /\ Scan_n s = (t, s')) \/ (tkind t = COMMENT /\ Scan_n s = Scan_n s').
Proof.
  intros s t s' HI HS E. destruct (pass_modes s HI HS) as (t0 & s0 & EC & H).
  unfold Scan in E. cbn [scan_loop fuel] in E.
  assert (E' : (t0, s0) = (t, s')) by (rewrite <- E; unfold fuel; cbn [scan_loop]; rewrite EC; reflexivity).
  injection E' as -> ->. unfold Scan. pose proof (rest_le src s).
  destruct H as [(K & EN)|(K & EN & L)]; [left|right]; (split; [exact K|]).
  - unfold fuel. cbn [scan_loop]. rewrite EN. reflexivity.
  - assert (E1 : loop_n (fuel src) s = loop_n (length src) s') by (unfold fuel; cbn [scan_loop]; rewrite EN; reflexivity).
    rewrite E1. destruct (scan_step isL isD true mSemis src Hsrc s HI HS) as (g & text & es & t1 & s1 & E2 & _ & HS' & HI').
    unfold Scan in E2. rewrite E in E2. injection E2 as <- <-.
    apply loop_fuel; auto; [lia|]. unfold fuel. lia.
Qed.

Definition not_comment (t : token) : bool := negb (tkind t =? COMMENT).

Lemma scans_modes : forall n s, Inv src s -> Sinv mSemis s ->
  exists s2, scans isL isD false mSemis src (length (filter not_comment (fst (scans isL isD true mSemis src n s)))) s =
    (filter not_comment (fst (scans isL isD true mSemis src n s)), s2) /\
    Scan_n s2 = Scan_n (snd (scans isL isD true mSemis src n s)) /\
    Inv src (snd (scans isL isD true mSemis src n s)) /\ Sinv mSemis (snd (scans isL isD true mSemis src n s)) /\
    (forall ts t, fst (scans isL isD true mSemis src n s) = ts ++ [t] -> tkind t <> COMMENT -> s2 = snd (scans isL isD true mSemis src n s)).
Proof.
  induction n as [|n IH]; intros s HI HS.
  - exists s. cbn. split; [reflexivity|]. split; [reflexivity|]. split; [exact HI|]. split; [exact HS|]. intros [|] ? ?; discriminate.
  - destruct (IH s HI HS) as (s2 & E & ES & HI1 & HS1 & _). clear IH.
    rewrite scans_snoc. set (s1 := snd (scans isL isD true mSemis src n s)) in *.
    set (ts := fst (scans isL isD true mSemis src n s)) in *. cbn [fst snd]. rewrite filter_app, app_length.
    destruct (scan_step isL isD true mSemis src Hsrc s1 HI1 HS1) as (g & text & es & t & s' & EC & _ & HS' & HI').
    rewrite EC. cbn [fst snd filter].
    destruct (Scan_modes s1 t s' HI1 HS1 EC) as [(K & EN)|(K & EN)]; unfold not_comment at 2 4.
    + apply Z.eqb_neq in K. rewrite K. cbn [negb length]. rewrite Nat.add_1_r, scans_snoc, E. cbn [fst snd].
      rewrite ES, EN. exists s'. cbn [fst snd]. split; [reflexivity|]. auto.
    + rewrite K. cbn. rewrite app_nil_r, Nat.add_0_r. exists s2. split; [exact E|]. split; [congruence|]. split; [exact HI'|]. split; [exact HS'|].
      intros us u Eu Ku. apply app_inj_tail in Eu. destruct Eu as (_ & <-). contradiction.
Qed.
End Modes.
