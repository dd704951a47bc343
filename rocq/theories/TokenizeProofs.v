(** Tokenize in terms of Scan, and the keyword table of AutoKwScanner. *)
From Verif Require Import Base Token Utf8 Utf8Proofs Scanner ScannerSpec ScannerProofs ScannerProofs2 ScannerProofs3 ScannerProofs4
  ScannerProofs5 ScanDet ScanRun ScanInit ScanObs ScanModes Tokenize.

(** ** The keyword table *)
Inductive kwop : Type := OpInit | OpLtot (lit : bytes).
Definition kw_step (k : akw) (o : kwop) : mayp akw :=
  match o with
  | OpInit => Val (KwInit k)
  | OpLtot lit => match KwLtot k lit with Val (_, k') => Val k' | Crash => Crash end
  end.
Fixpoint kw_run (k : akw) (ops : list kwop) : mayp akw :=
  match ops with
  | [] => Val k
  | o :: r => match kw_step k o with Val k' => kw_run k' r | Crash => Crash end
  end.

Definition quote (w : bytes) : bytes := 34 :: w ++ [34].
Lemma quote_inj : forall a b, quote a = quote b -> a = b.
Proof. intros a b H. unfold quote in H. injection H as H. apply app_inj_tail in H. tauto. Qed.

(** Invariant: the map holds exactly the registered words, numbered in order. *)
Record kw_inv (k : akw) : Prop := mkKwInv {
  ki_nil : kw_map k = None -> kw_toks k = [];
  ki_find : forall w v, kw_find k w = Some v -> exists i lit, v = USER_TOKEN_BEGIN + Z.of_nat i /\
     nth_error (kw_toks k) i = Some lit /\ exists q, lit = 34 :: q /\ q <> [] /\ removelast q = w;
  ki_inj : forall w w' v, kw_find k w = Some v -> kw_find k w' = Some v -> w = w'
}.

Lemma kw_inv_new : kw_inv new_akw.
Proof. constructor; unfold kw_find; simpl; intros; discriminate || reflexivity. Qed.

Lemma kw_find_init : forall k w, kw_find (KwInit k) w = kw_find k w.
Proof. intros [t [m|]] w; reflexivity. Qed.
Lemma kw_toks_init : forall k, kw_toks (KwInit k) = kw_toks k.
Proof. intros [t [m|]]; reflexivity. Qed.

Lemma ltot_cases : forall k lit tok k', KwLtot k lit = Val (tok, k') ->
  (k' = k /\ (tok = Lit2Token lit \/ exists q, lit = 34 :: q /\ q <> [] /\ Lit2Token lit = ILLEGAL /\ kw_find k (removelast q) = Some tok)) \/
  (Lit2Token lit = ILLEGAL /\ tok = USER_TOKEN_BEGIN + Z.of_nat (length (kw_toks k)) /\ kw_toks k' = kw_toks k ++ [lit] /\
   kw_map k <> None /\ exists q, lit = 34 :: q /\ q <> [] /\ kw_find k (removelast q) = None /\
   forall w, kw_find k' w = if beq w (removelast q) then Some tok else kw_find k w).
Proof.
  intros k lit tok k' H. unfold KwLtot in H. destruct (Lit2Token lit =? ILLEGAL) eqn:E; cbn [negb] in H.
  2: { injection H as <- <-. left. auto. }
  apply Z.eqb_eq in E. destruct lit as [|q r]; [discriminate|]. destruct (q =? 34) eqn:Eq.
  2: { injection H as <- <-. left. split; [reflexivity|]. left. congruence. }
  apply Z.eqb_eq in Eq. subst q. destruct r as [|a r]; [discriminate|].
  destruct (kw_find k (removelast (a :: r))) as [v|] eqn:Ef.
  - injection H as <- <-. left. split; [reflexivity|]. right. exists (a :: r). repeat split; auto. discriminate.
  - destruct (kw_map k) as [m|] eqn:Em; [|discriminate]. injection H as <- <-. right.
    split; [exact E|]. split; [reflexivity|]. split; [reflexivity|]. split; [discriminate|]. exists (a :: r).
    split; [reflexivity|]. split; [discriminate|]. split; [exact Ef|]. intro w. unfold kw_find. cbn [kw_map lookup]. rewrite Em. reflexivity.
Qed.

Lemma kw_inv_step : forall k o k', kw_inv k -> kw_step k o = Val k' -> kw_inv k' /\
  (forall w v, kw_find k w = Some v -> kw_find k' w = Some v) /\
  (exists x, kw_toks k' = kw_toks k ++ x).
Proof.
  intros k [|lit] k' HI H.
  - injection H as <-. split; [|split; [intros w v; rewrite kw_find_init; auto|exists []; rewrite kw_toks_init, app_nil_r; reflexivity]].
    destruct HI as [H1 H2 H3]. constructor.
    + destruct k as [t [m|]]; simpl in *; discriminate.
    + intros w v. rewrite kw_find_init, kw_toks_init. apply H2.
    + intros w w' v. rewrite !kw_find_init. apply H3.
  - cbn [kw_step] in H. destruct (KwLtot k lit) as [[tok k1]|] eqn:E; [|discriminate]. injection H as <-.
    destruct (ltot_cases k lit tok k1 E) as [(-> & _)|(HL & Ht & Hk & Hm & q & -> & Hq & Hf & Hw)].
    { split; [exact HI|]. split; [auto|exists []; rewrite app_nil_r; reflexivity]. }
    split; [|split; [|eexists; exact Hk]].
    + assert (HF : forall w v, kw_find k w = Some v -> v < tok).
      { intros w v Hv. destruct (ki_find _ HI w v Hv) as (i & lit & -> & Hn & _).
        assert (i < length (kw_toks k))%nat by (apply nth_error_Some; congruence). lia. }
      constructor.
      * intro X. destruct k1 as [t1 [m1|]]; simpl in X; [discriminate|]. specialize (Hw (removelast q)). rewrite beq_refl in Hw. discriminate.
      * intros w v Hv. rewrite Hw in Hv. rewrite Hk. destruct (beq w (removelast q)) eqn:Eb.
        -- injection Hv as <-. apply beq_eq in Eb. exists (length (kw_toks k)), (34 :: q). split; [exact Ht|].
           rewrite nth_error_app2, Nat.sub_diag by lia. split; [reflexivity|]. exists q. auto.
        -- destruct (ki_find _ HI w v Hv) as (i & lit & -> & Hn & X). exists i, lit. split; [reflexivity|]. split; [|exact X].
           rewrite nth_error_app1; [exact Hn|]. apply nth_error_Some. congruence.
      * intros w w' v Hv Hv'. rewrite Hw in Hv, Hv'.
        destruct (beq w (removelast q)) eqn:E1, (beq w' (removelast q)) eqn:E2.
        -- apply beq_eq in E1, E2. congruence.
        -- injection Hv as <-. apply HF in Hv'. lia.
        -- injection Hv' as <-. apply HF in Hv. lia.
        -- exact (ki_inj _ HI w w' v Hv Hv').
    + intros w v Hv. rewrite Hw. destruct (beq w (removelast q)) eqn:Eb; [|exact Hv].
      apply beq_eq in Eb. subst w. congruence.
Qed.

Lemma kw_inv_run : forall ops k k', kw_inv k -> kw_run k ops = Val k' -> kw_inv k' /\
  (forall w v, kw_find k w = Some v -> kw_find k' w = Some v) /\ (exists x, kw_toks k' = kw_toks k ++ x).
Proof.
  induction ops as [|o ops IH]; intros k k' HI H.
  - injection H as <-. split; [exact HI|]. split; [auto|exists []; rewrite app_nil_r; reflexivity].
  - cbn [kw_run] in H. destruct (kw_step k o) as [k1|] eqn:E; [|discriminate].
    destruct (kw_inv_step k o k1 HI E) as (I1 & F1 & x1 & T1). destruct (IH k1 k' I1 H) as (I2 & F2 & x2 & T2).
    split; [exact I2|]. split; [auto|]. exists (x1 ++ x2). rewrite T2, T1, app_assoc. reflexivity.
Qed.

Lemma removelast_quote : forall w, removelast (w ++ [34]) = w.
Proof. intro. rewrite removelast_app by discriminate. simpl. apply app_nil_r. Qed.

(** What a registration does. *)
Lemma ltot_quote : forall k w tok k', kw_inv k -> Lit2Token (quote w) = ILLEGAL -> KwLtot k (quote w) = Val (tok, k') ->
  kw_find k' w = Some tok /\ USER_TOKEN_BEGIN <= tok.
Proof.
  intros k w tok k' HI HL H. destruct (ltot_cases k _ tok k' H) as [(-> & [-> | (q & E & Hq & _ & Hf)])|(_ & Ht & Hk & Hm & q & E & Hq & Hf & Hw)].
  - unfold KwLtot in H. rewrite HL in H. cbn [Z.eqb negb ILLEGAL] in H. change (ILLEGAL =? ILLEGAL) with true in H. cbn [negb] in H.
    unfold quote in H. change (34 =? 34) with true in H. cbn [app] in H. destruct (w ++ [34]) as [|a r] eqn:Ew; [destruct w; discriminate|].
    rewrite <- Ew, removelast_quote in H. destruct (kw_find k w) as [v|] eqn:Ef.
    + exfalso. injection H as ->. destruct (ki_find _ HI w _ Ef) as (i & ? & X & _). unfold USER_TOKEN_BEGIN, ILLEGAL in *. lia.
    + exfalso. destruct (kw_map k); [|discriminate]. 
      assert (X : USER_TOKEN_BEGIN + Z.of_nat (length (kw_toks k)) = ILLEGAL) by congruence. unfold USER_TOKEN_BEGIN, ILLEGAL in *. lia.
  - injection E as <-. rewrite removelast_quote in Hf. split; [exact Hf|].
    destruct (ki_find _ HI w tok Hf) as (i & ? & -> & _). unfold USER_TOKEN_BEGIN. lia.
  - injection E as <-. rewrite removelast_quote in *. rewrite Hw, beq_refl. split; [reflexivity|]. unfold USER_TOKEN_BEGIN in *. lia.
Qed.

(** Every word found was registered. *)
Lemma kw_found : forall ops k', kw_run new_akw ops = Val k' -> forall w v, kw_find k' w = Some v ->
  exists q, In (OpLtot (34 :: q)) ops /\ q <> [] /\ removelast q = w /\ Lit2Token (34 :: q) = ILLEGAL.
Proof.
  assert (G : forall ops k k', kw_inv k -> kw_run k ops = Val k' -> forall w v, kw_find k' w = Some v -> kw_find k w = Some v \/
    exists q, In (OpLtot (34 :: q)) ops /\ q <> [] /\ removelast q = w /\ Lit2Token (34 :: q) = ILLEGAL).
  { induction ops as [|o ops IH]; intros k k' HI H w v Hv.
    - injection H as <-. auto.
    - cbn [kw_run] in H. destruct (kw_step k o) as [k1|] eqn:E; [|discriminate].
      destruct (kw_inv_step k o k1 HI E) as (I1 & _). destruct (IH k1 k' I1 H w v Hv) as [X|(q & A & B)].
      2: { right. exists q. split; [right; exact A|exact B]. }
      destruct o as [|lit].
      + injection E as <-. rewrite kw_find_init in X. auto.
      + cbn [kw_step] in E. destruct (KwLtot k lit) as [[tok k2]|] eqn:EL; [|discriminate]. injection E as ->.
        destruct (ltot_cases k lit tok k1 EL) as [(-> & _)|(HL & _ & _ & _ & q & -> & Hq & _ & Hw)]; [auto|].
        rewrite Hw in X. destruct (beq w (removelast q)) eqn:Eb; [|auto]. apply beq_eq in Eb. right. exists q.
        split; [left; reflexivity|]. auto. }
  intros ops k' H w v Hv. destruct (G ops new_akw k' kw_inv_new H w v Hv) as [X|X]; [discriminate|exact X].
Qed.

(** Keywords never take the number of a built-in token. *)
Definition tk_ok (tk : tokener) : Prop := match tk with Plain => True | AutoKw k => forall w v, kw_find k w = Some v -> USER_TOKEN_BEGIN <= v end.
Lemma kw_inv_ok : forall k, kw_inv k -> tk_ok (AutoKw k).
Proof. intros k HI w v Hv. destruct (ki_find _ HI w v Hv) as (i & ? & -> & _). lia. Qed.
Lemma tk_ok_init : forall tk, tk_ok tk -> tk_ok (tk_init tk).
Proof. intros [|k] H; [exact I|]. intros w v. rewrite kw_find_init. apply H. Qed.
Lemma tk_scan_init : forall tk t, tk_scan (tk_init tk) t = tk_scan tk t.
Proof. intros [|k] t; [reflexivity|]. cbn. unfold KwScan. rewrite kw_find_init. reflexivity. Qed.
Lemma tk_scan_eof : forall tk t, tk_ok tk -> (tkind (tk_scan tk t) =? EOF) = (tkind t =? EOF).
Proof.
  intros [|k] t H; [reflexivity|]. cbn [tk_scan]. unfold KwScan. destruct (tkind t =? IDENT) eqn:E; [|reflexivity].
  destruct (kw_find k (tlit t)) as [v|] eqn:Ef; [|reflexivity]. apply H in Ef. apply Z.eqb_eq in E. cbn [tkind]. rewrite E.
  apply Z.eqb_neq. unfold USER_TOKEN_BEGIN, EOF in *. lia.
Qed.

(** ** Tokenize *)
Section Tok.
Variables isL isD : Z -> bool.
Variables mComments mSemis : bool.
Variable src : bytes.
Hypothesis Hsrc : Forall byte src.
Notation Scan := (Scan isL isD mComments mSemis src).
Notation scans := (scans isL isD mComments mSemis src).

(** The [n] first Scans reported nothing (errors of Init show up with the first Scan). *)
Definition quiet_until (n : nat) (s : sc) : Prop := forall i, (0 < i <= n)%nat -> errs (snd (scans i s)) = [].

Lemma tz_loop_spec : forall tk, tk_ok tk -> forall k s acc, Inv src s -> Sinv mSemis s -> (measure src s < k)%nat ->
  exists n ts t s', scans (S n) s = (ts ++ [t], s') /\ length ts = n /\ Forall (fun t => tkind t <> EOF) ts /\ quiet_until n s /\
    ((errs s' = [] /\ tkind t = EOF /\ tz_loop isL isD mComments mSemis src tk k s acc = TzOk (acc ++ map (tk_scan tk) ts) t) \/
     (exists es e, errs s' = es ++ [e] /\ tz_loop isL isD mComments mSemis src tk k s acc = TzErr (acc ++ map (tk_scan tk) ts) e)).
Proof.
  intros tk Htk. induction k as [|k IH]; intros s acc HI HS Hm; [lia|].
  cbn [tz_loop]. destruct (Scan s) as [t s1] eqn:E.
  destruct (scan_step isL isD mComments mSemis src Hsrc s HI HS) as (g & text & es & t0 & s0 & E0 & _ & HS' & HI').
  rewrite E in E0. injection E0 as <- <-.
  destruct (rev (errs s1)) as [|e r] eqn:Er.
  - assert (En : errs s1 = []) by (rewrite <- (rev_involutive (errs s1)), Er; reflexivity).
    rewrite tk_scan_eof by exact Htk. destruct (tkind t =? EOF) eqn:Ek.
    + apply Z.eqb_eq in Ek. exists 0%nat, [], t, s1. cbn [ScanRun.scans]. rewrite E. split; [reflexivity|]. split; [reflexivity|].
      split; [constructor|]. split; [intros i Hi; lia|]. left. split; [exact En|]. split; [exact Ek|]. simpl map. rewrite app_nil_r.
      assert (X : tk_scan tk t = t).
      { destruct tk as [|kk]; [reflexivity|]. cbn. unfold KwScan. rewrite Ek. reflexivity. }
      rewrite X. reflexivity.
    + apply Z.eqb_neq in Ek. destruct (scan_measure isL isD mComments mSemis src Hsrc s HI HS t s1 E) as [K|K]; [contradiction|].
      destruct (IH s1 (acc ++ [tk_scan tk t]) HI' HS' ltac:(lia)) as (n & ts & t' & s' & E2 & N & F & Q & R).
      exists (S n), (t :: ts), t', s'. split.
      { change (scans (S (S n)) s) with (let '(t, s1) := Scan s in let '(ts, s2) := scans (S n) s1 in (t :: ts, s2)). rewrite E, E2. reflexivity. }
      split; [simpl; congruence|]. split; [auto|]. split.
      { intros i Hi. destruct i as [|i]; [lia|]. cbn [ScanRun.scans]. rewrite E. destruct (scans i s1) as [x y] eqn:Es. cbn [snd].
        destruct i as [|i]; [injection Es as _ <-; exact En|]. specialize (Q (S i) ltac:(lia)). rewrite Es in Q. exact Q. }
      simpl map. rewrite <- app_assoc in R. cbn [app] in R. exact R.
  - exists 0%nat, [], t, s1. cbn [ScanRun.scans]. rewrite E. split; [reflexivity|]. split; [reflexivity|]. split; [constructor|].
    split; [intros i Hi; lia|]. right. exists (rev r), e. split; [|rewrite app_nil_r; reflexivity].
    rewrite <- (rev_involutive (errs s1)), Er. reflexivity.
Qed.

Lemma init_measure : forall old, (measure src (Init src old) <= 2 * length src)%nat.
Proof.
  intro old. destruct (init_spec mSemis src Hsrc old) as (b & E & _ & _ & A & _).
  assert (isemi (Init src old) = false).
  { destruct (isemi (Init src old)) eqn:X; [|reflexivity]. apply (ap_semi _ _ _ _ A) in X. destruct X as (_ & []). }
  unfold measure. rewrite H. apply (f_equal (@length Z)) in E. rewrite app_length in E. lia.
Qed.

Lemma Tokenize_spec : forall tk old, tk_ok tk ->
  exists n ts t s', scans (S n) (Init src old) = (ts ++ [t], s') /\ length ts = n /\ Forall (fun t => tkind t <> EOF) ts /\
    quiet_until n (Init src old) /\
    ((errs s' = [] /\ tkind t = EOF /\ Tokenize isL isD mComments mSemis tk old src = TzOk (map (tk_scan tk) ts) t) \/
     (exists es e, errs s' = es ++ [e] /\ Tokenize isL isD mComments mSemis tk old src = TzErr (map (tk_scan tk) ts) e)).
Proof.
  intros tk old Htk. destruct (init_spec mSemis src Hsrc old) as (b & E & _ & _ & [A1 A2 _] & _).
  pose proof (init_measure old) as M.
  destruct (tz_loop_spec (tk_init tk) (tk_ok_init tk Htk) (2 * length src + 2) (Init src old) [] A1 A2 ltac:(lia)) as (n & ts & t & s' & H1 & H2 & H3 & H4 & H5).
  exists n, ts, t, s'. split; [exact H1|]. split; [exact H2|]. split; [exact H3|]. split; [exact H4|].
  unfold Tokenize. cbn [app] in H5. rewrite (map_ext _ _ (tk_scan_init tk)) in H5. exact H5.
Qed.
End Tok.
