(** Properties C28-C30 and C68: Matcher.Match / MatchExactly, Source, FileLine, MatchError.Error.
    [tokenized src ts eof]: Tokenize succeeded with tokens [ts], leaving [eof] behind them. *)
From Coq Require Import String.
From Verif Require Import Base Token Utf8 Utf8Proofs Grammar PegSpec MatchProofs MatchProofs2 MatchProofs3 Wf MatchProofs4 MatchObs.
From Verif Require Import Scanner ScannerSpec ScannerProofs ScanRun ScanInit ScanObs Tokenize TokenizeProofs PropScan Matcher MatcherProofs.

(** ** C28 *)
Section C28.
Context {A T P U V : Type}.
Variable env : bytes -> option (gr A T).
Variable c : client A T P U V.
Variables isL isD : Z -> bool.
Variables mC mS : bool.
Variable minit : st U -> st U.
Notation MatchExactly := (MatchExactly env c isL isD mC mS minit).
Notation Match := (Match env c isL isD mC mS minit).
Notation Tokenize := (Tokenize isL isD mC mS).

Lemma match_unfold : forall f g tk old src s, g <> GNil -> Match f g tk old src s =
  match Tokenize tk old src with
  | TzErr _ e => MTokErr e s
  | TzStuck => MFuel
  | TzOk tokens _ =>
      match gmatch env c f g tokens (minit s) with
      | Ret n None s' => MNext (skipn n tokens) s'
      | Ret _ (Some e) s' => MFail e s'
      | Panic p s' => MPanic p s'
      | OutOfFuel => MFuel
      end
  end.
Proof. intros f g tk old src s H. destruct g; try reflexivity. congruence. Qed.

(** Match returns the tokens the grammar left over, after running Init and the grammar's actions. *)
Theorem C28_match : forall g tk old src s next s', 
  (exists f, Match f g tk old src s = MNext next s') <->
  g <> GNil /\ exists ts eof n, Tokenize tk old src = TzOk ts eof /\ returns env c g ts (minit s) n None s' /\ next = skipn n ts.
Proof.
  intros g tk old src s next s'. split.
  - intros (f & H). assert (G : g <> GNil) by (intros ->; discriminate H). split; [exact G|].
    rewrite match_unfold in H by exact G. destruct (Tokenize tk old src) as [ts eof| |] eqn:Et; try discriminate.
    destruct (gmatch env c f g ts (minit s)) as [n [e|] s1|q s1|] eqn:Eg; try discriminate. injection H as <- <-.
    exists ts, eof, n. split; [reflexivity|]. split; [exists f; exact Eg|reflexivity].
  - intros (G & ts & eof & n & Et & (f & Hf) & ->). exists f. rewrite match_unfold, Et, Hf by exact G. reflexivity.
Qed.

(** MatchExactly returns nil exactly when tokenizing succeeds and the grammar consumes every token. *)
Theorem C28_exactly_iff : forall g tk old src s s',
  (exists f, MatchExactly f g tk old src s = MNil s') <->
  g <> GNil /\ exists ts eof, Tokenize tk old src = TzOk ts eof /\ returns env c g ts (minit s) (length ts) None s'.
Proof.
  intros g tk old src s s'. split.
  - intros (f & H). unfold MatchExactly in H. destruct (Match f g tk old src s) as [next s1| | | | | |] eqn:E; try discriminate.
    + destruct next; [|discriminate]. injection H as ->.
      destruct (proj1 (C28_match g tk old src s [] s') (ex_intro _ f E)) as (G & ts & eof & n & Et & Hr & Hn).
      split; [exact G|]. exists ts, eof. split; [exact Et|].
      assert (L : n = length ts); [|rewrite <- L; exact Hr].
      destruct Hr as (f' & Hf'). apply bounds in Hf'. symmetry in Hn. apply skipn_nil_iff in Hn. lia.
    + exfalso. assert (D : g = GNil \/ g <> GNil) by (destruct g; auto; right; discriminate). destruct D as [->|G]; [discriminate E|]. rewrite match_unfold in E by exact G.
      destruct (Tokenize tk old src); try discriminate. destruct (gmatch env c f g ts (minit s)) as [n [e|] s1|q s1|]; discriminate.
  - intros (G & ts & eof & Et & Hr).
    destruct (proj2 (C28_match g tk old src s [] s')) as (f & Hf).
    { split; [exact G|]. exists ts, eof, (length ts). split; [exact Et|]. split; [exact Hr|]. rewrite skipn_all. reflexivity. }
    exists f. unfold MatchExactly. rewrite Hf. reflexivity.
Qed.

(** The other results, all of them. *)
Theorem C28_otherwise : forall g tk old src s,
  (g = GNil -> forall f, MatchExactly f g tk old src s = MNoGrammar s) /\
  (g <> GNil -> forall ts e, Tokenize tk old src = TzErr ts e -> forall f, MatchExactly f g tk old src s = MTokErr e s) /\
  (g <> GNil -> forall ts eof, Tokenize tk old src = TzOk ts eof ->
     (forall n e s', returns env c g ts (minit s) n (Some e) s' -> exists f, MatchExactly f g tk old src s = MFail e s') /\
     (forall n s', returns env c g ts (minit s) n None s' -> (n < length ts)%nat ->
        exists f, MatchExactly f g tk old src s = MFail (MErr GEOF (skipn n ts) None 0) s') /\
     (forall p s', panics env c g ts (minit s) p s' -> exists f, MatchExactly f g tk old src s = MPanic p s')).
Proof.
  intros g tk old src s. split; [|split].
  - intros -> f. reflexivity.
  - intros G ts e Et f. unfold MatchExactly. rewrite match_unfold, Et by exact G. reflexivity.
  - intros G ts eof Et. split; [|split].
    + intros n e s' (f & Hf). exists f. unfold MatchExactly. rewrite match_unfold, Et, Hf by exact G. reflexivity.
    + intros n s' (f & Hf) Hn. exists f. unfold MatchExactly. rewrite match_unfold, Et, Hf by exact G.
      destruct (skipn n ts) eqn:E; [|reflexivity]. apply skipn_nil_iff in E. lia.
    + intros p s' (f & Hf). exists f. unfold MatchExactly. rewrite match_unfold, Et, Hf by exact G. reflexivity.
Qed.
End C28.

(** ** Positions of tokenized texts *)
Lemma tk_scan_pos : forall tk t, tpos (tk_scan tk t) = tpos t.
Proof. intros [|k] t; [reflexivity|]. unfold tk_scan, KwScan. destruct (_ =? _); [|reflexivity]. destruct (kw_find k (tlit t)); reflexivity. Qed.

Section Pos.
Variables isL isD : Z -> bool.
Variables mC mS : bool.
Variable src : bytes.
Variable Hsrc : Forall byte src.
Variable tk : tokener.
Variable Htk : tk_ok tk.
Variable old : sc.
Variables (ts : list token) (eof : token).
Variable Htz : Tokenize isL isD mC mS tk old src = TzOk ts eof.

Lemma tz_run : exists n ts0 s', scans isL isD mC mS src (S n) (Init src old) = (ts0 ++ [eof], s') /\ ts = map (tk_scan tk) ts0 /\
  tkind eof = EOF /\ Forall (fun t => tkind t <> EOF) ts0 /\ errs s' = [].
Proof.
  destruct (Tokenize_spec isL isD mC mS src Hsrc tk old Htk) as (n & ts0 & t & s' & H1 & _ & HF & _ & [(H2 & H3 & H4)|(es & e & _ & H4)]);
    rewrite Htz in H4; [|discriminate]. injection H4 as -> ->. exists n, ts0, s'. auto 6.
Qed.

Lemma tz_positions : forall i j ti tj, (i <= j)%nat -> nth_error (ts ++ [eof]) i = Some ti -> nth_error (ts ++ [eof]) j = Some tj ->
  (1 <= tpos ti <= tpos tj /\ tpos tj <= S (length src))%nat.
Proof.
  destruct tz_run as (n & ts0 & s' & E & -> & K & _). intros i j ti tj Hij Hi Hj.
  assert (M : forall i t, nth_error (map (tk_scan tk) ts0 ++ [eof]) i = Some t -> exists t0, nth_error (ts0 ++ [eof]) i = Some t0 /\ tpos t0 = tpos t).
  { intros i0 t H. destruct (Nat.lt_ge_cases i0 (length ts0)) as [L|L].
    - rewrite nth_error_app1 in H by (rewrite map_length; exact L). rewrite nth_error_map in H.
      destruct (nth_error ts0 i0) as [t0|] eqn:E0; [|discriminate]. injection H as <-. exists t0.
      rewrite nth_error_app1 by exact L. rewrite tk_scan_pos. auto.
    - rewrite nth_error_app2 in H by (rewrite map_length; exact L). rewrite map_length in H. exists t. rewrite nth_error_app2 by exact L. auto. }
  destruct (M _ _ Hi) as (t1 & N1 & P1). destruct (M _ _ Hj) as (t2 & N2 & P2). rewrite <- P1, <- P2.
  assert (X : forall i j ti tj, (i < j)%nat -> nth_error (ts0 ++ [eof]) i = Some ti -> nth_error (ts0 ++ [eof]) j = Some tj ->
    (1 <= tpos ti <= tpos tj /\ tpos tj <= S (length src))%nat).
  { intros i0 j0 a b Hlt Ha Hb. pose proof (C04_positions isL isD mC mS src old Hsrc (S n) i0 j0 a b Hlt) as Y. rewrite E in Y. specialize (Y Ha Hb). tauto. }
  destruct (Nat.eq_dec i j) as [->|Hne]; [|apply (X i j); auto; lia].
  assert (t1 = t2) by congruence. subst t2.
  destruct (Nat.eq_dec j (length ts0)) as [->|Hl].
  - rewrite nth_error_app2, Nat.sub_diag in N1 by lia. injection N1 as <-.
    destruct (run_spec isL isD mC mS src Hsrc old (S n)) as (b & ps & after & s'' & E' & _ & Es & _ & _ & _ & _).
    destruct (C02_tiling isL isD mC mS src old Hsrc (S n)) as (b' & ps' & after' & E'' & Es' & _ & X' & _).
    rewrite E in E''. cbn [fst] in E''. destruct ps' as [|p0 ps0] using rev_ind; [destruct ts0; discriminate|].
    rewrite map_app in E''. apply app_inj_tail in E''. destruct E'' as (_ & ->).
    destruct (X' ps0 p0 [] eq_refl) as (_ & _ & _ & Pp). cbn [map app] in Pp. rewrite Pp.
    apply (f_equal (@length Z)) in Es'. rewrite flat_app, flat_cons in Es'. rewrite !app_length in *. lia.
  - assert (j < length ts0)%nat. { assert (j < length (ts0 ++ [eof]))%nat by (apply nth_error_Some; congruence). rewrite app_length in *. simpl in *. lia. }
    destruct (X j (length ts0) t1 eof) as (H1 & H2); auto; [rewrite nth_error_app2, Nat.sub_diag by lia; reflexivity|]. lia.
Qed.

Lemma tz_offset : forall i t, nth_error (ts ++ [eof]) i = Some t -> Offset src (tpos t) = Val (tpos t - 1)%nat.
Proof.
  intros i t Hi. destruct (tz_positions i i t t (Nat.le_refl _) Hi Hi) as (H1 & H2). unfold Offset.
  assert (E : ((1 <=? tpos t) && (tpos t <=? S (length src)))%nat = true) by (apply andb_true_iff; split; apply Nat.leb_le; lia).
  rewrite E. reflexivity.
Qed.

(** ** C29 *)
(** Source of tokens i..j-1: the text from the first token's position to the position of the token after the range. *)
Theorem C29_source : forall i j a b, (i < j)%nat -> nth_error (ts ++ [eof]) i = Some a -> nth_error (ts ++ [eof]) j = Some b ->
  Source src (ts ++ [eof]) i j = Val (sub src (tpos a - 1) (tpos b - 1)) /\ (1 <= tpos a <= tpos b)%nat /\ (tpos b <= S (length src))%nat.
Proof.
  intros i j a b Hij Ha Hb. destruct (tz_positions i j a b ltac:(lia) Ha Hb) as (H1 & H2). split; [|auto].
  unfold Source. destruct (Nat.eqb_spec i j) as [->|_]; [lia|]. rewrite Ha, Hb, (tz_offset i a Ha), (tz_offset j b Hb). cbn [bindm].
  unfold slice. assert (E : ((tpos a - 1 <=? tpos b - 1) && (tpos b - 1 <=? length src))%nat = true) by (apply andb_true_iff; split; apply Nat.leb_le; lia).
  rewrite E. reflexivity.
Qed.
(** Adjacent ranges give adjacent texts, and an empty range the empty text. *)
Theorem C29_adjacent : forall i j k, (i <= j <= k)%nat -> (k <= length ts)%nat -> exists x y,
  Source src (ts ++ [eof]) i j = Val x /\ Source src (ts ++ [eof]) j k = Val y /\ Source src (ts ++ [eof]) i k = Val (x ++ y).
Proof.
  intros i j k Hij Hk.
  assert (N : forall n, (n <= length ts)%nat -> exists t, nth_error (ts ++ [eof]) n = Some t).
  { intros n Hn. destruct (nth_error (ts ++ [eof]) n) eqn:E; [eauto|]. apply nth_error_None in E. rewrite app_length in E. simpl in E. lia. }
  destruct (Nat.eq_dec i j) as [->|H1]; [|destruct (Nat.eq_dec j k) as [->|H2]].
  - destruct (Nat.eq_dec j k) as [->|H2].
    + exists [], []. unfold Source. rewrite Nat.eqb_refl. auto.
    + destruct (N j ltac:(lia)) as (a & Ha), (N k ltac:(lia)) as (b & Hb). destruct (C29_source j k a b ltac:(lia) Ha Hb) as (E & _).
      exists [], (sub src (tpos a - 1) (tpos b - 1)). rewrite E. split; [unfold Source; rewrite Nat.eqb_refl; reflexivity|]. auto.
  - destruct (N i ltac:(lia)) as (a & Ha), (N k ltac:(lia)) as (b & Hb). destruct (C29_source i k a b ltac:(lia) Ha Hb) as (E & _).
    exists (sub src (tpos a - 1) (tpos b - 1)), []. rewrite E, app_nil_r. split; [reflexivity|]. split; [unfold Source; rewrite Nat.eqb_refl; reflexivity|reflexivity].
  - destruct (N i ltac:(lia)) as (a & Ha), (N j ltac:(lia)) as (b & Hb), (N k ltac:(lia)) as (d & Hd).
    destruct (C29_source i j a b ltac:(lia) Ha Hb) as (E1 & P1 & Q1). destruct (C29_source j k b d ltac:(lia) Hb Hd) as (E2 & P2 & Q2).
    destruct (C29_source i k a d ltac:(lia) Ha Hd) as (E3 & _). do 2 eexists. split; [exact E1|]. split; [exact E2|]. rewrite E3. f_equal.
    unfold sub. assert (X : skipn (tpos b - 1) src = skipn (tpos b - 1 - (tpos a - 1)) (skipn (tpos a - 1) src)) by (rewrite skipn_skipn'; f_equal; lia).
    rewrite X. generalize (skipn (tpos a - 1) src). intro l.
    replace (tpos d - 1 - (tpos a - 1))%nat with ((tpos b - 1 - (tpos a - 1)) + (tpos d - 1 - (tpos b - 1)))%nat by lia.
    generalize (tpos b - 1 - (tpos a - 1))%nat. generalize (tpos d - 1 - (tpos b - 1))%nat. clear.
    intros m n. revert l. induction n as [|n IH]; intros l; [reflexivity|]. destruct l as [|x l]; [cbn; rewrite firstn_nil; reflexivity|].
    cbn [Nat.add firstn skipn app]. f_equal. apply IH.
Qed.

(** ** C30 *)
Lemma info_ok : forall ls i idx, (idx < length (skipn i ts))%nat -> exists x, calcErrorInfo src ls (skipn i ts) eof idx = Val x.
Proof.
  intros ls i idx Hidx. unfold calcErrorInfo. destruct (skipn i ts) as [|d0 ds] eqn:Ed; [simpl in Hidx; lia|].
  assert (Hi : (i <= length ts)%nat). { destruct (Nat.le_gt_cases i (length ts)) as [|G]; auto. exfalso. rewrite (proj2 (skipn_nil_iff _ i ts)) in Ed by lia. discriminate. }
  assert (Nt : forall k t, nth_error ((d0 :: ds) ++ [eof]) k = Some t -> nth_error (ts ++ [eof]) (i + k) = Some t).
  { intros k t H. rewrite <- Ed in H. rewrite <- (firstn_skipn i ts) at 1. rewrite <- app_assoc.
    rewrite nth_error_app2 by (rewrite firstn_length; lia). rewrite firstn_length. replace (i + k - Nat.min i (length ts))%nat with k by lia. exact H. }
  assert (N0 : nth_error (ts ++ [eof]) (i + 0) = Some d0) by (apply Nt; reflexivity).
  assert (Ne : nth_error (ts ++ [eof]) (length ts) = Some eof) by (rewrite nth_error_app2, Nat.sub_diag by lia; reflexivity).
  assert (Le : length ts = (i + length (d0 :: ds))%nat) by (rewrite <- Ed, skipn_length; lia).
  rewrite (tz_offset _ _ N0), (tz_offset _ _ Ne). cbn [bindm].
  assert (X : forall k, (k <= length (d0 :: ds))%nat -> exists t, nth_error ((d0 :: ds) ++ [eof]) k = Some t).
  { intros k Hk. destruct (nth_error ((d0 :: ds) ++ [eof]) k) eqn:E; [eauto|]. apply nth_error_None in E. rewrite app_length in E. simpl in *. lia. }
  destruct (X (idx + 1)%nat ltac:(lia)) as (e1 & E1). destruct (X idx ltac:(lia)) as (e0 & E0). rewrite E1, E0.
  apply Nt in E1. apply Nt in E0. rewrite (tz_offset _ _ E1). cbn [bindm].
  destruct (tz_positions (i + 0) (length ts) d0 eof ltac:(lia) N0 Ne) as (P1 & P2). destruct (tz_positions (i + 0) (i + (idx + 1)) d0 e1 ltac:(lia) N0 E1) as (P3 & P4).
  unfold slice. assert (B1 : ((tpos d0 - 1 <=? tpos eof - 1) && (tpos eof - 1 <=? length src))%nat = true) by (apply andb_true_iff; split; apply Nat.leb_le; lia).
  assert (B2 : ((tpos d0 - 1 <=? tpos e1 - 1) && (tpos e1 - 1 <=? length src))%nat = true) by (apply andb_true_iff; split; apply Nat.leb_le; lia).
  rewrite B1, B2. cbn [bindm]. unfold Line. rewrite (tz_offset _ _ E0). cbn [bindm].
  match goal with |- context [if ?b then _ else _] => destruct b end; cbn [bindm]; eexists; reflexivity.
Qed.

Section C30.
Context {A T P U V : Type}.
Variable env : bytes -> option (gr A T).
Variable c : client A T P U V.
Variable ttol : Z -> mayp bytes.
Notation err_text := (error_text ttol src).

(** Formatting an error returned by a grammar never panics. *)
Theorem C30_returned_errors :
  (forall a ts l s p s', c_act c a ts l s = APanic p s' -> forall e, p <> PMatch e) ->
  (forall v g, env v = Some g -> printable ttol g) -> forall g, printable ttol g ->
  forall s n e s' ls, returns env c g ts s n (Some e) s' -> exists x, err_text ls eof e = Val x.
Proof.
  intros Hact Henv g Hg s n e s' ls (f & Hf). pose proof (errors_spec env c ttol Hact Henv f g ts s Hg) as H. rewrite Hf in H. cbn [good_res] in H.
  destruct H as [-> | (g1 & i & Hp & ->)]; [eexists; reflexivity|]. cbn [error_text].
  assert (Y : exists x, calcErrorInfo src ls (skipn i ts) eof 0 = Val x).
  { destruct (skipn i ts) eqn:E; [eexists; reflexivity|]. rewrite <- E. apply info_ok. rewrite E. simpl. lia. }
  destruct Y as (x & ->). cbn [bindm]. unfold Code. destruct (marshal_ok ttol g1 0 Hp) as (y & ->). eexists. reflexivity.
Qed.

(** Formatting an error raised by a sequence with ! panics exactly when the sequence failed at the end of the input
    (after the last token of a non-empty rest). *)
Theorem C30_raised_errors :
  (forall a ts l s p s', c_act c a ts l s = APanic p s' -> forall e, p <> PMatch e) ->
  (forall v g, env v = Some g -> printable ttol g) -> forall g, printable ttol g ->
  forall s e s' ls, panics env c g ts s (PMatch e) s' ->
  exists g1 doc e1 k, e = MErr g1 doc (Some e1) k /\ (exists i, doc = skipn i ts) /\ (k <= length doc)%nat /\
    (err_text ls eof e = Crash <-> doc <> [] /\ k = length doc).
Proof.
  intros Hact Henv g Hg s e s' ls (f & Hf). pose proof (errors_spec env c ttol Hact Henv f g ts s Hg) as H. rewrite Hf in H. cbn [good_res] in H.
  destruct H as (g1 & i & e1 & k & Hp & -> & Hk). exists g1, (skipn i ts), e1, k. split; [reflexivity|]. split; [eauto|]. split; [exact Hk|].
  cbn [error_text]. split.
  - intro H. destruct (skipn i ts) as [|d0 ds] eqn:Ed.
    + exfalso. cbn [calcErrorInfo bindm] in H. unfold Code in H. destruct (marshal_ok ttol g1 0 Hp) as (y & Ey). rewrite Ey in H. discriminate.
    + split; [discriminate|]. destruct (Nat.eq_dec k (length (d0 :: ds))) as [|Hne]; auto. exfalso.
      destruct (info_ok ls i k) as (x & Ex); [rewrite Ed; lia|]. rewrite Ed in Ex. rewrite Ex in H. cbn [bindm] in H. unfold Code in H.
      destruct (marshal_ok ttol g1 0 Hp) as (y & Ey). rewrite Ey in H. discriminate.
  - intros (Hne & ->). unfold calcErrorInfo. destruct (skipn i ts) as [|d0 ds] eqn:Ed; [congruence|].
    assert (O : nth_error ((d0 :: ds) ++ [eof]) (length (d0 :: ds) + 1) = None) by (apply nth_error_None; rewrite app_length; simpl; lia).
    rewrite O. destruct (Offset src (tpos d0)); [|reflexivity]. cbn [bindm]. destruct (Offset src (tpos eof)); reflexivity.
Qed.

(** The error MatchExactly makes for unconsumed tokens is printable, too. *)
Theorem C30_leftover_error : forall n ls, exists x, err_text ls eof (@MErr A T GEOF (skipn n ts) None 0) = Val x.
Proof.
  intros n ls. cbn [error_text]. assert (Y : exists x, calcErrorInfo src ls (skipn n ts) eof 0 = Val x).
  { destruct (skipn n ts) eqn:E; [eexists; reflexivity|]. rewrite <- E. apply info_ok. rewrite E. simpl. lia. }
  destruct Y as (x & ->). eexists. reflexivity.
Qed.
End C30.

(** ** C70 *)
(** [m] is where the first nine lines of [l] end. *)
Definition nine_lines (l : bytes) (m : nat) : Prop :=
  (m = length l /\ (newlines l < 9)%nat) \/ ((m <= length l)%nat /\ newlines (firstn m l) = 9%nat /\ exists l', firstn m l = l' ++ [10]).
Lemma nextLines_spec : forall l n, (0 < n)%nat -> exists m, nextLines n l = firstn m l /\
  ((m = length l /\ (newlines l < n)%nat) \/ ((m <= length l)%nat /\ newlines (firstn m l) = n /\ exists l', firstn m l = l' ++ [10])).
Proof.
  induction l as [|c l IH]; intros n Hn; [exists 0%nat; split; [reflexivity|left; simpl; lia]|].
  destruct n as [|n]; [lia|]. cbn [nextLines]. destruct (c =? 10) eqn:E.
  - destruct n as [|n].
    + exists 1%nat. split; [cbn; destruct l; reflexivity|]. right. split; [simpl; lia|]. cbn [firstn]. apply Z.eqb_eq in E. subst c. split; [reflexivity|]. exists []. reflexivity.
    + destruct (IH (S n) ltac:(lia)) as (m & -> & H). exists (S m). split; [reflexivity|]. cbn [firstn length]. cbn [newlines]. rewrite E.
      destruct H as [(H1 & H2) | (H1 & H2 & l' & H3)]; [left; lia|right]. split; [lia|]. split; [lia|]. exists (c :: l'). rewrite H3. reflexivity.
  - destruct (IH (S n) ltac:(lia)) as (m & -> & H). exists (S m). split; [reflexivity|]. cbn [firstn length]. cbn [newlines]. rewrite E.
    destruct H as [(H1 & H2) | (H1 & H2 & l' & H3)]; [left; lia|right]. split; [lia|]. split; [lia|]. exists (c :: l'). rewrite H3. reflexivity.
Qed.
(** What an error text quotes: the source from the first token of the input that was being matched, nine lines of it
    or up to the token behind the offending one, whichever is longer; and the line of the offending token. *)
Theorem C70_excerpt : forall ls i k line text, (i < length ts)%nat ->
  calcErrorInfo src ls (skipn i ts) eof k = Val (line, text) ->
  exists d e0 e1 m, nth_error ts i = Some d /\ nth_error (ts ++ [eof]) (i + k) = Some e0 /\ nth_error (ts ++ [eof]) (S (i + k)) = Some e1 /\
    nine_lines (firstn (tpos eof - tpos d) (skipn (tpos d - 1) src)) m /\
    text = firstn (Nat.max m (tpos e1 - tpos d)) (skipn (tpos d - 1) src) /\
    Line src ls (tpos e0) = Val line.
Proof.
  intros ls i k line text Hi H. unfold calcErrorInfo in H. destruct (skipn i ts) as [|d0 ds] eqn:Ed.
  { apply (f_equal (@length _)) in Ed. rewrite skipn_length in Ed. simpl in Ed. lia. }
  assert (Nt : forall k t, nth_error ((d0 :: ds) ++ [eof]) k = Some t -> nth_error (ts ++ [eof]) (i + k) = Some t).
  { intros k' t Hn. rewrite <- Ed in Hn. rewrite <- (firstn_skipn i ts) at 1. rewrite <- app_assoc.
    rewrite nth_error_app2 by (rewrite firstn_length; lia). rewrite firstn_length. replace (i + k' - Nat.min i (length ts))%nat with k' by lia. exact Hn. }
  assert (N0 : nth_error (ts ++ [eof]) (i + 0) = Some d0) by (apply Nt; reflexivity).
  assert (Ne : nth_error (ts ++ [eof]) (length ts) = Some eof) by (rewrite nth_error_app2, Nat.sub_diag by lia; reflexivity).
  assert (N00 : nth_error ts i = Some d0) by (rewrite Nat.add_0_r, nth_error_app1 in N0 by lia; exact N0).
  rewrite (tz_offset _ _ N0), (tz_offset _ _ Ne) in H. cbn [bindm] in H.
  destruct (nth_error ((d0 :: ds) ++ [eof]) (k + 1)) as [e1|] eqn:E1; [|discriminate].
  destruct (nth_error ((d0 :: ds) ++ [eof]) k) as [e0|] eqn:E0; [|discriminate].
  apply Nt in E1. apply Nt in E0. rewrite (tz_offset _ _ E1) in H. cbn [bindm] in H.
  assert (Hle : (i + (k + 1) <= length ts)%nat). { assert (X : nth_error (ts ++ [eof]) (i + (k + 1)) <> None) by congruence. apply nth_error_Some in X. rewrite app_length in X. simpl in X. lia. }
  destruct (tz_positions (i + 0) (length ts) d0 eof ltac:(lia) N0 Ne) as (P1 & P2). destruct (tz_positions (i + 0) (i + (k + 1)) d0 e1 ltac:(lia) N0 E1) as (P3 & P4).
  destruct (tz_positions (i + (k + 1)) (length ts) e1 eof Hle E1 Ne) as (P5 & P6).
  unfold slice in H. assert (B1 : ((tpos d0 - 1 <=? tpos eof - 1) && (tpos eof - 1 <=? length src))%nat = true) by (apply andb_true_iff; split; apply Nat.leb_le; lia).
  assert (B2 : ((tpos d0 - 1 <=? tpos e1 - 1) && (tpos e1 - 1 <=? length src))%nat = true) by (apply andb_true_iff; split; apply Nat.leb_le; lia).
  rewrite B1, B2 in H. unfold sub in H. cbn [bindm] in H.
  replace (tpos eof - 1 - (tpos d0 - 1))%nat with (tpos eof - tpos d0)%nat in H by lia. replace (tpos e1 - 1 - (tpos d0 - 1))%nat with (tpos e1 - tpos d0)%nat in H by lia.
  set (rest := firstn (tpos eof - tpos d0) (skipn (tpos d0 - 1) src)) in *.
  destruct (nextLines_spec rest 9 ltac:(lia)) as (m & Em & Hm). rewrite Em in H.
  assert (Hm' : (m <= length rest)%nat) by (destruct Hm as [(? & _) | (? & _)]; lia).
  assert (Hr : (length rest <= tpos eof - tpos d0)%nat) by (unfold rest; rewrite firstn_length; lia).
  assert (Lm : length (firstn m rest) = m) by (rewrite firstn_length; lia). rewrite Lm in H.
  exists d0, e0, e1, m. split; [exact N00|]. split; [exact E0|]. split; [replace (S (i + k)) with (i + (k + 1))%nat by lia; exact E1|]. split; [exact Hm|].
  assert (Fm : firstn m rest = firstn m (skipn (tpos d0 - 1) src)) by (unfold rest; rewrite firstn_firstn; f_equal; lia).
  destruct (m <? tpos e1 - tpos d0)%nat eqn:Eb; cbn [bindm] in H; destruct (Line src ls (tpos e0)) as [ln|] eqn:El; cbn [bindm] in H; try discriminate; injection H as <- <-.
  - apply Nat.ltb_lt in Eb. split; [rewrite Nat.max_r by lia; reflexivity|reflexivity].
  - apply Nat.ltb_ge in Eb. split; [rewrite Nat.max_l by lia; exact Fm|reflexivity].
Qed.
End Pos.

(** ** C68 *)
(** FileLine of a non-empty token range: one plus the number of newlines before its first token. *)
Theorem C68_FileLine : forall isL isD mC mS src, Forall byte src -> forall tk, tk_ok tk -> forall old ts eof,
  Tokenize isL isD mC mS tk old src = TzOk ts eof ->
  exists n s, scans isL isD mC mS src n (Init src old) = s /\ forall i t, nth_error ts i = Some t -> (tpos t <= length src)%nat ->
    FileLine src (lines (snd s)) (skipn i ts) = Val (S (newlines (firstn (tpos t - 1) src))).
Proof.
  intros isL isD mC mS src Hsrc tk Htk old ts eof Htz.
  destruct (tz_run isL isD mC mS src Hsrc tk Htk old ts eof Htz) as (n & ts0 & s' & E & -> & K & _).
  exists (S n), (ts0 ++ [eof], s'). split; [exact E|]. intros i t Hi Ht. cbn [snd].
  assert (Hn : exists r, skipn i (map (tk_scan tk) ts0) = t :: r).
  { apply nth_error_split in Hi. destruct Hi as (l1 & l2 & -> & <-). exists l2. rewrite skipn_app, skipn_all, Nat.sub_diag. reflexivity. }
  destruct Hn as (r & ->). cbn [FileLine]. unfold Line.
  assert (Hi' : nth_error (map (tk_scan tk) ts0 ++ [eof]) i = Some t).
  { rewrite nth_error_app1; [exact Hi|]. apply nth_error_Some. congruence. }
  rewrite (tz_offset isL isD mC mS src Hsrc tk Htk old _ eof Htz i t Hi'). cbn [bindm]. f_equal.
  destruct (tz_positions isL isD mC mS src Hsrc tk Htk old _ eof Htz i i t t (Nat.le_refl _) Hi' Hi') as (P1 & _).
  destruct (C15_line_table isL isD mC mS src old Hsrc (S n) ts0 eof s' E K) as (_ & H). apply H. lia.
Qed.

(** ** Instances *)
Definition gx : gr nat nat := GAnd [GTok IDENT; GNil; GTok ASSIGN; GTok INT].
Definition tz (s : string) : tzres := Tokenize no_runes no_runes false false Plain fresh (s2b s).
Lemma printable_gx : printable Token2Lit gx.
Proof. cbn. repeat split; auto; right; eexists; vm_compute; reflexivity. Qed.

Definition mlog : uclient nat nat Empty_set (list nat) unit := mkUclient (fun a ts l x => inl (x ++ [a])) (fun t x => (tt, x)) (fun t v ok x => x).
Definition no_rules : bytes -> option (gr nat nat) := fun _ => None.
Definition m0 : st (list nat) := mkSt (fun _ => 0) [].
Notation run_exactly f g txt := (MatchExactly no_rules (lift mlog) no_runes no_runes false false (fun x => x) f g Plain fresh (s2b txt) m0).

Example C28_instance : (exists s' f, run_exactly f gx "a = 1" = MNil s') /\
  (exists s' f, run_exactly f gx "a = 1 b" = MFail (MErr GEOF [mkTok IDENT 7 [98]] None 0) s').
Proof. split; eexists; exists 20%nat; vm_compute; reflexivity. Qed.
Example C29_instance : exists ts eof, tz "ab  += (c) // d" = TzOk ts eof /\ Forall byte (s2b "ab  += (c) // d") /\ tk_ok Plain /\
  Source (s2b "ab  += (c) // d") (ts ++ [eof]) 1 3 = Val (s2b "+= (") /\
  Source (s2b "ab  += (c) // d") (ts ++ [eof]) 3 5 = Val (s2b "c) // d").
Proof. do 2 eexists. split; [vm_compute; reflexivity|]. split; [repeat constructor; unfold byte; lia|]. vm_compute. auto. Qed.
(** the hypotheses of C30 for a returned error ... *)
Example C30_instance : exists ts eof n e s', tz "a = b" = TzOk ts eof /\ printable Token2Lit (GOr [gx; GTok INT] : gr nat nat) /\
  returns no_rules (lift mlog) (GOr [GTok INT; GTok STRING]) ts m0 n (Some e) s' /\
  error_text Token2Lit (s2b "a = b") [0%nat] eof e = Val (1%nat, s2b "a = b", s2b "INT | STRING").
Proof.
  do 5 eexists. split; [vm_compute; reflexivity|]. split; [split; [exact printable_gx|]; cbn; split; auto; eexists; vm_compute; reflexivity|].
  split; [exists 20%nat; vm_compute; reflexivity|vm_compute; reflexivity].
Qed.
(** ... and a grammar and a text for which the error raised by ! cannot be formatted. *)
Theorem C30_all_errors_printable_refuted : exists ts eof e s',
  tz "a" = TzOk ts eof /\ printable Token2Lit gx /\ panics no_rules (lift mlog) gx ts m0 (PMatch e) s' /\
  error_text Token2Lit (s2b "a") [0%nat] eof e = Crash.
Proof.
  do 4 eexists. split; [vm_compute; reflexivity|]. split; [exact printable_gx|]. split; [exists 20%nat; vm_compute; reflexivity|vm_compute; reflexivity].
Qed.
Example C30_raised_instance : exists ts eof e s',
  tz "a b" = TzOk ts eof /\ panics no_rules (lift mlog) gx ts m0 (PMatch e) s' /\
  error_text Token2Lit (s2b "a b") [0%nat] eof e = Val (1%nat, s2b "a b", s2b "IDENT '=' INT").
Proof. do 4 eexists. split; [vm_compute; reflexivity|]. split; [exists 20%nat; vm_compute; reflexivity|vm_compute; reflexivity]. Qed.
Example C68_instance : exists ts eof s, tz "a
 b" = TzOk ts eof /\ scans no_runes no_runes false false (s2b "a
 b") 3 (Init (s2b "a
 b") fresh) = s /\ FileLine (s2b "a
 b") (lines (snd s)) (skipn 1 ts) = Val 2%nat.
Proof. do 3 eexists. split; [vm_compute; reflexivity|]. split; [reflexivity|]. vm_compute. reflexivity. Qed.

(** the hypotheses of C70: an error behind line 1, and the nine lines quoted *)
Example C70_instance : exists ts eof, tz "a
b
c" = TzOk ts eof /\ (1 < length ts)%nat /\ calcErrorInfo (s2b "a
b
c") [0; 2; 4]%nat (skipn 1 ts) eof 0 = Val (2%nat, s2b "b
c").
Proof. do 2 eexists. split; [vm_compute; reflexivity|]. vm_compute. split; [lia|reflexivity]. Qed.

Print Assumptions C28_match.
Print Assumptions C28_exactly_iff.
Print Assumptions C28_otherwise.
Print Assumptions C29_source.
Print Assumptions C29_adjacent.
Print Assumptions C30_returned_errors.
Print Assumptions C30_raised_errors.
Print Assumptions C30_leftover_error.
Print Assumptions C68_FileLine.
Print Assumptions C30_all_errors_printable_refuted.
Print Assumptions C70_excerpt.
