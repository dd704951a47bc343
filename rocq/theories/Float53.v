(** float64 arithmetic on integers up to 2^53, and the parts of tpl/number/number.go that compute with float64 values:
    Max, Min, Inf (number.go:56-108), % and mod (math.Mod), int(x). *)
From Coq Require Import String SpecFloat.
From Verif Require Import Base Token Utf8 Scanner Tokenize Grammar Matcher Compiler Interp QValue.
Local Open Scope list_scope. Local Open Scope Z_scope.

(** ** Rounding what needs no rounding *)
Notation dig m := (Zpos (digits2_pos m)).
Lemma p2s : forall k, 0 <= k -> 2 ^ (k + 1) = 2 * 2 ^ k.
Proof. intros k H. rewrite Z.pow_add_r by lia. change (2 ^ 1) with 2. lia. Qed.
Lemma p2pos : forall k, 0 <= k -> 0 < 2 ^ k.
Proof. intros. apply Z.pow_pos_nonneg; lia. Qed.
Lemma digits_bounds : forall p, 2 ^ (dig p - 1) <= Zpos p < 2 ^ dig p.
Proof.
  assert (H : forall p, exists k, 0 <= k /\ dig p = k + 1 /\ 2 ^ k <= Zpos p < 2 ^ (k + 1)).
  { induction p as [p (k & K & E & IH)|p (k & K & E & IH)|]; cbn [digits2_pos].
    - exists (k + 1). rewrite Pos2Z.inj_succ, E. pose proof (p2s (k + 1) ltac:(lia)). pose proof (p2s k K). repeat split; lia.
    - exists (k + 1). rewrite Pos2Z.inj_succ, E. pose proof (p2s (k + 1) ltac:(lia)). pose proof (p2s k K). repeat split; lia.
    - exists 0. cbn. lia. }
  intro p. destruct (H p) as (k & K & E & B). rewrite E. replace (k + 1 - 1) with k by lia. exact B.
Qed.
Lemma digits_unique : forall p d, 1 <= d -> 2 ^ (d - 1) <= Zpos p < 2 ^ d -> dig p = d.
Proof.
  intros p d Hd B. pose proof (digits_bounds p) as B'. destruct (Z.lt_trichotomy (dig p) d) as [L|[E|L]]; [|exact E|]; exfalso.
  - assert (2 ^ dig p <= 2 ^ (d - 1)) by (apply Z.pow_le_mono_r; lia). lia.
  - assert (2 ^ d <= 2 ^ (dig p - 1)) by (apply Z.pow_le_mono_r; lia). lia.
Qed.
Lemma digits_mul : forall p q n, 0 <= n -> Zpos q = Zpos p * 2 ^ n -> dig q = dig p + n.
Proof.
  intros p q n Hn E. apply digits_unique; [lia|]. pose proof (digits_bounds p) as B. rewrite E.
  replace (dig p + n - 1) with (dig p - 1 + n) by lia. rewrite !Z.pow_add_r by lia. pose proof (p2pos n Hn). nia.
Qed.
Lemma shr_exact : forall p m, SpecFloat.iter_pos shr_1 p (Build_shr_record (Zpos m * 2 ^ Zpos p) false false) = Build_shr_record (Zpos m) false false.
Proof.
  assert (P : forall p m, exists q, Zpos m * 2 ^ Zpos p = Zpos q) by (intros p m; pose proof (p2pos (Zpos p) ltac:(lia)); destruct (Zpos m * 2 ^ Zpos p) eqn:E; [lia|eauto|lia]).
  assert (S : forall m, shr_1 (Build_shr_record (Zpos m * 2) false false) = Build_shr_record (Zpos m) false false) by (intro m; rewrite Z.mul_comm; reflexivity).
  induction p as [p IH|p IH|]; intro m; cbn [SpecFloat.iter_pos].
  - replace (Zpos m * 2 ^ Zpos p~1) with (Zpos m * 2 ^ Zpos p * 2 ^ Zpos p * 2).
    + destruct (P p m) as (q & Q). rewrite Q. destruct (P p q) as (r & R). rewrite R, S, <- R, IH, <- Q. apply IH.
    + replace (Zpos p~1) with (Zpos p + Zpos p + 1) by lia. rewrite p2s, Z.pow_add_r by lia. ring.
  - replace (Zpos m * 2 ^ Zpos p~0) with (Zpos m * 2 ^ Zpos p * 2 ^ Zpos p).
    + destruct (P p m) as (q & Q). rewrite Q, IH, <- Q. apply IH.
    + replace (Zpos p~0) with (Zpos p + Zpos p) by lia. rewrite Z.pow_add_r by lia. ring.
  - apply S.
Qed.
(** a 53-digit mantissa [M] with exponent [e], given as [M * 2^n] with exponent [e - n] *)
Definition normal (M : positive) (e : Z) : Prop := dig M = 53 /\ -1074 <= e <= 971.
Lemma fexp_normal : forall e, -1074 <= e -> fexp 53 1024 (53 + e) = e.
Proof. intros e H. unfold fexp, emin. lia. Qed.
Lemma aux_exact : forall s M e n q, normal M e -> 0 <= n -> Zpos q = Zpos M * 2 ^ n -> binary_round_aux 53 1024 s (Zpos q) (e - n) loc_Exact = S754_finite s M e.
Proof.
  intros s M e n q (HM & He) Hn Hq. unfold binary_round_aux, shr_fexp at 1. cbn [shr_record_of_loc Zdigits2]. rewrite (digits_mul M q n Hn Hq), HM.
  replace (53 + n + (e - n)) with (53 + e) by lia. rewrite fexp_normal by lia. replace (e - (e - n)) with n by lia.
  assert (E : shr (Build_shr_record (Zpos q) false false) (e - n) n = (Build_shr_record (Zpos M) false false, e)).
  { destruct n as [|p|p]; [|cbn [shr]; rewrite Hq, shr_exact; f_equal; lia|lia]. cbn [shr]. rewrite Hq. change (2 ^ 0) with 1. rewrite Z.mul_1_r. f_equal. lia. }
  rewrite E. cbn [shr_m loc_of_shr_record round_nearest_even]. unfold shr_fexp. cbn [shr_record_of_loc Zdigits2]. rewrite HM, fexp_normal by lia. rewrite Z.sub_diag. cbn [shr shr_m].
  replace (Zle_bool e (1024 - 53)) with true; [reflexivity|]. symmetry. apply Z.leb_le. lia.
Qed.
Lemma round_exact : forall s M e m x, normal M e -> (exists n, 0 <= n /\ x = e - n /\ Zpos m = Zpos M * 2 ^ n) \/ (exists n, 0 <= n /\ x = e + n /\ Zpos M = Zpos m * 2 ^ n) ->
  binary_round 53 1024 s m x = S754_finite s M e.
Proof.
  intros s M e m x HN [(n & Hn & -> & Hm)|(n & Hn & -> & Hm)]; unfold binary_round, shl_align; destruct HN as (HM & He).
  - rewrite (digits_mul M m n Hn Hm), HM. replace (53 + n + (e - n)) with (53 + e) by lia. rewrite fexp_normal by lia. replace (e - (e - n)) with n by lia.
    destruct n as [|p|p]; [| |lia]; apply aux_exact; try assumption; split; assumption.
  - pose proof (digits_mul m M n Hn Hm) as D. rewrite HM in D. replace (dig m + (e + n)) with (53 + e) by lia. rewrite fexp_normal by lia. replace (e - (e + n)) with (- n) by lia.
    destruct n as [|p|p]; [| |lia]; cbn [Z.opp].
    + replace (e + 0) with (e - 0) by lia. apply aux_exact; [split; assumption|lia|]. change (2 ^ 0) with 1 in *. lia.
    + assert (Zpos (shift_pos p m) = Zpos M) as -> by (rewrite Hm; rewrite shift_pos_correct, Z.pow_pos_fold by idtac; lia).
      replace e with (e - 0) at 1 by lia. apply aux_exact; [split; assumption|lia|]. change (2 ^ 0) with 1. lia.
Qed.

(** ** Integers up to 2^53 *)
Definition small (z : Z) : Prop := Z.abs z <= 2 ^ 53.
(** what the float64 [f] holds, up to the sign of zero *)
Definition holds (f : float) (z : Z) : Prop := f = f_of_int z \/ (z = 0 /\ f = S754_zero true).
Lemma of_int_form : forall z, 0 < z <= 2 ^ 53 -> exists M e, normal M e /\ -52 <= e <= 1 /\ Zpos M * 2 ^ (e + 52) = z * 2 ^ 52 /\
  f_of_int z = S754_finite false M e /\ f_of_int (- z) = S754_finite true M e.
Proof.
  intros z Hz. destruct z as [|p|p]; [lia| |lia]. pose proof (digits_bounds p) as B.
  assert (D : 1 <= dig p <= 54).
  { split; [lia|]. destruct (Z.le_gt_cases (dig p) 54); [assumption|]. exfalso. assert (2 ^ 54 <= 2 ^ (dig p - 1)) by (apply Z.pow_le_mono_r; lia). lia. }
  assert (X : exists M, dig M = 53 /\ Zpos M * 2 ^ (dig p - 53 + 52) = Zpos p * 2 ^ 52).
  { destruct (Z.eq_dec (dig p) 54) as [E|E].
    - exists (2 ^ 52)%positive. split; [reflexivity|]. rewrite E in *. replace (Zpos p) with (2 ^ 53) by lia. reflexivity.
    - pose proof (p2pos (53 - dig p) ltac:(lia)) as PP. destruct (Zpos p * 2 ^ (53 - dig p)) as [|M|M] eqn:EM; [lia| |lia]. exists M. split.
      + rewrite (digits_mul p M (53 - dig p)) by lia. lia.
      + rewrite <- EM, <- Z.mul_assoc, <- Z.pow_add_r by lia. f_equal. f_equal. lia. }
  destruct X as (M & HM & EM). exists M, (dig p - 53). assert (N : normal M (dig p - 53)) by (split; [exact HM|lia]). split; [exact N|]. split; [lia|]. split; [exact EM|].
  assert (R : forall s, binary_round 53 1024 s p 0 = S754_finite s M (dig p - 53)).
  { intro s. apply round_exact; [exact N|]. destruct (Z.eq_dec (dig p) 54) as [E|E].
    - left. exists 1. rewrite E in *. split; [lia|]. split; [lia|]. change (54 - 53 + 52) with 53 in EM. change (2 ^ 53) with (2 ^ 52 * 2) in EM. change (2 ^ 1) with 2. nia.
    - right. exists (53 - dig p). split; [lia|]. split; [lia|]. replace (2 ^ 52) with (2 ^ (dig p - 53 + 52) * 2 ^ (53 - dig p)) in EM by (rewrite <- Z.pow_add_r by lia; f_equal; lia).
      pose proof (p2pos (dig p - 53 + 52) ltac:(lia)). nia. }
  split; [exact (R false)|exact (R true)].
Qed.
Lemma norm_int : forall S e z, -104 <= e <= 1 -> small z -> S * 2 ^ (e + 104) = z * 2 ^ 104 -> binary_normalize 53 1024 S e false = f_of_int z.
Proof.
  assert (G : forall s p e z, -104 <= e <= 1 -> 0 < z <= 2 ^ 53 -> Zpos p * 2 ^ (e + 104) = z * 2 ^ 104 -> forall M e', f_of_int z = S754_finite false M e' -> binary_round 53 1024 s p e = S754_finite s M e').
  { intros s p e z He Hz E M0 e0 F. destruct (of_int_form z Hz) as (M & e' & HN & He' & EM & F' & _). rewrite F in F'. injection F' as -> ->.
    apply round_exact; [exact HN|].
    assert (E2 : Zpos p * 2 ^ (e + 104) = Zpos M * 2 ^ (e' + 104)).
    { rewrite E. change (2 ^ 104) with (2 ^ 52 * 2 ^ 52). rewrite Z.mul_assoc, <- EM, <- Z.mul_assoc, <- Z.pow_add_r by lia. f_equal. f_equal. lia. }
    destruct (Z.le_gt_cases e e') as [L|L].
    - left. exists (e' - e). split; [lia|]. split; [lia|]. replace (e' + 104) with (e + 104 + (e' - e)) in E2 by lia. rewrite (Z.pow_add_r 2 (e + 104)) in E2 by lia. pose proof (p2pos (e + 104) ltac:(lia)). nia.
    - right. exists (e - e'). split; [lia|]. split; [lia|]. replace (e + 104) with (e' + 104 + (e - e')) in E2 by lia. rewrite (Z.pow_add_r 2 (e' + 104)) in E2 by lia. pose proof (p2pos (e' + 104) ltac:(lia)). nia. }
  intros S e z He Hz E. pose proof (p2pos (e + 104) ltac:(lia)) as PP. destruct S as [|p|p]; cbn [binary_normalize].
  - assert (z = 0) as -> by lia. reflexivity.
  - assert (Hz' : 0 < z <= 2 ^ 53) by (unfold small in Hz; lia). destruct (of_int_form z Hz') as (M & e' & _ & _ & _ & F & _). rewrite F. eapply G; eassumption.
  - assert (Hz' : 0 < - z <= 2 ^ 53) by (unfold small in Hz; lia). destruct (of_int_form (- z) Hz') as (M & e' & _ & _ & _ & F & F'). rewrite Z.opp_involutive in F'. rewrite F'. apply (G true p e (- z)); [assumption|assumption|lia|assumption].
Qed.
Lemma shl_value : forall m e x, x <= e -> Zpos (fst (shl_align m e x)) = Zpos m * 2 ^ (e - x).
Proof.
  intros m e x H. unfold shl_align. destruct (x - e) as [|p|p] eqn:E; cbn [fst]; [|lia|].
  - replace (e - x) with 0 by lia. change (2 ^ 0) with 1. lia.
  - replace (e - x) with (Zpos p) by lia. rewrite shift_pos_correct. rewrite Z.pow_pos_fold. lia.
Qed.
(** a non-zero integer: sign, mantissa, exponent *)
Lemma of_int_cases : forall z, small z -> z = 0 \/ exists s M e, normal M e /\ -52 <= e <= 1 /\ Zpos M * 2 ^ (e + 52) = Z.abs z * 2 ^ 52 /\
  f_of_int z = S754_finite s M e /\ z = cond_Zopp s (Z.abs z) /\ z <> 0.
Proof.
  intros z Hz. unfold small in Hz. destruct (Z.lt_trichotomy z 0) as [L|[E|L]]; [right|left; exact E|right].
  - destruct (of_int_form (- z) ltac:(lia)) as (M & e & N & He & EM & _ & F). rewrite Z.opp_involutive in F. exists true, M, e. replace (Z.abs z) with (- z) by lia. cbn. repeat split; try assumption; try lia; apply N.
  - destruct (of_int_form z ltac:(lia)) as (M & e & N & He & EM & F & _). exists false, M, e. replace (Z.abs z) with z by lia. cbn. repeat split; try assumption; try lia; apply N.
Qed.
Lemma holds_cases : forall f z, small z -> holds f z -> (z = 0 /\ exists s, f = S754_zero s) \/ exists s M e, f = S754_finite s M e /\ normal M e /\ -52 <= e <= 1 /\
  Zpos M * 2 ^ (e + 52) = Z.abs z * 2 ^ 52 /\ z = cond_Zopp s (Z.abs z) /\ z <> 0 /\ f_of_int z = S754_finite s M e.
Proof.
  intros f z Hz [-> |(-> & ->)]; [|left; eauto]. destruct (of_int_cases z Hz) as [-> |(s & M & e & N & He & EM & F & Es & Nz)]; [left; split; [reflexivity|exists false; reflexivity]|].
  right. exists s, M, e. auto 10.
Qed.
Lemma holds_int : forall z, holds (f_of_int z) z.
Proof. left. reflexivity. Qed.
Lemma holds_zero : forall s, holds (S754_zero s) 0.
Proof. intros []; [right; auto|left; reflexivity]. Qed.
Lemma holds_neg : forall f z, small z -> holds f z -> holds (f_neg f) (- z).
Proof.
  intros f z Hz H. destruct (holds_cases f z Hz H) as [(-> & s & ->)|(s & M & e & -> & N & He & EM & Es & Nz & F)]; [apply holds_zero|]. left.
  destruct (of_int_form (Z.abs z) ltac:(unfold small in Hz; lia)) as (M' & e' & _ & _ & _ & F1 & F2). cbn. destruct s; cbn [cond_Zopp] in Es.
  - rewrite <- Es in F2. rewrite F in F2. injection F2 as -> ->. replace (- z) with (Z.abs z) by lia. rewrite F1. reflexivity.
  - replace z with (Z.abs z) in F by lia. rewrite F in F1. injection F1 as -> ->. replace (- z) with (- Z.abs z) by lia. rewrite F2. reflexivity.
Qed.
Lemma sum_scaled : forall s M e z x, -52 <= x <= e -> Zpos M * 2 ^ (e + 52) = Z.abs z * 2 ^ 52 -> z = cond_Zopp s (Z.abs z) ->
  cond_Zopp s (Zpos (fst (shl_align M e x))) * 2 ^ (x + 52) = z * 2 ^ 52.
Proof.
  intros s M e z x Hx EM Es. rewrite shl_value by lia. assert (X : Zpos M * 2 ^ (e - x) * 2 ^ (x + 52) = Z.abs z * 2 ^ 52) by (rewrite <- Z.mul_assoc, <- Z.pow_add_r by lia; rewrite <- EM; f_equal; f_equal; lia).
  destruct s; cbn [cond_Zopp] in *; lia.
Qed.
Lemma holds_sum : forall s s' M M' e e' z z', -52 <= e <= 1 -> -52 <= e' <= 1 -> small (z + z') ->
  Zpos M * 2 ^ (e + 52) = Z.abs z * 2 ^ 52 -> z = cond_Zopp s (Z.abs z) -> Zpos M' * 2 ^ (e' + 52) = Z.abs z' * 2 ^ 52 -> z' = cond_Zopp s' (Z.abs z') ->
  binary_normalize 53 1024 (cond_Zopp s (Zpos (fst (shl_align M e (Z.min e e')))) + cond_Zopp s' (Zpos (fst (shl_align M' e' (Z.min e e'))))) (Z.min e e') false = f_of_int (z + z').
Proof.
  intros s s' M M' e e' z z' He He' Hz E1 S1 E2 S2. apply norm_int; [lia|exact Hz|].
  pose proof (sum_scaled s M e z (Z.min e e') ltac:(lia) E1 S1) as X1. pose proof (sum_scaled s' M' e' z' (Z.min e e') ltac:(lia) E2 S2) as X2.
  replace (Z.min e e' + 104) with (Z.min e e' + 52 + 52) by lia. rewrite Z.pow_add_r by lia. change (2 ^ 104) with (2 ^ 52 * 2 ^ 52). rewrite !Z.mul_assoc, !Z.mul_add_distr_r, X1, X2. reflexivity.
Qed.
Lemma holds_add : forall f g a b, small a -> small b -> small (a + b) -> holds f a -> holds g b -> holds (f_add f g) (a + b).
Proof.
  intros f g a b Ha Hb Hab Hf Hg. destruct (holds_cases f a Ha Hf) as [(-> & s & ->)|(s & M & e & -> & _ & He & EM & Es & _ & F)];
    destruct (holds_cases g b Hb Hg) as [(-> & s' & ->)|(s' & M' & e' & -> & _ & He' & EM' & Es' & _ & F')]; unfold f_add; cbn [SFadd].
  - destruct (Bool.eqb s s'); apply holds_zero.
  - left. rewrite <- F'. reflexivity.
  - left. rewrite Z.add_0_r. rewrite <- F. reflexivity.
  - left. apply holds_sum; assumption.
Qed.
Lemma sub_add : forall f g, SFsub 53 1024 f g = SFadd 53 1024 f (SFopp g).
Proof.
  intros [s| | |s M e] [s'| | |s' M' e']; try reflexivity. cbn [SFsub SFadd SFopp]. unfold Z.sub. f_equal. f_equal. destruct s'; reflexivity.
Qed.
Lemma holds_sub : forall f g a b, small a -> small b -> small (a - b) -> holds f a -> holds g b -> holds (f_sub f g) (a - b).
Proof.
  intros f g a b Ha Hb Hab Hf Hg. unfold f_sub. rewrite sub_add. unfold Z.sub. apply holds_add; try assumption; [unfold small in *; lia|]. apply holds_neg; assumption.
Qed.
Lemma normal_bounds : forall M e, normal M e -> 2 ^ 52 <= Zpos M < 2 ^ 53.
Proof. intros M e (H & _). pose proof (digits_bounds M) as B. rewrite H in B. exact B. Qed.
(** the value of a product or quotient of integers decides its sign *)
Lemma sign_prod : forall s s' a b, a = cond_Zopp s (Z.abs a) -> b = cond_Zopp s' (Z.abs b) -> a * b = cond_Zopp (xorb s s') (Z.abs a * Z.abs b).
Proof. intros [] [] a b; cbn [cond_Zopp xorb]; intros; nia. Qed.
Lemma of_int_sign : forall s z, 0 < z -> small z -> exists M e, normal M e /\ -52 <= e <= 1 /\ Zpos M * 2 ^ (e + 52) = z * 2 ^ 52 /\ f_of_int (cond_Zopp s z) = S754_finite s M e.
Proof. intros s z H0 Hz. unfold small in Hz. destruct (of_int_form z ltac:(lia)) as (M & e & N & He & EM & F1 & F2). exists M, e. destruct s; auto. Qed.
Lemma holds_mul : forall f g a b, small a -> small b -> small (a * b) -> holds f a -> holds g b -> holds (f_mul f g) (a * b).
Proof.
  intros f g a b Ha Hb Hab Hf Hg. destruct (holds_cases f a Ha Hf) as [(-> & s & ->)|(s & M & e & -> & HN & He & EM & Es & Nz & _)];
    destruct (holds_cases g b Hb Hg) as [(-> & s' & ->)|(s' & M' & e' & -> & HN' & He' & EM' & Es' & Nz' & _)]; unfold f_mul; cbn [SFmul]; rewrite ?Z.mul_0_r; try apply holds_zero.
  left. rewrite (sign_prod s s' a b Es Es'). destruct (of_int_sign (xorb s s') (Z.abs a * Z.abs b) ltac:(nia) ltac:(unfold small in *; lia)) as (N & x & HN2 & Hx & EN & ->).
  assert (E : Zpos (M * M') * 2 ^ (e + e' + 104) = Zpos N * 2 ^ (x + 104)).
  { replace (e + e' + 104) with (e + 52 + (e' + 52)) by lia. replace (x + 104) with (x + 52 + 52) by lia. rewrite Pos2Z.inj_mul, (Z.pow_add_r 2 (e + 52)), (Z.pow_add_r 2 (x + 52)) by lia.
    replace (Zpos N * (2 ^ (x + 52) * 2 ^ 52)) with (Zpos N * 2 ^ (x + 52) * 2 ^ 52) by ring. rewrite EN. replace (Zpos M * Zpos M' * (2 ^ (e + 52) * 2 ^ (e' + 52))) with (Zpos M * 2 ^ (e + 52) * (Zpos M' * 2 ^ (e' + 52))) by ring. rewrite EM, EM'. ring. }
  pose proof (normal_bounds _ _ HN). pose proof (normal_bounds _ _ HN'). pose proof (normal_bounds _ _ HN2).
  assert (L : e + e' <= x).
  { destruct (Z.le_gt_cases (e + e') x) as [L|L]; [exact L|]. exfalso. replace (e + e' + 104) with (x + 104 + (e + e' - x)) in E by lia. rewrite (Z.pow_add_r 2 (x + 104)) in E by lia.
    pose proof (p2pos (x + 104) ltac:(lia)). pose proof (p2pos (e + e' - x) ltac:(lia)). rewrite Pos2Z.inj_mul in E. assert (Zpos M * Zpos M' * 2 ^ (e + e' - x) = Zpos N) by nia.
    assert (2 ^ 52 * 2 ^ 52 <= Zpos M * Zpos M') by (apply Z.mul_le_mono_nonneg; lia). assert (Zpos M * Zpos M' <= Zpos M * Zpos M' * 2 ^ (e + e' - x)) by nia. lia. }
  replace (e + e') with (x - (x - (e + e'))) by lia. apply aux_exact; [exact HN2|lia|].
  replace (x + 104) with (e + e' + 104 + (x - (e + e'))) in E by lia. rewrite (Z.pow_add_r 2 (e + e' + 104)) in E by lia. pose proof (p2pos (e + e' + 104) ltac:(lia)). nia.
Qed.
Lemma holds_div : forall f g q b, small (q * b) -> small b -> small q -> b <> 0 -> holds f (q * b) -> holds g b -> holds (f_div f g) q.
Proof.
  intros f g q b Ha Hb Hq Nb Hf Hg. destruct (holds_cases g b Hb Hg) as [(-> & _)|(s' & M' & e' & -> & HN' & He' & EM' & Es' & Nz' & _)]; [contradiction|].
  destruct (holds_cases f _ Ha Hf) as [(Z0 & s & ->)|(s & M & e & -> & HN & He & EM & Es & Nz & _)]; unfold f_div; cbn [SFdiv].
  { assert (q = 0) as -> by nia. apply holds_zero. }
  left. assert (Eq : q = cond_Zopp (xorb s s') (Z.abs q)) by (destruct s, s'; cbn [cond_Zopp xorb] in *; nia).
  assert (Nq : q <> 0) by nia. destruct (of_int_sign (xorb s s') (Z.abs q) ltac:(lia) ltac:(unfold small in *; lia)) as (N & x & HN2 & Hx & EN & F). rewrite <- Eq in F. rewrite F. clear F.
  assert (E : Zpos M * 2 ^ (e + 104) = Zpos N * Zpos M' * 2 ^ (x + e' + 104)).
  { replace (e + 104) with (e + 52 + 52) by lia. replace (x + e' + 104) with (x + 52 + (e' + 52)) by lia. rewrite (Z.pow_add_r 2 (e + 52)), (Z.pow_add_r 2 (x + 52)) by lia.
    replace (Zpos M * (2 ^ (e + 52) * 2 ^ 52)) with (Zpos M * 2 ^ (e + 52) * 2 ^ 52) by ring. rewrite EM, Z.abs_mul.
    replace (Zpos N * Zpos M' * (2 ^ (x + 52) * 2 ^ (e' + 52))) with (Zpos N * 2 ^ (x + 52) * (Zpos M' * 2 ^ (e' + 52))) by ring. rewrite EN, EM'. ring. }
  pose proof (normal_bounds _ _ HN) as B1. pose proof (normal_bounds _ _ HN') as B2. pose proof (normal_bounds _ _ HN2) as B3.
  assert (L : 0 <= x + e' + 53 - e).
  { destruct (Z.le_gt_cases 0 (x + e' + 53 - e)) as [L|L]; [exact L|]. exfalso. replace (e + 104) with (x + e' + 104 + (e - x - e')) in E by lia. rewrite (Z.pow_add_r 2 (x + e' + 104)) in E by lia.
    pose proof (p2pos (x + e' + 104) ltac:(lia)). assert (E3 : Zpos M * 2 ^ (e - x - e') = Zpos N * Zpos M') by nia.
    assert (2 ^ 54 <= 2 ^ (e - x - e')) by (apply Z.pow_le_mono_r; lia). assert (2 ^ 52 * 2 ^ 54 <= Zpos M * 2 ^ (e - x - e')) by (apply Z.mul_le_mono_nonneg; lia).
    assert (Zpos N * Zpos M' < 2 ^ 53 * 2 ^ 53) by (apply Z.mul_lt_mono_nonneg; lia). lia. }
  assert (E4 : Zpos M * 2 ^ 53 = Zpos M' * (Zpos N * 2 ^ (x + e' + 53 - e))).
  { replace (x + e' + 104) with (e + 51 + (x + e' + 53 - e)) in E by lia. replace (e + 104) with (e + 51 + 53) in E by lia.
    destruct (Z.le_gt_cases 0 (e + 51)) as [P|P].
    - rewrite (Z.pow_add_r 2 (e + 51)), (Z.pow_add_r 2 (e + 51)) in E by lia. pose proof (p2pos (e + 51) P). nia.
    - assert (e = -52) as -> by lia. replace (-52 + 51 + 53) with 52 in E by lia. replace (-52 + 51 + (x + e' + 53 - -52)) with (x + e' + 104) in E by lia.
      replace (x + e' + 53 - -52) with (x + e' + 104 + 1) by lia. rewrite p2s by lia. change (2 ^ 53) with (2 * 2 ^ 52). nia. }
  unfold SFdiv_core_binary. cbn [Zdigits2]. destruct HN as (D1 & R1). destruct HN' as (D2 & R2). rewrite D1, D2.
  replace (53 + e - (53 + e')) with (e - e') by lia. unfold fexp, emin. replace (Z.min (Z.max (e - e' - 53) (3 - 1024 - 53)) (e - e')) with (e - e' - 53) by lia.
  replace (e - e' - (e - e' - 53)) with 53 by lia. cbn beta iota. rewrite Z.shiftl_mul_pow2 by lia.
  destruct (Z.div_eucl (Zpos M * 2 ^ 53) (Zpos M')) as (qq, r) eqn:EE. pose proof (Z.div_eucl_eq (Zpos M * 2 ^ 53) (Zpos M') ltac:(lia)) as D. rewrite EE in D.
  assert (RB : (Zpos M * 2 ^ 53) mod Zpos M' = r) by (unfold Z.modulo; rewrite EE; reflexivity). rewrite E4, Z.mul_comm, Z.mod_mul in RB by lia. subst r. assert (Hqq : qq = Zpos N * 2 ^ (x + e' + 53 - e)) by nia.
  replace (new_location (Zpos M') 0) with loc_Exact by (unfold new_location, new_location_even, new_location_odd; destruct (Z.even _); reflexivity).
  pose proof (p2pos _ L). destruct qq as [|p|p]; [nia| |nia]. replace (e - e' - 53) with (x - (x + e' + 53 - e)) by lia. apply aux_exact; assumption.
Qed.

(** ** Order *)
Lemma abs_order : forall M M' e e' a b, normal M e -> normal M' e' -> -52 <= e <= 1 -> -52 <= e' <= 1 -> Zpos M * 2 ^ (e + 52) = a * 2 ^ 52 -> Zpos M' * 2 ^ (e' + 52) = b * 2 ^ 52 ->
  match e ?= e' with Lt => Lt | Gt => Gt | Eq => Pcompare M M' Eq end = (a ?= b).
Proof.
  assert (G : forall M M' e e' a b, normal M e -> normal M' e' -> -52 <= e <= 1 -> -52 <= e' <= 1 -> Zpos M * 2 ^ (e + 52) = a * 2 ^ 52 -> Zpos M' * 2 ^ (e' + 52) = b * 2 ^ 52 -> e < e' -> a < b).
  { intros M M' e e' a b N N' He He' E E' L. apply normal_bounds in N. apply normal_bounds in N'. replace (e' + 52) with (e + 52 + 1 + (e' - e - 1)) in E' by lia.
    rewrite Z.pow_add_r, p2s in E' by lia. pose proof (p2pos (e + 52) ltac:(lia)). pose proof (p2pos (e' - e - 1) ltac:(lia)).
    assert (Zpos M * 2 ^ (e + 52) < 2 ^ 53 * 2 ^ (e + 52)) by nia. assert (2 ^ 52 * (2 * 2 ^ (e + 52)) <= Zpos M' * (2 * 2 ^ (e + 52) * 2 ^ (e' - e - 1))).
    { apply Z.mul_le_mono_nonneg; try lia; nia. } nia. }
  intros M M' e e' a b N N' He He' E E'. destruct (Z.compare_spec e e') as [L|L|L].
  - subst e'. pose proof (p2pos (e + 52) ltac:(lia)). change (Pcompare M M' Eq) with (Zpos M ?= Zpos M'). symmetry. destruct (Z.compare_spec (Zpos M) (Zpos M')) as [X|X|X].
    + apply Z.compare_eq_iff. rewrite X in E. nia.
    + apply Z.compare_lt_iff. nia.
    + apply Z.compare_gt_iff. nia.
  - symmetry. apply Z.compare_lt_iff. eapply (G M M'); eassumption.
  - symmetry. apply Z.compare_gt_iff. eapply (G M' M); eassumption.
Qed.
Lemma holds_compare : forall f g a b, small a -> small b -> holds f a -> holds g b -> SFcompare f g = Some (a ?= b).
Proof.
  intros f g a b Ha Hb Hf Hg. destruct (holds_cases f a Ha Hf) as [(-> & s & ->)|(s & M & e & -> & HN & He & EM & Es & Nz & _)];
    destruct (holds_cases g b Hb Hg) as [(-> & s' & ->)|(s' & M' & e' & -> & HN' & He' & EM' & Es' & Nz' & _)]; cbn [SFcompare]; f_equal.
  - destruct s'; cbn [cond_Zopp] in Es'; symmetry; [apply Z.compare_gt_iff|apply Z.compare_lt_iff]; lia.
  - destruct s; cbn [cond_Zopp] in Es; symmetry; [apply Z.compare_lt_iff|apply Z.compare_gt_iff]; lia.
  - pose proof (abs_order M M' e e' _ _ HN HN' He He' EM EM') as O.
    destruct s, s'; cbn [cond_Zopp] in Es, Es'.
    + transitivity (CompOpp (Z.abs a ?= Z.abs b)); [rewrite <- O; destruct (e ?= e'); reflexivity|]. destruct (Z.compare_spec (Z.abs a) (Z.abs b)); cbn [CompOpp]; symmetry; [apply Z.compare_eq_iff|apply Z.compare_gt_iff|apply Z.compare_lt_iff]; lia.
    + symmetry. apply Z.compare_lt_iff. lia.
    + symmetry. apply Z.compare_gt_iff. lia.
    + transitivity (Z.abs a ?= Z.abs b); [rewrite <- O; destruct (e ?= e'); reflexivity|]. rewrite <- Es, <- Es'. reflexivity.
Qed.

(** ** Further operations *)
(** Go's math.Mod(x, y): exact, with the sign of x *)
Definition f_mod (x y : float) : float :=
  match x, y with
  | S754_nan, _ | _, S754_nan | S754_infinity _, _ | _, S754_zero _ => S754_nan
  | S754_zero s, _ => S754_zero s
  | S754_finite _ _ _, S754_infinity _ => x
  | S754_finite s m e, S754_finite _ m' e' =>
      let ez := Z.min e e' in
      match Zpos (fst (shl_align m e ez)) mod Zpos (fst (shl_align m' e' ez)) with
      | Zpos p => binary_round 53 1024 s p ez
      | _ => S754_zero s
      end
  end.
(** Go's int(x); what it is for numbers out of range depends on the machine (here amd64) *)
Definition f_int (x : float) : Z :=
  match x with
  | S754_zero _ => 0
  | S754_finite s m e =>
      let z := cond_Zopp s (if 0 <=? e then Zpos m * 2 ^ e else Zpos m / 2 ^ (- e)) in
      if (- 2 ^ 63 <=? z) && (z <? 2 ^ 63) then z else - 2 ^ 63
  | _ => - 2 ^ 63
  end.
(** number.go:80-108 Max and Min *)
Fixpoint num_best (better : float -> float -> bool) (m : float) (l : list float) : float :=
  match l with [] => m | x :: l' => num_best better (if better x m then x else m) l' end.
Definition num_ext (better : float -> float -> bool) (l : list float) : float :=
  match l with [] => S754_zero false | x :: l' => num_best better x l' end.
Definition num_max : list float -> float := num_ext (fun x m => f_lt m x).
Definition num_min : list float -> float := num_ext (fun x m => f_lt x m).
(** number.go:56-62 Inf (math.Inf(0) is +Inf) *)
Definition num_inf (a : float) : float := if f_lt a (S754_zero false) then S754_infinity true else S754_infinity false.
(** math.Abs *)
Definition f_abs : float -> float := SFabs.

Lemma holds_lt : forall f g a b, small a -> small b -> holds f a -> holds g b -> f_lt f g = (a <? b).
Proof. intros f g a b Ha Hb Hf Hg. unfold f_lt, SFltb, Z.ltb. rewrite (holds_compare f g a b) by assumption. destruct (a ?= b); reflexivity. Qed.
Lemma holds_f_int : forall f z, small z -> holds f z -> f_int f = z.
Proof.
  intros f z Hz H. destruct (holds_cases f z Hz H) as [(-> & s & ->)|(s & M & e & -> & HN & He & EM & Es & Nz & _)]; [reflexivity|]. cbn [f_int].
  assert (X : (if 0 <=? e then Zpos M * 2 ^ e else Zpos M / 2 ^ (- e)) = Z.abs z).
  { destruct (Z.leb_spec 0 e) as [L|L].
    - rewrite Z.pow_add_r, Z.mul_assoc in EM by lia. nia.
    - replace (2 ^ 52) with (2 ^ (e + 52) * 2 ^ (- e)) in EM by (rewrite <- Z.pow_add_r by lia; f_equal; lia). pose proof (p2pos (e + 52) ltac:(lia)). pose proof (p2pos (- e) ltac:(lia)).
      assert (Zpos M = Z.abs z * 2 ^ (- e)) as -> by nia. apply Z.div_mul. lia. }
  rewrite X, <- Es. unfold small in Hz. replace (- 2 ^ 63 <=? z) with true by lia. replace (z <? 2 ^ 63) with true by lia. reflexivity.
Qed.
Lemma holds_abs : forall f z, small z -> holds f z -> holds (f_abs f) (Z.abs z).
Proof.
  intros f z Hz H. destruct (holds_cases f z Hz H) as [(-> & s & ->)|(s & M & e & -> & N & He & EM & Es & Nz & F)]; [apply holds_zero|]. left.
  destruct (of_int_form (Z.abs z) ltac:(unfold small in Hz; lia)) as (M' & e' & _ & _ & _ & F1 & F2). cbn. rewrite F1. f_equal; destruct s; cbn [cond_Zopp] in Es.
  - rewrite <- Es in F2. rewrite F in F2. injection F2 as -> ->. reflexivity.
  - rewrite <- Es in F1. rewrite F in F1. injection F1 as -> ->. reflexivity.
  - rewrite <- Es in F2. rewrite F in F2. injection F2 as -> ->. reflexivity.
  - rewrite <- Es in F1. rewrite F in F1. injection F1 as -> ->. reflexivity.
Qed.
Lemma holds_mod : forall f g a b, small a -> small b -> b <> 0 -> holds f a -> holds g b -> holds (f_mod f g) (Z.rem a b).
Proof.
  intros f g a b Ha Hb Nb Hf Hg. destruct (holds_cases g b Hb Hg) as [(-> & _)|(s' & M' & e' & -> & HN' & He' & EM' & Es' & Nz' & _)]; [contradiction|].
  destruct (holds_cases f _ Ha Hf) as [(-> & s & ->)|(s & M & e & -> & HN & He & EM & Es & Nz & _)].
  { rewrite Z.rem_0_l by assumption. apply holds_zero. }
  cbn [f_mod]. set (ez := Z.min e e').
  assert (R : Z.rem a b = cond_Zopp s (Z.abs a mod Z.abs b)).
  { assert (AB : Z.rem a b = Z.rem a (Z.abs b)) by (destruct s'; cbn [cond_Zopp] in Es'; [rewrite Es' at 1; apply Z.rem_opp_r; lia|rewrite Es' at 1; reflexivity]).
    rewrite AB. destruct s; cbn [cond_Zopp] in *; [rewrite Es at 1; rewrite Z.rem_opp_l by lia|rewrite Es at 1]; rewrite Z.rem_mod_nonneg by lia; reflexivity. }
  pose proof (sum_scaled false M e (Z.abs a) ez ltac:(lia) ltac:(rewrite Z.abs_involutive; exact EM) ltac:(rewrite Z.abs_involutive; reflexivity)) as X1.
  pose proof (sum_scaled false M' e' (Z.abs b) ez ltac:(lia) ltac:(rewrite Z.abs_involutive; exact EM') ltac:(rewrite Z.abs_involutive; reflexivity)) as X2. cbn [cond_Zopp] in X1, X2.
  set (p := Zpos (fst (shl_align M e ez))) in *. set (q := Zpos (fst (shl_align M' e' ez))) in *.
  assert (Hq : 0 < q) by (unfold q; lia). pose proof (p2pos (ez + 52) ltac:(lia)) as PP.
  assert (X3 : (p mod q) * 2 ^ (ez + 52) = (Z.abs a mod Z.abs b) * 2 ^ 52).
  { rewrite <- !Z.mul_mod_distr_r by lia. rewrite X1, X2. reflexivity. }
  rewrite R. pose proof (Z.mod_pos_bound p q Hq). pose proof (Z.mod_pos_bound (Z.abs a) (Z.abs b) ltac:(lia)) as RB.
  destruct (p mod q) as [|r|r]; [|clear X1 X2|lia].
  { assert (Z.abs a mod Z.abs b = 0) as -> by lia. destruct s; apply holds_zero. }
  left. assert (SM : small (cond_Zopp s (Z.abs a mod Z.abs b))) by (unfold small in *; destruct s; cbn [cond_Zopp]; lia).
  rewrite <- (norm_int (cond_Zopp s (Zpos r)) ez (cond_Zopp s (Z.abs a mod Z.abs b)) ltac:(lia) SM); [destruct s; reflexivity|].
  replace (ez + 104) with (ez + 52 + 52) by lia. rewrite Z.pow_add_r by lia. change (2 ^ 104) with (2 ^ 52 * 2 ^ 52). destruct s; cbn [cond_Zopp]; lia.
Qed.
Lemma holds_best : forall (better : float -> float -> bool) (zb : Z -> Z -> bool), (forall f g a b, small a -> small b -> holds f a -> holds g b -> better f g = zb a b) ->
  forall l zs, Forall2 holds l zs -> Forall small zs -> forall m z, small z -> holds m z -> holds (num_best better m l) (fold_left (fun m x => if zb x m then x else m) zs z).
Proof.
  intros better zb Hb. induction 1 as [|f a l zs Hf _ IH]; intros HS m z Hz Hm; [exact Hm|]. cbn [num_best fold_left]. inversion HS; subst.
  rewrite (Hb f m a z) by assumption. destruct (zb a z); apply IH; assumption.
Qed.
