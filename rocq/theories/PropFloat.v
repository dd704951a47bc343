(** Property C88: integers up to 2^53 are exact in float64 calculations.
    Specification: [v_doc] (CalcSpec) over the integers, [holds] (Float53): a float64 is the conversion of an integer, up to the sign of zero. *)
From Coq Require Import String SpecFloat.
From Verif Require Import Base Token Utf8 Utf8Proofs Scanner ScannerSpec ScannerProofs ScanRun ScanInit ScanObs Tokenize TokenizeProofs PropScan Grammar Matcher Compiler Interp PropInterp
  Calc CalcSpec PropCompiler PropCalc QValue PropValue Float53 CalcSim.
Local Open Scope list_scope. Local Open Scope Z_scope.

(** ** Specification *)
(** arithmetic on integers that gives up beyond 2^53 and where a quotient is not an integer *)
Definition keep (z : Z) : option Z := if Z.abs z <=? 2 ^ 53 then Some z else None.
Definition int_lits : list (Z * (bytes -> option Z)) := [(INT, fun s => keep (go_int s))].
Definition int_muls : list (Z * (Z -> Z -> option Z)) :=
  [(MUL, fun a b => keep (a * b)); (QUO, fun a b => if (b =? 0) || negb (Z.rem a b =? 0) then None else Some (Z.quot a b)); (REM, fun a b => if b =? 0 then None else Some (Z.rem a b))].
Definition int_adds : list (Z * (Z -> Z -> option Z)) := [(ADD, fun a b => keep (a + b)); (SUB, fun a b => keep (a - b))].
Definition z_max (l : list Z) : Z := match l with [] => 0 | x :: l' => fold_left Z.max l' x end.
Definition z_min (l : list Z) : Z := match l with [] => 0 | x :: l' => fold_left Z.min l' x end.
Definition n_max : bytes := Eval vm_compute in s2b "max".
Definition n_min : bytes := Eval vm_compute in s2b "min".
Definition n_abs : bytes := Eval vm_compute in s2b "abs".
Definition n_mod : bytes := Eval vm_compute in s2b "mod".
Definition n_inf : bytes := Eval vm_compute in s2b "inf".
Definition int_call (f : bytes) (vs : list Z) : option Z :=
  if beq f n_max then Some (z_max vs) else if beq f n_min then Some (z_min vs)
  else if beq f n_abs then match vs with [a] => Some (Z.abs a) | _ => None end
  else if beq f n_mod then match vs with [a; b] => if b =? 0 then None else Some (Z.rem a b) | _ => None end
  else None.
Definition int_value : list token -> option Z -> Prop := v_doc int_lits int_muls int_adds (fun a => Some (- a)) int_call.

(** ** The number calculator over float64 *)
(** number.go:256-306: the functions of package number and math.Abs, math.Mod; the others of package math are any functions [mathlib] *)
Definition num_lib (mathlib : bytes -> option (libfn float)) (name : bytes) : option (libfn float) :=
  if beq name n_max then Some (mkLib 1 true (fun vs => Some (num_max vs)))
  else if beq name n_min then Some (mkLib 1 true (fun vs => Some (num_min vs)))
  else if beq name n_abs then Some (lib1 (fun a => Some (f_abs a)))
  else if beq name n_mod then Some (lib2 (fun a b => Some (f_mod a b)))
  else if beq name n_inf then Some (lib1 (fun a => Some (num_inf a)))
  else mathlib name.

Lemma keep_some : forall z r, keep z = Some r -> r = z /\ small z.
Proof. intros z r. unfold keep, small. destruct (Z.leb_spec (Z.abs z) (2 ^ 53)); [intros [= <-]; auto|discriminate]. Qed.

(** ** Values over the integers are values over the float64 numbers *)
Definition rel (a : option Z) (a' : option float) : Prop := forall z, a = Some z -> small z /\ exists f, a' = Some f /\ holds f z.

Lemma rel_keep : forall z f, (small z -> holds f z) -> rel (keep z) (Some f).
Proof. intros z f H r Hr. apply keep_some in Hr. destruct Hr as (-> & S). split; [exact S|]. exists f. auto. Qed.
Lemma rel_op2 : forall (op : Z -> Z -> option Z) (fop : float -> float -> float), (forall f g a b z, small a -> small b -> holds f a -> holds g b -> op a b = Some z -> small z /\ holds (fop f g) z) ->
  forall a b a' b', rel a a' -> rel b b' -> rel (opt2 op a b) (opt2 (yes2 fop) a' b').
Proof.
  intros op fop H a b a' b' Ra Rb z E. destruct a as [a|]; [|discriminate]. destruct b as [b|]; [|discriminate]. destruct (Ra a eq_refl) as (Sa & f & -> & Hf). destruct (Rb b eq_refl) as (Sb & g & -> & Hg).
  cbn in E. destruct (H f g a b z Sa Sb Hf Hg E) as (Sz & Hz). split; [exact Sz|]. exists (fop f g). auto.
Qed.
Lemma muls_sim : sim2 rel int_muls (num_muls f_mul f_div f_mod).
Proof.
  intros k op [[= <- <-]|[[= <- <-]|[[= <- <-]|[]]]]; eexists; (split; [cbn; eauto|]); apply rel_op2; intros f g a b z Sa Sb Hf Hg E.
  - apply keep_some in E. destruct E as (-> & S). split; [exact S|]. apply holds_mul; assumption.
  - destruct (Z.eqb_spec b 0) as [|Nb]; [discriminate|]. destruct (Z.eqb_spec (Z.rem a b) 0) as [R|]; [|discriminate]. cbn in E. injection E as <-.
    pose proof (Z.quot_rem a b Nb) as Q. rewrite R, Z.add_0_r, Z.mul_comm in Q. assert (S : small (Z.quot a b)).
    { unfold small in *. assert (Z.abs a = Z.abs (Z.quot a b) * Z.abs b) by (rewrite <- Z.abs_mul; congruence). nia. }
    split; [exact S|]. apply (holds_div f g (Z.quot a b) b); try assumption; rewrite <- Q; assumption.
  - destruct (Z.eqb_spec b 0) as [|Nb]; [discriminate|]. injection E as <-. split; [|apply holds_mod; assumption].
    pose proof (Z.rem_bound_abs a b Nb). unfold small in *. lia.
Qed.
Lemma adds_sim : sim2 rel int_adds (num_adds f_add f_sub).
Proof.
  intros k op [[= <- <-]|[[= <- <-]|[]]]; eexists; (split; [cbn; eauto|]); apply rel_op2; intros f g a b z Sa Sb Hf Hg E; apply keep_some in E; destruct E as (-> & S); (split; [exact S|]).
  - apply holds_add; assumption.
  - apply holds_sub; assumption.
Qed.
Lemma ext_sim : forall (zb : Z -> Z -> bool) (zop : Z -> Z -> Z), (forall m x, zop m x = if zb x m then x else m) -> forall l z, fold_left zop l z = fold_left (fun m x => if zb x m then x else m) l z.
Proof. intros zb zop H. induction l as [|x l IH]; intro z; [reflexivity|]. cbn [fold_left]. rewrite H. apply IH. Qed.
Lemma fold_small : forall (zop : Z -> Z -> Z), (forall a b, zop a b = a \/ zop a b = b) -> forall l z, small z -> Forall small l -> small (fold_left zop l z).
Proof. intros zop H. induction l as [|x l IH]; intros z Hz HS; [exact Hz|]. inversion HS; subst. cbn [fold_left]. apply IH; [|assumption]. destruct (H z x) as [-> | ->]; assumption. Qed.
Lemma max_sim : forall fs zs, Forall2 holds fs zs -> Forall small zs -> (small (z_max zs) /\ holds (num_max fs) (z_max zs)) /\ (small (z_min zs) /\ holds (num_min fs) (z_min zs)).
Proof.
  intros fs zs [|f z fs' zs' Hf H] HS; [split; (split; [unfold small; cbn; lia|apply holds_zero])|]. inversion HS; subst. unfold z_max, z_min, num_max, num_min, num_ext. split; split.
  - apply fold_small; try assumption. intros; lia.
  - rewrite (ext_sim (fun x m => m <? x)) by (intros m x; destruct (Z.ltb_spec m x); lia). apply holds_best; try assumption. intros. apply holds_lt; assumption.
  - apply fold_small; try assumption. intros; lia.
  - rewrite (ext_sim (fun x m => x <? m)) by (intros m x; destruct (Z.ltb_spec x m); lia). apply holds_best; try assumption. intros. apply holds_lt; assumption.
Qed.
Lemma all_sim : forall vs vs' zs, Forall2 rel vs vs' -> all_some vs = Some zs -> exists fs, all_some vs' = Some fs /\ Forall2 holds fs zs /\ Forall small zs.
Proof.
  intros vs vs' zs H. revert zs. induction H as [|a a' l l' R _ IH]; intros zs E; cbn [all_some] in *; [injection E as <-; exists []; auto|].
  destruct a as [a|]; [|discriminate]. destruct (all_some l) as [xs|]; [|discriminate]. injection E as <-. destruct (R a eq_refl) as (S & f & -> & Hf). destruct (IH xs eq_refl) as (fs & -> & F2 & FS).
  exists (f :: fs). auto.
Qed.
Lemma calls_sim : forall mathlib f vs vs', Forall2 rel vs vs' -> rel (callv int_call f vs) (callv (call_in (num_lib mathlib)) f vs').
Proof.
  intros mathlib f vs vs' H z E. unfold callv in *. destruct (all_some vs) as [zs|] eqn:Ev; [|discriminate]. destruct (all_sim vs vs' zs H Ev) as (fs & -> & F2 & FS).
  pose proof (max_sim fs zs F2 FS) as (M1 & M2). unfold int_call in E. unfold call_in, num_lib.
  destruct (beq f n_max); [injection E as <-; split; [apply M1|]; eexists; split; [reflexivity|apply M1]|].
  destruct (beq f n_min); [injection E as <-; split; [apply M2|]; eexists; split; [reflexivity|apply M2]|]. clear M1 M2.
  destruct (beq f n_abs); [|destruct (beq f n_mod); [|discriminate]].
  - destruct F2 as [|x a fs zs Hx F2]; [discriminate|]. destruct F2; [|discriminate]. injection E as <-. inversion FS; subst. split; [unfold small in *; lia|]. eexists. split; [reflexivity|]. apply holds_abs; assumption.
  - destruct F2 as [|x a fs zs Hx F2]; [discriminate|]. destruct F2 as [|y b fs zs Hy F2]; [discriminate|]. destruct F2; [|discriminate]. destruct (Z.eqb_spec b 0) as [|Nb]; [discriminate|]. injection E as <-.
    inversion FS as [|? ? Sa FS']; subst. inversion FS' as [|? ? Sb _]; subst. split; [pose proof (Z.rem_bound_abs a b Nb); unfold small in *; lia|]. eexists. split; [reflexivity|]. apply holds_mod; assumption.
Qed.

(** strconv.ParseFloat on decimal digits *)
Definition reads_digits (parse_float : bytes -> float + nerr) : Prop :=
  forall s, s <> [] -> Forall digit s -> ScannerSpec.value 10 s <= 2 ^ 53 -> parse_float s = inl (f_of_int (ScannerSpec.value 10 s)).

Section Number.
Context {X : Type}.
Variable consts : bytes -> option float.
Variable mathlib : bytes -> option (libfn float).
Hypothesis mathlib_ok : forall name l, mathlib name = Some l -> l_variadic l = true -> l_arity l <> 0%nat.
Variable to_float : val float X unit float -> float.
Variable parse_float : bytes -> float + nerr.
Hypothesis Hparse : reads_digits parse_float.
Variables isL isD : Z -> bool.
Notation num := (@number float X f_neg f_mul f_div f_mod f_add f_sub consts f_of_int f_int (num_lib mathlib)).

Lemma lib_ok : forall name l, num_lib mathlib name = Some l -> l_variadic l = true -> l_arity l <> 0%nat.
Proof.
  intros name l. unfold num_lib. repeat match goal with |- context [if ?b then _ else _] => destruct b; [intros [= <-]; intros; cbn in *; congruence|] end. apply mathlib_ok.
Qed.
Lemma f_int_exact : forall n, 0 <= n < 2 ^ 53 -> f_int (f_of_int n) = n.
Proof. intros n H. apply holds_f_int; [unfold small; lia|apply holds_int]. Qed.
Lemma lits_sim : forall k op t, In (k, op) int_lits -> kind_is k t -> int_token t \/ tkind t <> INT ->
  exists k' fop, In (k', fop) (num_lits consts f_of_int parse_float) /\ kind_is k' t /\ rel (op (tlit t)) (fop (tlit t)).
Proof.
  intros k op t [[= <- <-]|[]] [K|(K & D)]; [|discriminate]. intros [Ht|D]; [|contradiction].
  exists FLOAT. eexists. split; [left; reflexivity|]. split; [right; auto|]. cbv beta.
  destruct (C44_parse_float float f_of_int parse_float t Ht) as (P1 & P2 & _).
  intros z Hz. apply keep_some in Hz. destruct Hz as (-> & S). split; [exact S|].
  destruct (C43_parse_int t Ht) as (_ & Hpos).
  destruct (int_spelling t Ht) as (Hn & Hw). destruct (int_cases _ Hn Hw) as [E | [(x & r & E & Hx & Hr & Hd) | [(x & r & E & Hx1 & Hx2 & Hd) | (c & r & E & Hc & Hd)]]].
  - rewrite E in *. rewrite P1 by (intros (x & r & D); discriminate). eexists. split; [reflexivity|left; reflexivity].
  - rewrite P2; [|exists x, r; exact E|unfold small in S; lia]. eexists. split; [reflexivity|left; reflexivity].
  - rewrite P2; [|exists x, r; exact E|unfold small in S; lia]. eexists. split; [reflexivity|left; reflexivity].
  - assert (NL : ~ leading_zero (tlit t)) by (intros (x & r' & D); rewrite E in D; injection D as -> _; contradiction). rewrite (P1 NL).
    assert (G : go_int (tlit t) = ScannerSpec.value 10 (tlit t)) by (rewrite E; unfold go_int; destruct c as [|p|p]; try reflexivity; destruct r as [|x r]; try reflexivity; do 6 (destruct p as [p|p|]; try reflexivity); contradiction).
    destruct (beq (tlit t) [48]) eqn:B; [apply beq_eq in B; rewrite E in B; injection B as -> _; contradiction|].
    rewrite Hparse.
    + eexists. split; [reflexivity|]. rewrite G. left. reflexivity.
    + rewrite E. discriminate.
    + clear - Hd. eapply Forall_impl; [|exact Hd]. intros b (Hb & R). unfold digit. unfold digval, hexval in *.
      destruct (Z.leb_spec 48 b), (Z.leb_spec b 57), (Z.leb_spec 97 b), (Z.leb_spec b 122), (Z.leb_spec 65 b), (Z.leb_spec b 90), (Z.leb_spec b 70); cbn [andb] in *; try discriminate; try lia; injection Hb; lia.
    + rewrite <- G. unfold small in S. lia.
Qed.

(** A text whose tokens are an expression of integers evaluates to its value, exactly, as long as no intermediate result exceeds 2^53. *)
Theorem C88_number : forall old0 root d, engine num to_float isL isD old0 number_grammar root d ->
  forall old src s ts eof, Forall byte src -> Tokenize isL isD false false (d_tk d) old src = TzOk ts eof -> fits ts ->
  forall z, int_value ts (Some z) ->
  exists f k s', Eval num to_float f_of_int parse_float isL isD root d k old src s = MNil s' /\ fst (Ret (ust s')) = Some f /\ holds f z.
Proof.
  intros old0 root d HE old src s ts eof Hb Ht Hf z Hz.
  pose proof (number_engine f_neg f_mul f_div f_mod f_add f_sub consts f_of_int f_int (num_lib mathlib) to_float isL isD old0 root d HE) as (_ & _ & Htk).
  assert (HP : Forall (fun t => int_token t \/ tkind t <> INT) ts).
  { apply Forall_forall. intros t Hi. destruct (Z.eq_dec (tkind t) INT) as [K|K]; [left|right; exact K]. exists isL, isD, false, false, (d_tk d), old, src, ts, eof. auto 10. }
  destruct (sim int_lits int_muls int_adds (fun a => Some (- a)) int_call (num_lits consts f_of_int parse_float) (num_muls f_mul f_div f_mod) (num_adds f_add f_sub) (fun a => Some (f_neg a)) (call_in (num_lib mathlib))
    (fun t => int_token t \/ tkind t <> INT) rel lits_sim muls_sim adds_sim) with (ts := ts) (r := Some z) as (r' & V & R); try assumption.
  - intros a a' R z0 E. destruct a as [a|]; [|discriminate]. injection E as <-. destruct (R a eq_refl) as (S & f & -> & Hh). split; [unfold small in *; lia|]. eexists. split; [reflexivity|]. apply holds_neg; assumption.
  - apply calls_sim.
  - destruct (R z eq_refl) as (_ & f & -> & Hh).
    destruct (C40_number f_neg f_mul f_div f_mod f_add f_sub consts f_of_int f_int (num_lib mathlib) to_float parse_float isL isD f_int_exact lib_ok old0 root d HE old src s ts eof Ht Hf) as (C & _).
    destruct (proj1 (C f) V) as (k & s' & E1 & _ & E2). exists f, k, s'. auto.
Qed.
End Number.

(** ** The functions of package number on any float64 values *)
Lemma best_ext : forall better l m, extFloat better m (map VFloat l) = Some (num_best better m l).
Proof. intros better. induction l as [|x l IH]; intro m; [reflexivity|]. cbn. apply IH. Qed.
Lemma all_mixed : forall f fs, mixed (map VFloat (f :: fs)) (f :: fs).
Proof. intros f fs. split; [|left; eauto]. induction (f :: fs) as [|x l IH]; [constructor|]. constructor; [left; reflexivity|exact IH]. Qed.
(** max is one of its arguments and, unless there is a NaN among them, none is greater *)
Theorem C88_max : forall f fs, In (num_max (f :: fs)) (f :: fs) /\ (no_nan (f :: fs) -> forall x, In x (f :: fs) -> f_le x (num_max (f :: fs)) = true).
Proof.
  intros f fs. destruct (C54_max_mixed _ _ (all_mixed f fs)) as (m & E & R). unfold Max, extremum in E. rewrite (kindOfArgs_mixed _ _ (all_mixed f fs)) in E. cbn in E. rewrite best_ext in E. injection E as <-. exact R.
Qed.
Theorem C88_min : forall f fs, In (num_min (f :: fs)) (f :: fs) /\ (no_nan (f :: fs) -> forall x, In x (f :: fs) -> f_le (num_min (f :: fs)) x = true).
Proof.
  intros f fs. destruct (C54_min_mixed _ _ (all_mixed f fs)) as (m & E & R). unfold Min, extremum in E. rewrite (kindOfArgs_mixed _ _ (all_mixed f fs)) in E. cbn in E. rewrite best_ext in E. injection E as <-. exact R.
Qed.
(** inf(a) is negative exactly for a negative a; -0 and NaN count as positive *)
Theorem C88_inf : forall a, num_inf a = S754_infinity (match a with S754_finite s _ _ | S754_infinity s => s | _ => false end).
Proof. intros [s|s| |s m e]; try reflexivity; destruct s; reflexivity. Qed.

(** ** What a float64 that holds an integer is *)
Theorem C88_holds_value : forall f z, small z -> holds f z ->
  (z = 0 /\ exists s, f = S754_zero s) \/
  (exists s m e, f = S754_finite s m e /\ valid_binary 53 1024 f = true /\ -52 <= e <= 1 /\ (if s then - Zpos m else Zpos m) * 2 ^ (e + 52) = z * 2 ^ 52).
Proof.
  intros f z Hz H. destruct (holds_cases f z Hz H) as [L|(s & M & e & -> & (D & R) & He & EM & Es & _)]; [left; exact L|right]. exists s, M, e. split; [reflexivity|]. split.
  - cbn [valid_binary]. unfold bounded, canonical_mantissa. rewrite D, fexp_normal by lia. apply andb_true_iff. split; [apply Zeq_is_eq_bool; reflexivity|apply Z.leb_le; lia].
  - split; [exact He|]. destruct s; cbn [cond_Zopp] in Es; lia.
Qed.
Theorem C88_faithful : forall a b, small a -> small b -> f_eq (f_of_int a) (f_of_int b) = true -> a = b.
Proof.
  intros a b Ha Hb. unfold f_eq, SFeqb. rewrite (holds_compare _ _ a b Ha Hb) by apply holds_int. intro H. apply Z.compare_eq. destruct (a ?= b); congruence.
Qed.
(** beyond 2^53 neither the calculator nor a comparison is exact *)
Theorem C88_limit_refuted : f_of_int (2 ^ 53 + 1) = f_of_int (2 ^ 53) /\ f_add (f_of_int (2 ^ 53)) (f_of_int 1) = f_of_int (2 ^ 53) /\
  LT (VInt (2 ^ 53)) (VFloat (f_of_int (2 ^ 53 + 1))) = no /\ GE (VInt (2 ^ 53)) (VFloat (f_of_int (2 ^ 53 + 1))) = yes.
Proof. vm_compute. auto. Qed.

(** ** qlang: an int and a float64, or two float64 *)
Definition stands_for (v : QValue.value) (z : Z) : Prop := v = VInt z \/ exists f, v = VFloat f /\ holds f z.
Definition is_float (v : QValue.value) : Prop := exists f, v = VFloat f.
Lemma stands_float : forall v z, stands_for v z -> exists f, holds f z /\ (v = VFloat f \/ v = VInt z /\ f = f_of_int z).
Proof. intros v z [-> |(f & -> & H)]; [exists (f_of_int z); split; [apply holds_int|auto]|exists f; auto]. Qed.
Theorem C88_qlang_arith : forall u v a b, stands_for u a -> stands_for v b -> is_float u \/ is_float v -> small a -> small b ->
  (small (a + b) -> exists f, Add u v = inl (VFloat f) /\ holds f (a + b)) /\ (small (a - b) -> exists f, Sub u v = inl (VFloat f) /\ holds f (a - b)) /\
  (small (a * b) -> exists f, Mul u v = inl (VFloat f) /\ holds f (a * b)) /\ (forall q, a = q * b -> b <> 0 -> exists f, Quo u v = inl (VFloat f) /\ holds f q).
Proof.
  intros u v a b Hu Hv Hf Sa Sb. destruct (stands_float u a Hu) as (f & Hfa & Eu). destruct (stands_float v b Hv) as (g & Hgb & Ev).
  assert (X : forall op fop, In (op, fop) arith -> op u v = inl (VFloat (fop f g))).
  { intros op fop I. destruct (C52_mixed op fop I f g a) as (M1 & M2 & _). destruct (C52_mixed op fop I f g b) as (_ & _ & M3).
    destruct Eu as [-> |(-> & ->)], Ev as [-> |(-> & ->)]; [exact M1|rewrite M3; exact M1|rewrite M2; exact M1|]. destruct Hf as [(x & D)|(x & D)]; discriminate. }
  split; [|split; [|split]].
  - intro S. eexists. split; [apply X; cbn; eauto|apply holds_add; assumption].
  - intro S. eexists. split; [apply X; cbn; eauto|apply holds_sub; assumption].
  - intro S. eexists. split; [apply X; cbn; eauto|apply holds_mul; assumption].
  - intros q -> Nb. eexists. split; [apply X; cbn; eauto 6|]. apply (holds_div f g q b); try assumption. unfold small in *. nia.
Qed.
Theorem C88_qlang_order : forall u v a b, stands_for u a -> stands_for v b -> small a -> small b ->
  (LT u v = yes <-> a < b) /\ (GT u v = yes <-> b < a) /\ (LE u v = yes <-> a <= b) /\ (GE u v = yes <-> b <= a).
Proof.
  intros u v a b Hu Hv Sa Sb. destruct (stands_float u a Hu) as (f & Hfa & Eu). destruct (stands_float v b Hv) as (g & Hgb & Ev).
  assert (T : forall t, inl (VBool t) = yes <-> t = true) by (intros t; unfold yes; split; [intros [= H]; exact H|intros ->; reflexivity]).
  assert (C1 : SFcompare f g = Some (a ?= b)) by (apply holds_compare; assumption). assert (C2 : SFcompare g f = Some (b ?= a)) by (apply holds_compare; assumption).
  assert (L1 : f_lt f g = (a <? b)) by (apply holds_lt; assumption). assert (L2 : f_lt g f = (b <? a)) by (apply holds_lt; assumption).
  assert (L3 : f_le f g = (a <=? b)) by (unfold f_le, SFleb, Z.leb; rewrite C1; destruct (a ?= b); reflexivity).
  assert (L4 : f_le g f = (b <=? a)) by (unfold f_le, SFleb, Z.leb; rewrite C2; destruct (b ?= a); reflexivity).
  destruct Eu as [-> |(-> & ->)], Ev as [-> |(-> & ->)]; cbn [LT GT LE GE unbyte]; rewrite ?T, ?L1, ?L2, ?L3, ?L4, ?Z.ltb_lt, ?Z.leb_le; repeat split; auto.
Qed.

(** ** Instances *)
(** a ParseFloat that reads decimal digits only *)
Definition parse88 (s : bytes) : float + nerr := if negb (length s =? 0)%nat && all_digits s then inl (f_of_int (ScannerSpec.value 10 s)) else inr NSyntax.
Example C88_instance_parse : reads_digits parse88.
Proof.
  intros s N D _. unfold parse88. destruct s as [|c s]; [contradiction|]. cbn [length Nat.eqb negb andb]. replace (all_digits (c :: s)) with true; [reflexivity|].
  symmetry. apply forallb_forall. rewrite Forall_forall in D. intros x Hx. specialize (D x Hx). unfold digit in D. lia.
Qed.
Definition num88 : calc float unit float := number f_neg f_mul f_div f_mod f_add f_sub (fun _ => None) f_of_int f_int (num_lib (fun _ => None)).
Definition run88 (src : string) : option float :=
  match Cl (cmarker num88 (fun _ => S754_nan)) ex_isL ex_isL 200 (AutoKw new_akw) PropScan.fresh tt number_grammar with
  | ClOk root d =>
      match Eval num88 (fun _ => S754_nan) f_of_int parse88 ex_isL ex_isL root d 2000 PropScan.fresh (s2b src) (mkSt (fun _ => 0) (mkE 0 tt [] tt)) with
      | MNil s => fst (Ret (ust s))
      | _ => None
      end
  | _ => None
  end.
Example C88_instance : run88 "(12 - 20) * 0x10 / 4 + max(3, abs(-9), 017 % 4)" = Some (f_of_int (-23)) /\ run88 "-(3 - 3)" = Some (S754_zero true) /\
  run88 "9007199254740992 + 1" = Some (f_of_int 9007199254740992) /\ run88 "1/0" = Some (S754_infinity false).
Proof. vm_compute. auto. Qed.
Definition tok88 (k : Z) (l : string) : token := mkTok k 0 (s2b l).
(** 7 - 010 * 3 *)
Example C88_instance_value : int_value [tok88 INT "7"; tok88 SUB ""; tok88 INT "010"; tok88 MUL ""; tok88 INT "3"] (Some (-17)).
Proof.
  assert (L : forall l, v_factor int_lits int_muls int_adds (fun a => Some (- a)) int_call [tok88 INT l] (keep (go_int (s2b l)))) by (intro l; exact (V_lit int_lits int_muls int_adds (fun a => Some (- a)) int_call INT (fun s => keep (go_int s)) (tok88 INT l) (or_introl eq_refl) (or_introl eq_refl))).
  enough (V : exists r, int_value ([tok88 INT "7"] ++ (tok88 SUB "" :: ([tok88 INT "010"; tok88 MUL ""; tok88 INT "3"] ++ []))) r /\ r = Some (-17)) by (destruct V as (r & V & ->); exact V).
  eexists. split; [|shelve].
  eapply V_doc; [rewrite <- (app_nil_r [tok88 INT "7"]); eapply V_term; [apply L|apply V_mul0]|]. eapply V_add; [right; left; reflexivity| |apply V_add0].
  change [tok88 INT "010"; tok88 MUL ""; tok88 INT "3"] with ([tok88 INT "010"] ++ (tok88 MUL "" :: [tok88 INT "3"] ++ [])). eapply V_term; [apply L|]. eapply V_mul; [left; reflexivity|apply L|apply V_mul0].
  Unshelve. vm_compute. reflexivity.
Qed.

Print Assumptions C88_number.
Print Assumptions C88_max.
Print Assumptions C88_min.
Print Assumptions C88_inf.
Print Assumptions C88_holds_value.
Print Assumptions C88_faithful.
Print Assumptions C88_limit_refuted.
Print Assumptions C88_qlang_arith.
Print Assumptions C88_qlang_order.
