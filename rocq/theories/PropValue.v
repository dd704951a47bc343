(** C52, C53, C54, C61, C63: the operators of qlang on values, max and min, results of Go functions, Import. *)
From Coq Require Import String SpecFloat Permutation QArith.
From Verif Require Import Base Token Utf8 Scanner Tokenize Grammar Matcher Compiler Interp Calc QValue.
Local Open Scope Z_scope.

(** ** C52 *)
Definition int64_range (z : Z) : Prop := - 2 ^ 63 <= z < 2 ^ 63.
(** [r] is the exact result reduced to 64 bits: the only int64 congruent to it modulo 2^64 *)
Definition wraps_to (exact r : Z) : Prop := int64_range r /\ exists k, exact = r + k * 2 ^ 64.
(** [q], [r]: quotient and remainder of the division that truncates toward zero *)
Definition truncated (a b q r : Z) : Prop := a = b * q + r /\ Z.abs r < Z.abs b /\ (r = 0 \/ Z.sgn r = Z.sgn a).
Definition unsupported (r : opres) : Prop := exists f l, r = inr (PvStr (SOther (VMsg f l))).
(** the panics name the operator and the types of the operands *)
Definition panics_op2 (op : string) (a b : value) (r : opres) : Prop := r = inr (PvStr (SOther (VMsg (s2b "unsupported operator: %T%s%T") [a; VStr (s2b op); b]))).
Definition panics_op1 (op : string) (a : value) (r : opres) : Prop := r = inr (PvStr (SOther (VMsg (s2b "unsupported operator: %s%T") [VStr (s2b op); a]))).
Definition panics_fn (fn : string) (args : list value) (r : opres) : Prop := r = inr (PvStr (SOther (VMsg (s2b "unsupported function: %s(%T)") (VStr (s2b fn) :: args)))).
Definition runtime_error (r : opres) : Prop := r = inr (PvErr ERuntime).

Lemma wrap64_wraps : forall z, wraps_to z (wrap64 z).
Proof.
  intros z. unfold wraps_to, int64_range, wrap64. pose proof (Z.mod_pos_bound (z + 2 ^ 63) (2 ^ 64) ltac:(lia)). split; [lia|].
  exists ((z + 2 ^ 63) / 2 ^ 64). pose proof (Z.div_mod (z + 2 ^ 63) (2 ^ 64) ltac:(lia)). lia.
Qed.
Lemma wraps_unique : forall z r r', wraps_to z r -> wraps_to z r' -> r = r'.
Proof. intros z r r' (H & k & E) (H' & k' & E'). unfold int64_range in *. assert (k = k') by lia. subst. lia. Qed.
(** results in range are exact *)
Theorem C52_exact_in_range : forall z, int64_range z -> forall r, wraps_to z r <-> r = z.
Proof.
  intros z Hz r. assert (W : wraps_to z z) by (split; [exact Hz|exists 0; lia]).
  split; [intros H; apply (wraps_unique z); assumption|intros ->; exact W].
Qed.
Theorem C52_int : forall a b r, wraps_to (a + b) r -> Add (VInt a) (VInt b) = inl (VInt r).
Proof. intros a b r H. cbn. do 2 f_equal. apply (wraps_unique (a + b)); [apply wrap64_wraps|exact H]. Qed.
Theorem C52_int_sub : forall a b r, wraps_to (a - b) r -> Sub (VInt a) (VInt b) = inl (VInt r).
Proof. intros a b r H. cbn. do 2 f_equal. apply (wraps_unique (a - b)); [apply wrap64_wraps|exact H]. Qed.
Theorem C52_int_mul : forall a b r, wraps_to (a * b) r -> Mul (VInt a) (VInt b) = inl (VInt r).
Proof. intros a b r H. cbn. do 2 f_equal. apply (wraps_unique (a * b)); [apply wrap64_wraps|exact H]. Qed.
Lemma truncated_quot : forall a b q r, truncated a b q r -> q = Z.quot a b /\ r = Z.rem a b.
Proof.
  intros a b q r (E & B & Sg).
  pose proof (Z.quot_rem a b ltac:(lia)) as E'. pose proof (Z.rem_bound_abs a b ltac:(lia)) as B'.
  pose proof (Z.rem_sign_mul a b ltac:(lia)) as S'.
  assert (H : b * (q - Z.quot a b) = Z.rem a b - r) by lia.
  assert (T : Z.abs (Z.rem a b - r) < Z.abs b).
  { destruct Sg as [->|Sg]; [rewrite Z.sub_0_r; exact B'|].
    destruct (Z.lt_trichotomy a 0) as [A|[A|A]].
    - rewrite (Z.sgn_neg a) in Sg by lia. assert (r < 0) by (apply Z.sgn_neg_iff; lia). assert (Z.rem a b <= 0) by nia. lia.
    - rewrite A in Sg. cbn in Sg. assert (r = 0) by (apply Z.sgn_null_iff; lia). rewrite H0, Z.sub_0_r. exact B'.
    - rewrite (Z.sgn_pos a) in Sg by lia. assert (0 < r) by (apply Z.sgn_pos_iff; lia). assert (0 <= Z.rem a b) by nia. lia. }
  rewrite <- H, Z.abs_mul in T. assert (q - Z.quot a b = 0) by nia. split; [lia|]. rewrite H0, Z.mul_0_r in H. lia.
Qed.
Lemma quot_truncated : forall a b, b <> 0 -> truncated a b (Z.quot a b) (Z.rem a b).
Proof.
  intros a b D. split; [apply Z.quot_rem; exact D|]. split; [apply Z.rem_bound_abs; exact D|].
  destruct (Z.eq_dec (Z.rem a b) 0) as [E|E]; [left; exact E|right]. apply Z.rem_sign_nz; assumption.
Qed.
Theorem C52_int_div : forall a b q r q', truncated a b q r -> wraps_to q q' ->
  Quo (VInt a) (VInt b) = inl (VInt q') /\ Mod (VInt a) (VInt b) = inl (VInt r).
Proof.
  intros a b q r q' T W. destruct (truncated_quot _ _ _ _ T) as (-> & ->).
  assert (D : b <> 0) by (destruct T as (_ & T & _); lia). cbn. rewrite (proj2 (Z.eqb_neq b 0) D).
  split; [|reflexivity]. do 2 f_equal. apply (wraps_unique (Z.quot a b)); [apply wrap64_wraps|exact W].
Qed.
(** the only quotient of int64s that is out of range *)
Theorem C52_int_div_overflow : forall a b q r, int64_range a -> int64_range b -> truncated a b q r ->
  int64_range r /\ (int64_range q <-> ~ (a = - 2 ^ 63 /\ b = -1)).
Proof.
  intros a b q r Ha Hb T. destruct (truncated_quot _ _ _ _ T) as (Eq & Er). destruct T as (E & B & Sg). unfold int64_range in *. split; [lia|].
  split.
  - intros Hq (-> & ->). assert (q = 2 ^ 63) by lia. lia.
  - intros N. destruct (Z.eq_dec b (-1)) as [->|]; [lia|]. destruct (Z.eq_dec b 1) as [->|]; [lia|].
    assert (2 <= Z.abs b) by lia. assert (Z.abs (b * q) <= 2 ^ 63) by (destruct Sg as [->|Sg]; [lia|];
      destruct (Z.lt_trichotomy a 0) as [A|[A|A]];
      [rewrite (Z.sgn_neg a) in Sg by lia; assert (r < 0) by (apply Z.sgn_neg_iff; lia); lia
      |rewrite A in Sg; cbn in Sg; assert (r = 0) by (apply Z.sgn_null_iff; lia); lia
      |rewrite (Z.sgn_pos a) in Sg by lia; assert (0 < r) by (apply Z.sgn_pos_iff; lia); lia]).
    rewrite Z.abs_mul in H0. nia.
Qed.
Theorem C52_div_by_zero : forall a, runtime_error (Quo (VInt a) (VInt 0)) /\ runtime_error (Mod (VInt a) (VInt 0)).
Proof. intros a. split; reflexivity. Qed.
Theorem C52_unary : forall a r,
  (wraps_to (a + 1) r -> Inc (VInt a) = inl (VInt r)) /\ (wraps_to (a - 1) r -> Dec (VInt a) = inl (VInt r)) /\ (wraps_to (- a) r -> Neg (VInt a) = inl (VInt r)).
Proof. intros a r. split; [|split]; intros W; cbn; do 2 f_equal; (eapply wraps_unique; [apply wrap64_wraps|exact W]). Qed.
Theorem C52_bytes : forall a, 0 <= a < 256 ->
  Inc (VByte a) = inl (VByte (if a =? 255 then 0 else a + 1)) /\ Dec (VByte a) = inl (VByte (if a =? 0 then 255 else a - 1)).
Proof.
  intros a Ha. cbn [Inc Dec]. unfold wrap8. split; do 2 f_equal.
  - destruct (Z.eqb_spec a 255) as [->|]; [reflexivity|]. apply Z.mod_small. lia.
  - destruct (Z.eqb_spec a 0) as [->|]; [reflexivity|]. apply Z.mod_small. lia.
Qed.
(** floats, and ints converted to floats *)
Definition arith : list ((value -> value -> opres) * (float -> float -> float)) :=
  [(Add, SFadd 53 1024); (Sub, SFsub 53 1024); (Mul, SFmul 53 1024); (Quo, SFdiv 53 1024)].
Theorem C52_mixed : forall op fop, In (op, fop) arith -> forall f g z,
  op (VFloat f) (VFloat g) = inl (VFloat (fop f g)) /\
  op (VInt z) (VFloat g) = op (VFloat (f_of_int z)) (VFloat g) /\ op (VFloat f) (VInt z) = op (VFloat f) (VFloat (f_of_int z)).
Proof. intros op fop H f g z. cbn in H. destruct H as [[= <- <-]|[[= <- <-]|[[= <- <-]|[[= <- <-]|[]]]]]; repeat split. Qed.
Definition is_int (v : value) : Prop := exists z, v = VInt z.
Definition is_number (v : value) : Prop := exists z, v = VInt z \/ exists f, v = VFloat f.
Definition is_string (v : value) : Prop := exists b, v = VStr b.
Lemma unsup_yes : forall op a b, unsupported (unsup2 op a b).
Proof. intros. eexists; eexists; reflexivity. Qed.
Ltac num_no H := exfalso; apply H; try split; unfold is_number, is_int, is_string; eauto 6 using Z0.
Theorem C52_other_types : forall a b,
  (~ (is_number a /\ is_number b) -> panics_op2 "-" a b (Sub a b) /\ panics_op2 "*" a b (Mul a b) /\ panics_op2 "/" a b (Quo a b)) /\
  (~ (is_number a /\ is_number b) -> ~ (is_string a /\ is_string b) -> panics_op2 "+" a b (Add a b)) /\
  (~ (is_int a /\ is_int b) -> panics_op2 "%" a b (Mod a b)).
Proof.
  intros a b.
  assert (N1 : forall z, is_number (VInt z)) by (intros z; exists z; left; reflexivity).
  assert (N2 : forall f, is_number (VFloat f)) by (intros f; exists 0; right; exists f; reflexivity).
  assert (N3 : forall z, is_int (VInt z)) by (intros z; exists z; reflexivity).
  assert (N4 : forall z, is_string (VStr z)) by (intros z; exists z; reflexivity).
  split; [|split].
  - intros H. destruct a; try (repeat split; reflexivity); destruct b; try (repeat split; reflexivity); exfalso; apply H; split; auto.
  - intros H H'. destruct a; try reflexivity; destruct b; try reflexivity; exfalso; first [apply H; split; solve [auto] | apply H'; split; solve [auto]].
  - intros H. destruct a; try reflexivity; destruct b; try reflexivity; exfalso; apply H; split; auto.
Qed.
Theorem C52_other_types_unary : forall a,
  (~ is_number a -> panics_op1 "-" a (Neg a)) /\ (~ is_int a -> ~ (exists z, a = VByte z) -> panics_op1 "++" a (Inc a) /\ panics_op1 "--" a (Dec a)) /\
  (~ (exists b, a = VBool b) -> panics_op1 "!" a (Not a)) /\ (forall b, Not (VBool b) = inl (VBool (negb b))) /\
  (~ is_number a -> ~ (exists z, a = VByte z) -> panics_fn "float" [a] (Float a)).
Proof.
  intros a. split; [|split; [|split; [|split; [intros b; reflexivity|]]]].
  - intros H. destruct a; try reflexivity; exfalso; apply H; [exists z; left; reflexivity|exists 0; right; exists f; reflexivity].
  - intros H H'. destruct a; try (split; reflexivity); exfalso; [apply H; exists z; reflexivity|apply H'; exists z; reflexivity].
  - intros H. destruct a; try reflexivity. exfalso. apply H. eexists. reflexivity.
  - intros H H'. destruct a; try reflexivity; exfalso; [apply H; exists z; left; reflexivity|apply H'; exists z; reflexivity|apply H; exists 0; right; exists f; reflexivity].
Qed.

(** ** C53 *)
Definition yes : opres := inl (VBool true).
Definition no : opres := inl (VBool false).
Definition exactly_one (a b c : opres) : Prop := (a = yes /\ b = no /\ c = no) \/ (a = no /\ b = yes /\ c = no) \/ (a = no /\ b = no /\ c = yes).
(** the law on a pair of values *)
Definition ordered_pair (so : value -> value -> bool) (a b : value) : Prop :=
  exactly_one (LT a b) (EQ so a b) (GT a b) /\
  (LE a b = yes <-> LT a b = yes \/ EQ so a b = yes) /\ (GE a b = yes <-> GT a b = yes \/ EQ so a b = yes) /\
  (LE a b = yes \/ LE a b = no) /\ (GE a b = yes \/ GE a b = no) /\
  (NE so a b = yes <-> EQ so a b = no) /\ (NE so a b = no <-> EQ so a b = yes) /\
  GT a b = LT b a /\ EQ so a b = EQ so b a.
(** two ints, two bytes, two strings, two floats that are numbers *)
Definition comparable (a b : value) : Prop :=
  (exists x y, a = VInt x /\ b = VInt y) \/ (exists x y, a = VByte x /\ b = VByte y) \/ (exists x y, a = VStr x /\ b = VStr y) \/
  (exists x y, a = VFloat x /\ b = VFloat y /\ x <> S754_nan /\ y <> S754_nan).

Lemma ordered_of_cmp : forall so a b c,
  LT a b = inl (VBool (match c with Lt => true | _ => false end)) -> LT b a = inl (VBool (match c with Gt => true | _ => false end)) ->
  EQ so a b = inl (VBool (match c with Eq => true | _ => false end)) -> EQ so b a = inl (VBool (match c with Eq => true | _ => false end)) ->
  GT a b = inl (VBool (match c with Gt => true | _ => false end)) ->
  LE a b = inl (VBool (match c with Gt => false | _ => true end)) -> GE a b = inl (VBool (match c with Lt => false | _ => true end)) ->
  ordered_pair so a b.
Proof.
  intros so a b c H1 H2 H3 H4 H5 H6 H7. unfold ordered_pair, exactly_one, NE, yes, no. rewrite H1, H2, H3, H4, H5, H6, H7.
  destruct c; cbn; intuition congruence.
Qed.
Lemma b_lt_irrefl : forall a, b_lt a a = false.
Proof. induction a as [|x a IH]; [reflexivity|]. cbn. rewrite IH, Z.ltb_irrefl, andb_false_r. reflexivity. Qed.
Lemma b_cmp : forall a b, (beq a b = true /\ a = b) \/ (beq a b = false /\ beq b a = false /\ b_lt a b = negb (b_lt b a)).
Proof.
  induction a as [|x a IH]; intros [|y b]; try (right; repeat split; reflexivity); [left; split; reflexivity|].
  cbn. destruct (Z.compare_spec x y) as [->|L|L].
  - rewrite Z.eqb_refl, Z.ltb_irrefl. cbn. destruct (IH b) as [(A & ->)|(A & A' & A'')]; [left; split; [exact A|reflexivity]|right; repeat split; assumption].
  - right. rewrite (proj2 (Z.eqb_neq x y)), (proj2 (Z.eqb_neq y x)), (proj2 (Z.ltb_lt x y)), (proj2 (Z.ltb_ge y x)) by lia. repeat split.
  - right. rewrite (proj2 (Z.eqb_neq x y)), (proj2 (Z.eqb_neq y x)), (proj2 (Z.ltb_lt y x)), (proj2 (Z.ltb_ge x y)) by lia. repeat split.
Qed.
Lemma f_cmp : forall x y, x <> S754_nan -> y <> S754_nan -> exists c, SFcompare x y = Some c /\ SFcompare y x = Some (CompOpp c).
Proof.
  intros x y Hx Hy.
  destruct x as [sx|sx| |sx mx ex]; [| |congruence|]; (destruct y as [sy|sy| |sy my ey]; [| |congruence|]); destruct sx, sy; cbn [SFcompare];
    try (eexists; split; reflexivity).
  - rewrite (Z.compare_antisym ex ey). destruct (ex ?= ey); cbn; try (eexists; split; reflexivity).
    change (Pcompare mx my Eq) with (mx ?= my)%positive. change (Pcompare my mx Eq) with (my ?= mx)%positive. rewrite (Pos.compare_antisym mx my).
    eexists; split; reflexivity.
  - rewrite (Z.compare_antisym ex ey). destruct (ex ?= ey); cbn; try (eexists; split; reflexivity).
    change (Pcompare mx my Eq) with (mx ?= my)%positive. change (Pcompare my mx Eq) with (my ?= mx)%positive. rewrite (Pos.compare_antisym mx my).
    eexists; split; reflexivity.
Qed.
Theorem C53_comparison : forall so a b, comparable a b -> ordered_pair so a b.
Proof.
  intros so a b [(x & y & -> & ->)|[(x & y & -> & ->)|[(x & y & -> & ->)|(x & y & -> & -> & Hx & Hy)]]].
  - apply (ordered_of_cmp so _ _ (x ?= y)); cbn; unfold Z.ltb, Z.leb; rewrite ?(Z.compare_antisym x y), ?Z.eqb_compare, ?(Z.compare_antisym x y); destruct (x ?= y); reflexivity.
  - apply (ordered_of_cmp so _ _ (x ?= y)); cbn; unfold Z.ltb, Z.leb; rewrite ?(Z.compare_antisym x y), ?Z.eqb_compare, ?(Z.compare_antisym x y); destruct (x ?= y); reflexivity.
  - destruct (b_cmp x y) as [(A & ->)|(A & A' & A'')].
    + apply (ordered_of_cmp so _ _ Eq); cbn; rewrite ?b_lt_irrefl, ?A; reflexivity.
    + destruct (b_lt y x) eqn:L; cbn in A''; [apply (ordered_of_cmp so _ _ Gt)|apply (ordered_of_cmp so _ _ Lt)]; cbn; rewrite ?L, ?A'', ?A, ?A'; reflexivity.
  - destruct (f_cmp x y Hx Hy) as (c & C1 & C2). apply (ordered_of_cmp so _ _ c); cbn; unfold f_lt, f_le, f_eq, SFltb, SFleb, SFeqb; rewrite ?C1, ?C2; destruct c; reflexivity.
Qed.
(** < is transitive on each of these types *)
Lemma b_lt_trans : forall a b c, b_lt a b = true -> b_lt b c = true -> b_lt a c = true.
Proof.
  induction a as [|x a IH]; intros [|y b] [|z c]; cbn; try discriminate; [reflexivity|]. rewrite !orb_true_iff, !andb_true_iff, !Z.ltb_lt, !Z.eqb_eq.
  intros [H|(-> & H)] [H'|(-> & H')]; [left; lia|left; assumption|left; assumption|right; split; [reflexivity|eauto]].
Qed.
Lemma f_lt_trans : forall a b c, f_lt a b = true -> f_lt b c = true -> f_lt a c = true.
Proof.
  intros a b c. unfold f_lt, SFltb.
  destruct a as [sx|sx| |sx mx ex]; destruct b as [sy|sy| |sy my ey]; destruct c as [sz|sz| |sz mz ez];
    try discriminate; destruct sx; try discriminate; destruct sy; try discriminate; try (destruct sz; try discriminate; try reflexivity); cbn [SFcompare]; try reflexivity; try discriminate;
    change (Pcompare mx my Eq) with (mx ?= my)%positive; change (Pcompare my mz Eq) with (my ?= mz)%positive; change (Pcompare mx mz Eq) with (mx ?= mz)%positive;
    destruct (Z.compare_spec ex ey), (Z.compare_spec ey ez); cbn; try discriminate; subst; intros H1 H2;
    try (rewrite ?(proj2 (Z.compare_lt_iff _ _)), ?(proj2 (Z.compare_gt_iff _ _)), ?Z.compare_refl by lia; cbn; try reflexivity; try assumption).
  all: try (destruct (Pos.compare_spec mx my), (Pos.compare_spec my mz), (Pos.compare_spec mx mz); cbn in *; try discriminate; try reflexivity; subst; lia).
Qed.
Theorem C53_transitive : forall a b c, comparable a b -> comparable b c -> LT a b = yes -> LT b c = yes -> LT a c = yes.
Proof.
  intros a b c Cab Cbc.
  destruct Cab as [(x & y & -> & ->)|[(x & y & -> & ->)|[(x & y & -> & ->)|(x & y & -> & -> & _)]]];
  destruct Cbc as [(x' & y' & [= <-] & ->)|[(x' & y' & [= <-] & ->)|[(x' & y' & [= <-] & ->)|(x' & y' & [= <-] & -> & _)]]];
  unfold yes; cbn; intros [= H] [= H']; do 2 f_equal.
  - apply Z.ltb_lt in H, H'. apply Z.ltb_lt. lia.
  - apply Z.ltb_lt in H, H'. apply Z.ltb_lt. lia.
  - eapply b_lt_trans; eassumption.
  - eapply f_lt_trans; eassumption.
Qed.
(** the order is the order of the values: of bytes and ints mixed also *)
Definition int_of (v : value) : option Z := match v with VInt z | VByte z => Some z | _ => None end.
Theorem C53_mixed_ints : forall a b x y, int_of a = Some x -> int_of b = Some y ->
  (LT a b = yes <-> x < y) /\ (GT a b = yes <-> y < x) /\ (LE a b = yes <-> x <= y) /\ (GE a b = yes <-> y <= x).
Proof.
  intros a b x y Ha Hb.
  assert (T : forall t, inl (VBool t) = yes <-> t = true) by (intros t; unfold yes; split; [intros [= H]; exact H|intros ->; reflexivity]).
  destruct a; try discriminate; destruct b; try discriminate; cbn in Ha, Hb; injection Ha as <-; injection Hb as <-; cbn; rewrite !T, !Z.ltb_lt, !Z.leb_le; repeat split; auto.
Qed.
(** an int or byte compared with a float is converted *)
Theorem C53_converted : forall cmp, In cmp [LT; GT; LE; GE] -> forall a z f, int_of a = Some z ->
  cmp a (VFloat f) = cmp (VFloat (f_of_int z)) (VFloat f) /\ cmp (VFloat f) a = cmp (VFloat f) (VFloat (f_of_int z)).
Proof.
  intros cmp H a z f Ha. destruct a; try discriminate; injection Ha as ->; destruct H as [<-|[<-|[<-|[<-|[]]]]]; split; reflexivity.
Qed.
(** but == also compares the types: 'a' and 97 are neither less, nor equal, nor greater, yet <= and >= *)
Theorem C53_byte_int_refuted : forall so x,
  LT (VByte x) (VInt x) = no /\ EQ so (VByte x) (VInt x) = no /\ GT (VByte x) (VInt x) = no /\ LE (VByte x) (VInt x) = yes /\ GE (VByte x) (VInt x) = yes.
Proof. intros so x. cbn. rewrite Z.ltb_irrefl, Z.leb_refl. repeat split. Qed.
Theorem C53_int_float_refuted : forall so,
  let one := VFloat (f_of_int 1) in
  LT (VInt 1) one = no /\ EQ so (VInt 1) one = no /\ GT (VInt 1) one = no /\ LE (VInt 1) one = yes.
Proof. intros so. repeat split. Qed.
Theorem C53_nan_refuted : forall so, let n := VFloat S754_nan in
  LT n n = no /\ EQ so n n = no /\ GT n n = no /\ LE n n = no /\ GE n n = no /\ NE so n n = yes.
Proof. intros so. repeat split. Qed.
(** operands of other kinds panic *)
Definition comparable_kinds (a b : value) : Prop :=
  ((is_number a \/ exists z, a = VByte z) /\ (is_number b \/ exists z, b = VByte z)) \/ (is_string a /\ is_string b).
Definition as_int (a : value) : value := match a with VByte z => VInt z | _ => a end.
Theorem C53_other_types : forall a b, ~ comparable_kinds a b -> let x := as_int a in let y := as_int b in
  panics_op2 "<" x y (LT a b) /\ panics_op2 ">" x y (GT a b) /\ panics_op2 "<=" x y (LE a b) /\ panics_op2 ">=" x y (GE a b).
Proof.
  intros a b H.
  assert (N1 : forall z, is_number (VInt z)) by (intros z; exists z; left; reflexivity).
  assert (N2 : forall f, is_number (VFloat f)) by (intros f; exists 0; right; exists f; reflexivity).
  destruct a; try (repeat split; reflexivity); destruct b; try (repeat split; reflexivity); exfalso; apply H; unfold comparable_kinds, is_string; eauto 8.
Qed.
(** == on all values.  The Go type of a value, as far as it is known *)
Inductive gotype : Type := Gnil | Gbool | Gint | Gbyte | Gfloat64 | Gstring | Gnum (k : nkind) | Gfloat32 | Gslice (t : etype) | Gcode | Gfunction | Gclass | Gobject | Gthis | Gfninfo | Gfunc | Gextern
| Gundefined | Gunknown.
Definition type_of (a : value) : gotype :=
  match a with
  | VNil => Gnil | VBool _ => Gbool | VInt _ => Gint | VByte _ => Gbyte | VFloat _ => Gfloat64 | VStr _ | VMsg _ _ => Gstring | VNum k _ => Gnum k | VFloat32 _ => Gfloat32
  | VSlice t _ => Gslice t | VCode _ => Gcode | VFunc _ => Gfunction | VClass _ => Gclass | VObj _ _ => Gobject | VThis _ _ _ _ => Gthis | VFnInfo _ _ _ => Gfninfo
  | VUnset _ | VGo _ | VDummy _ => Gfunc | VExtern _ => Gextern | VUndefined => Gundefined | VExc _ | VReturn | VExit _ | VOther _ => Gunknown
  end.
(** values of different types are never equal, whatever they are *)
Theorem C53_types_differ : forall so a b, type_of a <> type_of b -> EQ so a b = no /\ NE so a b = yes.
Proof.
  intros so a b H. assert (E : EQ so a b = no); [|unfold NE; rewrite E; split; reflexivity].
  destruct a; destruct b; try reflexivity; try (exfalso; apply H; reflexivity);
    match goal with |- EQ _ (VNum ?k _) (VNum ?k' _) = _ => destruct k, k' | |- EQ _ (VSlice ?k _) (VSlice ?k' _) = _ => destruct k, k' | |- EQ _ (VSlice ?k _) _ = _ => destruct k end; try reflexivity; exfalso; apply H; reflexivity.
Qed.
(** the same number, string or truth value; the same function, class, object or method of an object, and not one that looks the same *)
Theorem C53_equal : forall so,
  (forall x y, (EQ so (VBool x) (VBool y) = yes <-> x = y) /\ (EQ so (VBool x) (VBool y) = no <-> x <> y)) /\
  (forall k x y, (EQ so (VNum k x) (VNum k y) = yes <-> x = y) /\ (EQ so (VNum k x) (VNum k y) = no <-> x <> y)) /\
  (forall f g, (EQ so (VFunc f) (VFunc g) = yes <-> f_id f = f_id g) /\ (EQ so (VFunc f) (VFunc g) = no <-> f_id f <> f_id g)) /\
  (forall c d, (EQ so (VClass c) (VClass d) = yes <-> c_id c = c_id d) /\ (EQ so (VClass c) (VClass d) = no <-> c_id c <> c_id d)) /\
  (forall o c o' c', (EQ so (VObj o c) (VObj o' c') = yes <-> o = o') /\ (EQ so (VObj o c) (VObj o' c') = no <-> o <> o')) /\
  (forall i o c f j o' c' f', (EQ so (VThis i o c f) (VThis j o' c' f') = yes <-> i = j) /\ (EQ so (VThis i o c f) (VThis j o' c' f') = no <-> i <> j)) /\
  EQ so VNil VNil = yes /\ EQ so VUndefined VUndefined = yes.
Proof.
  intros so. assert (B : forall (b : bool) (P : Prop), Bool.reflect P b -> ((inl (VBool b) : opres) = yes <-> P) /\ ((inl (VBool b) : opres) = no <-> ~ P)).
  { intros b P R. unfold yes, no. destruct R as [H|H]; (split; split; intro X; try reflexivity; try assumption; try discriminate; try contradiction). }
  assert (N : forall x y : nat, Bool.reflect (x = y) (x =? y)%nat) by (intros x y; apply Nat.eqb_spec).
  split; [intros x y; apply B; destruct x, y; constructor; congruence|].
  split; [intros k x y; replace (EQ so (VNum k x) (VNum k y)) with (inl (VBool (x =? y)) : opres) by (destruct k; reflexivity); apply B; apply Z.eqb_spec|].
  split; [intros f g; apply B; apply N|]. split; [intros f g; apply B; apply N|]. split; [intros o c o' c'; apply B; apply N|].
  split; [intros i o c f j o' c' f'; apply B; apply N|]. split; reflexivity.
Qed.
(** slices of the same type, pieces of code and funcs of the same type cannot be compared *)
Theorem C53_uncomparable : forall so a b, type_of a = type_of b ->
  match a with VSlice _ _ | VCode _ | VExtern _ => True | VUnset _ | VGo _ | VDummy _ => so a b = true | _ => False end -> runtime_error (EQ so a b) /\ runtime_error (NE so a b).
Proof.
  intros so a b T H. assert (E : EQ so a b = inr rt_error); [|unfold NE; rewrite E; split; reflexivity].
  destruct a; try contradiction; destruct b; try discriminate T; cbn [EQ]; try reflexivity; try (rewrite H; reflexivity); [injection T as <-; destruct t; reflexivity|rewrite H, Bool.orb_true_r; reflexivity].
Qed.

(** ** C54 *)
(** [m] is an element of [l] and no element is better *)
Definition extreme {A : Type} (le : A -> A -> Prop) (m : A) (l : list A) : Prop := In m l /\ forall x, In x l -> le x m.
Lemma extInt_spec : forall (better : Z -> Z -> bool) (le : Z -> Z -> Prop),
  (forall x, le x x) -> (forall x y z, le x y -> le y z -> le x z) -> (forall x y, better x y = true -> le y x) -> (forall x y, better x y = false -> le x y) ->
  forall l m, exists r, extInt better m (map VInt l) = Some r /\ extreme le r (m :: l).
Proof.
  intros better le Rf Tr B1 B2. induction l as [|x l IH]; intros m.
  - exists m. split; [reflexivity|]. split; [left; reflexivity|]. intros x [<-|[]]. apply Rf.
  - cbn. destruct (IH (if better x m then x else m)) as (r & E & I1 & U). exists r. split; [exact E|]. split.
    + destruct I1 as [<-|I1]; [destruct (better x m); [right; left|left]; reflexivity|right; right; exact I1].
    + intros y [<-|[<-|Iy]].
      * eapply Tr; [|apply U; left; reflexivity]. destruct (better x m) eqn:B; [apply B1; exact B|apply Rf].
      * eapply Tr; [|apply U; left; reflexivity]. destruct (better x m) eqn:B; [apply Rf|apply B2; exact B].
      * apply U. right. exact Iy.
Qed.
Lemma kindOfRest_ints : forall l, kindOfRest kInt (map VInt l) = kInt.
Proof. induction l as [|x l IH]; [reflexivity|]. exact IH. Qed.
Theorem C54_max_ints : forall z l, exists m, Max (map VInt (z :: l)) = inl (VInt m) /\ extreme Z.le m (z :: l).
Proof.
  intros z l. destruct (extInt_spec (fun t m => m <? t) Z.le) with (l := l) (m := z) as (r & E & X); try (intros; lia).
  exists r. split; [|exact X]. unfold Max, extremum. cbn [map]. unfold kindOfArgs. change (kindOf (VInt z)) with kInt. rewrite kindOfRest_ints. cbn. rewrite E. reflexivity.
Qed.
Theorem C54_min_ints : forall z l, exists m, Min (map VInt (z :: l)) = inl (VInt m) /\ extreme Z.ge m (z :: l).
Proof.
  intros z l. destruct (extInt_spec (fun t m => t <? m) Z.ge) with (l := l) (m := z) as (r & E & X); try (intros; lia).
  exists r. split; [|exact X]. unfold Min, extremum. cbn [map]. unfold kindOfArgs. change (kindOf (VInt z)) with kInt. rewrite kindOfRest_ints. cbn. rewrite E. reflexivity.
Qed.
(** a list of ints and floats with at least one float; the numbers it stands for *)
Definition as_number (v : value) (f : float) : Prop := v = VFloat f \/ exists z, v = VInt z /\ f = f_of_int z.
Definition mixed (args : list value) (fs : list float) : Prop := Forall2 as_number args fs /\ Exists (fun v => exists f, v = VFloat f) args.
Lemma kindOfRest_float : forall args fs, Forall2 as_number args fs -> kindOfRest kFloat64 args = kFloat64.
Proof. induction 1 as [|v f l l' Hv _ IH]; [reflexivity|]. destruct Hv as [->|(z & -> & _)]; exact IH. Qed.
Lemma kindOfArgs_mixed : forall args fs, mixed args fs -> kindOfArgs args = kFloat64.
Proof.
  intros [|a args] fs (F2 & X); [inversion X|]. inversion F2 as [|? f ? fs' Ha F']; subst. clear F2. unfold kindOfArgs.
  destruct Ha as [->|(z & -> & _)]; [exact (kindOfRest_float _ _ F')|].
  assert (X' : Exists (fun v => exists g, v = VFloat g) args) by (inversion X as [? ? (g & D)|]; [discriminate|assumption]). clear X.
  change (kindOf (VInt z)) with kInt. revert X'. induction F' as [|v g l l' Hv F' IH]; intros X; [inversion X|].
  destruct Hv as [->|(z' & -> & _)]; [exact (kindOfRest_float _ _ F')|]. apply IH. inversion X as [? ? (h & D)|]; [discriminate|assumption].
Qed.
Lemma asFloat_number : forall v f, as_number v f -> asFloat v = Some f.
Proof. intros v f [->|(z & -> & ->)]; reflexivity. Qed.
Lemma extFloat_spec : forall (better : float -> float -> bool) (le : float -> float -> Prop) (ok : float -> Prop),
  (forall x, ok x -> le x x) -> (forall x y z, ok x -> ok y -> ok z -> le x y -> le y z -> le x z) -> (forall x y, ok x -> ok y -> better x y = true -> le y x) -> (forall x y, ok x -> ok y -> better x y = false -> le x y) ->
  forall args fs, Forall2 as_number args fs -> forall m, exists r, extFloat better m args = Some r /\ In r (m :: fs) /\ (Forall ok (m :: fs) -> forall x, In x (m :: fs) -> le x r).
Proof.
  intros better le ok Rf Tr B1 B2 args fs F2. induction F2 as [|v x l l' Hv F2 IH]; intros m.
  - exists m. split; [reflexivity|]. split; [left; reflexivity|]. intros O x [<-|[]]. apply Rf. exact (Forall_inv O).
  - cbn. rewrite (asFloat_number _ _ Hv). destruct (IH (if better x m then x else m)) as (r & E & I1 & U). exists r. split; [exact E|]. split.
    + destruct I1 as [<-|I1]; [destruct (better x m); [right; left|left]; reflexivity|right; right; exact I1].
    + intros O. pose proof (Forall_inv O) as Om. pose proof (Forall_inv (Forall_inv_tail O)) as Ox. pose proof (Forall_inv_tail (Forall_inv_tail O)) as Ol.
      assert (Ob : ok (if better x m then x else m)) by (destruct (better x m); assumption).
      assert (O' : Forall ok ((if better x m then x else m) :: l')) by (constructor; assumption).
      specialize (U O'). assert (Or : ok r) by (rewrite Forall_forall in O'; exact (O' r I1)).
      intros y [<-|[<-|Iy]].
      * apply (Tr _ (if better x m then x else m)); try assumption; [|apply U; left; reflexivity]. destruct (better x m) eqn:B; [apply B1; assumption|apply Rf; assumption].
      * apply (Tr _ (if better x m then x else m)); try assumption; [|apply U; left; reflexivity]. destruct (better x m) eqn:B; [apply Rf; assumption|apply B2; assumption].
      * apply U. right. exact Iy.
Qed.
Lemma f_le_cases : forall x y, x <> S754_nan -> y <> S754_nan -> (f_le x y = true <-> f_lt y x = false).
Proof. intros x y Hx Hy. destruct (f_cmp x y Hx Hy) as (c & C1 & C2). unfold f_le, f_lt, SFleb, SFltb. rewrite C1, C2. destruct c; cbn; split; congruence. Qed.
Lemma f_eq_lt : forall x y z, SFcompare x y = Some Eq -> f_lt x z = f_lt y z.
Proof.
  intros x y z. unfold f_lt, SFltb. destruct x as [sx|sx| |sx mx ex]; destruct y as [sy|sy| |sy my ey]; cbn [SFcompare]; try discriminate; try (destruct sx, sy; try discriminate; intros _; try reflexivity; destruct z as [sz|sz| |sz mz ez]; reflexivity); try (destruct sx; discriminate); try (destruct sy; discriminate).
  destruct sx, sy; try discriminate; intros H.
  - destruct (Z.compare_spec ex ey); try discriminate. change (Pcompare mx my Eq) with (mx ?= my)%positive in H. destruct (Pos.compare_spec mx my); try discriminate. subst. reflexivity.
  - destruct (Z.compare_spec ex ey); try discriminate. change (Pcompare mx my Eq) with (mx ?= my)%positive in H. destruct (Pos.compare_spec mx my); try discriminate. subst. reflexivity.
Qed.
Lemma f_le_trans : forall x y z, x <> S754_nan -> y <> S754_nan -> z <> S754_nan -> f_le x y = true -> f_le y z = true -> f_le x z = true.
Proof.
  intros x y z Hx Hy Hz H1 H2. apply f_le_cases in H1; try assumption. apply f_le_cases in H2; try assumption. apply f_le_cases; try assumption.
  destruct (f_lt z x) eqn:L; [|reflexivity]. exfalso.
  destruct (f_cmp x y Hx Hy) as (c & C1 & C2). destruct c.
  - assert (f_lt z y = f_lt z x). { destruct (f_cmp y z Hy Hz) as (d & D1 & D2). destruct (f_cmp x z Hx Hz) as (d' & D1' & D2').
      pose proof (f_eq_lt x y z C1) as A. pose proof (f_eq_lt y x z C2) as A'. unfold f_lt, SFltb in *. rewrite D1, D1' in A. rewrite D2 in H2 |- *. rewrite D2' in L |- *.
      destruct d, d'; cbn in *; try congruence.
      exfalso. clear -C1 D1 D1' D2'. revert C1 D1 D1'. destruct x as [sx|sx| |sx mx ex]; destruct y as [sy|sy| |sy my ey]; cbn [SFcompare]; try discriminate; destruct sx, sy; try discriminate; destruct z as [sz|sz| |sz mz ez]; cbn [SFcompare]; try discriminate; try (destruct sz; discriminate);
      intros H; (destruct (Z.compare_spec ex ey); try discriminate; change (Pcompare mx my Eq) with (mx ?= my)%positive in H; destruct (Pos.compare_spec mx my); try discriminate; subst; congruence). }
    congruence.
  - assert (f_lt z y = true). { eapply f_lt_trans; [exact L|]. unfold f_lt, SFltb. rewrite C1. reflexivity. } congruence.
  - unfold f_lt, SFltb in H1. rewrite C2 in H1. discriminate.
Qed.
Definition no_nan (fs : list float) : Prop := Forall (fun f => f <> S754_nan) fs.
Theorem C54_max_mixed : forall args fs, mixed args fs ->
  exists m, Max args = inl (VFloat m) /\ In m fs /\ (no_nan fs -> forall x, In x fs -> f_le x m = true).
Proof.
  intros args fs Hm. pose proof (kindOfArgs_mixed _ _ Hm) as K. destruct Hm as (F2 & X). destruct args as [|a args]; [inversion X|].
  inversion F2 as [|? f ? fs' Ha F']; subst.
  destruct (extFloat_spec (fun t m => f_lt m t) (fun x y => f_le x y = true) (fun f => f <> S754_nan)) with (args := args) (fs := fs') (m := f) as (r & E & I1 & U); try assumption.
  - intros x Hx. apply f_le_cases; try assumption. destruct (f_cmp x x Hx Hx) as (c & C1 & C2). unfold f_lt, SFltb. rewrite C1 in *. injection C2 as C2. destruct c; try discriminate; reflexivity.
  - intros x y z Hx Hy Hz. apply f_le_trans; assumption.
  - intros x y Hx Hy H. apply f_le_cases; try assumption. destruct (f_lt x y) eqn:L; [|reflexivity].
    destruct (f_cmp x y Hx Hy) as (c & C1 & C2). unfold f_lt, SFltb in *. rewrite C1 in L. rewrite C2 in H. destruct c; discriminate.
  - intros x y Hx Hy H. apply f_le_cases; assumption.
  - exists r. split; [|split; assumption]. unfold Max, extremum. rewrite K. cbn. rewrite (asFloat_number _ _ Ha), E. reflexivity.
Qed.
Theorem C54_min_mixed : forall args fs, mixed args fs ->
  exists m, Min args = inl (VFloat m) /\ In m fs /\ (no_nan fs -> forall x, In x fs -> f_le m x = true).
Proof.
  intros args fs Hm. pose proof (kindOfArgs_mixed _ _ Hm) as K. destruct Hm as (F2 & X). destruct args as [|a args]; [inversion X|].
  inversion F2 as [|? f ? fs' Ha F']; subst.
  destruct (extFloat_spec (fun t m => f_lt t m) (fun x y => f_le y x = true) (fun f => f <> S754_nan)) with (args := args) (fs := fs') (m := f) as (r & E & I1 & U); try assumption.
  - intros x Hx. apply f_le_cases; try assumption. destruct (f_cmp x x Hx Hx) as (c & C1 & C2). unfold f_lt, SFltb. rewrite C1 in *. injection C2 as C2. destruct c; try discriminate; reflexivity.
  - intros x y z Hx Hy Hz A B. apply (f_le_trans z y x); assumption.
  - intros x y Hx Hy H. apply f_le_cases; try assumption. destruct (f_lt y x) eqn:L; [|reflexivity].
    destruct (f_cmp x y Hx Hy) as (c & C1 & C2). unfold f_lt, SFltb in *. rewrite C1 in H. rewrite C2 in L. destruct c; discriminate.
  - intros x y Hx Hy H. apply f_le_cases; assumption.
  - exists r. split; [|split; assumption]. unfold Min, extremum. rewrite K. cbn. rewrite (asFloat_number _ _ Ha), E. reflexivity.
Qed.
(** any other non-empty list panics; the empty one gives the int 0 *)
Lemma kindOfRest_bad : forall args k, k = kInt \/ k = kFloat64 -> Exists (fun v => ~ is_number v) args -> kindOfRest k args = kInvalid.
Proof.
  induction args as [|a args IH]; intros k Hk X; [inversion X|]. cbn.
  assert (N1 : forall z, is_number (VInt z)) by (intros z; exists z; left; reflexivity).
  assert (N2 : forall f, is_number (VFloat f)) by (intros f; exists 0; right; exists f; reflexivity).
  assert (A : (kindOf a = kInt /\ is_number a) \/ (kindOf a = kFloat64 /\ is_number a) \/ (kindOf a =? kInt = false /\ kindOf a =? kFloat64 = false)).
  { destruct a; try (right; right; split; reflexivity); [left; split; [reflexivity|apply N1]|right; left; split; [reflexivity|apply N2]|right; right; destruct k0; split; reflexivity]. }
  destruct A as [(A & N)|[(A & N)|(A & A')]].
  - assert (X' : Exists (fun v => ~ is_number v) args) by (inversion X; [contradiction|assumption]). rewrite A. destruct Hk as [->| ->]; cbn; apply IH; auto.
  - assert (X' : Exists (fun v => ~ is_number v) args) by (inversion X; [contradiction|assumption]). rewrite A. destruct Hk as [->| ->]; cbn; apply IH; auto.
  - destruct Hk as [->| ->]; rewrite A, A'; reflexivity.
Qed.
Lemma kindOfRest_other : forall args k, k <> kInt -> k <> kFloat64 -> kindOfRest k args = k \/ kindOfRest k args = kInvalid.
Proof.
  induction args as [|a args IH]; intros k H1 H2; [left; reflexivity|]. cbn. destruct (kindOf a =? k); [apply IH; assumption|].
  rewrite (proj2 (Z.eqb_neq k kFloat64)), (proj2 (Z.eqb_neq k kInt)) by assumption. right. reflexivity.
Qed.
Theorem C54_other_types : forall args, Exists (fun v => ~ is_number v) args -> panics_fn "max" args (Max args) /\ panics_fn "min" args (Min args).
Proof.
  intros [|a args] X; [inversion X|].
  assert (N1 : forall z, is_number (VInt z)) by (intros z; exists z; left; reflexivity).
  assert (N2 : forall f, is_number (VFloat f)) by (intros f; exists 0; right; exists f; reflexivity).
  assert (K : kindOfArgs (a :: args) =? kInt = false /\ kindOfArgs (a :: args) =? kFloat64 = false).
  { unfold kindOfArgs.
    assert (A : ((kindOf a = kInt \/ kindOf a = kFloat64) /\ is_number a) \/ (kindOf a <> kInt /\ kindOf a <> kFloat64)).
    { destruct a; try (right; split; discriminate); [left; split; [left; reflexivity|apply N1]|left; split; [right; reflexivity|apply N2]|right; destruct k; split; discriminate]. }
    destruct A as [(A & N)|(A & A')].
    - rewrite (kindOfRest_bad args _ A) by (inversion X; [contradiction|assumption]). split; reflexivity.
    - destruct (kindOfRest_other args (kindOf a) A A') as [-> | ->]; split; try reflexivity; apply Z.eqb_neq; assumption. }
  destruct K as (K1 & K2). split; unfold Max, Min, extremum; rewrite K1, K2; reflexivity.
Qed.
Theorem C54_empty : Max [] = inl (VInt 0) /\ Min [] = inl (VInt 0).
Proof. split; reflexivity. Qed.
(** a NaN among the arguments: only the position decides *)
Theorem C54_nan_refuted : let one := VFloat (f_of_int 1) in let nan := VFloat S754_nan in Max [nan; one] = inl nan /\ Max [one; nan] = inl one.
Proof. split; vm_compute; reflexivity. Qed.
(** the rational calculator's max and min *)
Lemma r_best_spec : forall (better : Q -> Q -> bool) (le : Q -> Q -> Prop),
  (forall x, le x x) -> (forall x y z, le x y -> le y z -> le x z) -> (forall x y, better x y = true -> le y x) -> (forall x y, better x y = false -> le x y) ->
  forall l m, exists r, r_best better (Some m) (map Some l) = Some (Some r) /\ extreme le r (m :: l).
Proof.
  intros better le Rf Tr B1 B2. induction l as [|x l IH]; intros m.
  - exists m. split; [reflexivity|]. split; [left; reflexivity|]. intros x [<-|[]]. apply Rf.
  - cbn. destruct (IH (if better x m then x else m)) as (r & E & I1 & U). exists r. split; [destruct (better x m); exact E|]. split.
    + destruct I1 as [<-|I1]; [destruct (better x m); [right; left|left]; reflexivity|right; right; exact I1].
    + intros y [<-|[<-|Iy]].
      * eapply Tr; [|apply U; left; reflexivity]. destruct (better x m) eqn:B; [apply B1; exact B|apply Rf].
      * eapply Tr; [|apply U; left; reflexivity]. destruct (better x m) eqn:B; [apply Rf|apply B2; exact B].
      * apply U. right. exact Iy.
Qed.
Theorem C54_rat_max : forall q l, exists m, r_ext q_gtb (map Some (q :: l)) = Some (Some m) /\ extreme Qle m (q :: l).
Proof.
  intros q l. apply (r_best_spec q_gtb Qle).
  - apply Qle_refl. - apply Qle_trans.
  - intros x y H. unfold q_gtb in H. apply negb_true_iff in H. apply Qlt_le_weak, Qnot_le_lt. intros C. apply Qle_bool_iff in C. congruence.
  - intros x y H. unfold q_gtb in H. apply negb_false_iff in H. apply Qle_bool_iff. exact H.
Qed.
Theorem C54_rat_min : forall q l, exists m, r_ext q_ltb (map Some (q :: l)) = Some (Some m) /\ extreme (fun x y => y <= x)%Q m (q :: l).
Proof.
  intros q l. apply (r_best_spec q_ltb (fun x y => y <= x)%Q).
  - apply Qle_refl. - intros x y z A B. eapply Qle_trans; eassumption.
  - intros x y H. unfold q_ltb in H. apply negb_true_iff in H. apply Qlt_le_weak, Qnot_le_lt. intros C. apply Qle_bool_iff in C. congruence.
  - intros x y H. unfold q_ltb in H. apply negb_false_iff in H. apply Qle_bool_iff. exact H.
Qed.

(** ** C61 *)
(** the table after an Import, also when it panicked (and the panic was recovered) *)
Definition table_after (r : importres) : ftable := match r with IOk ft | IExists ft _ | IBadInit ft => ft end.
(** a history of Imports: each with its mode, the meaning of its _initSafe, its module name and its table, in any order *)
Record import_call : Type := mkImp { i_safe : bool; i_init : value -> option (ftable -> ftable); i_modval : ftable -> value; i_mod : bytes; i_table : ftable }.
Definition do_import (c : import_call) (ft : ftable) : importres := Import (i_safe c) (i_init c) (i_modval c) (i_mod c) (i_table c) ft.
Fixpoint do_imports (h : list import_call) (ft : ftable) : ftable := match h with [] => ft | c :: h' => do_imports h' (table_after (do_import c ft)) end.
(** the symbol [n] is defined and implemented *)
Definition implemented (n : bytes) (v : value) (ft : ftable) : Prop := find n ft = Some v /\ v <> VDummy 1 /\ v <> VDummy 2.

Lemma placeholder_iff : forall v, placeholder v = true <-> v = VDummy 1 \/ v = VDummy 2.
Proof.
  intros v. unfold placeholder. destruct v; cbn; try (split; [discriminate|intros [|]; discriminate]).
  - destruct k; cbn; split; try discriminate; intros [|]; discriminate.
  - destruct n as [|[|[|n]]]; cbn; split; try discriminate; auto; intros [|]; discriminate.
Qed.
Lemma find_filter : forall V n k (t : list (bytes * V)), beq n k = false -> find n (filter (fun e => negb (beq (fst e) k)) t) = find n t.
Proof.
  intros V n k t D. induction t as [|(x, v) t IH]; [reflexivity|]. cbn. destruct (beq x k) eqn:B; cbn.
  - apply beq_eq in B. subst x. rewrite D. exact IH.
  - rewrite IH. reflexivity.
Qed.
Lemma find_set : forall V n k v (t : list (bytes * V)), find n (set_key k v t) = if beq n k then Some v else find n t.
Proof. intros V n k v t. unfold set_key. cbn. destruct (beq n k) eqn:B; [reflexivity|]. apply find_filter. exact B. Qed.
Lemma find_none : forall V n (t : list (bytes * V)), find n t = None <-> ~ In n (map fst t).
Proof.
  intros V n t. induction t as [|(x, v) t IH]; cbn; [split; auto|]. destruct (beq n x) eqn:B.
  - apply beq_eq in B. subst. split; [discriminate|]. intros H. exfalso. apply H. left. reflexivity.
  - rewrite IH. split; [|auto]. intros H [E|H']; [|auto]. subst. rewrite beq_refl in B. discriminate.
Qed.
Lemma import_all_keeps : forall table ft n v, find n ft = Some v -> placeholder v = false -> find n (fst (import_all table ft)) = Some v.
Proof.
  induction table as [|(name, fn) table IH]; intros ft n v F P; [exact F|]. cbn.
  destruct (beq n name) eqn:B.
  - apply beq_eq in B. subst name. rewrite F, P. exact F.
  - assert (K : find n (set_key name fn ft) = Some v) by (rewrite find_set, B; exact F).
    destruct (find name ft) as [old|]; [destruct (placeholder old)|]; try (apply IH; assumption). exact F.
Qed.
Lemma import_all_outside : forall table ft n, ~ In n (map fst table) -> find n (fst (import_all table ft)) = find n ft.
Proof.
  induction table as [|(name, fn) table IH]; intros ft n Hn; [reflexivity|]. cbn.
  assert (B : beq n name = false). { destruct (beq n name) eqn:B; [|reflexivity]. apply beq_eq in B. subst. exfalso. apply Hn. left. reflexivity. }
  assert (Hn' : ~ In n (map fst table)) by (intros H; apply Hn; right; exact H).
  destruct (find name ft) as [old|]; [destruct (placeholder old)|]; try reflexivity; rewrite IH by exact Hn'; rewrite find_set, B; reflexivity.
Qed.
Lemma import_all_none : forall table ft, NoDup (map fst table) ->
  (snd (import_all table ft) = None <-> forall n v, In n (map fst table) -> find n ft = Some v -> placeholder v = true).
Proof.
  induction table as [|(name, fn) table IH]; intros ft N; [split; [intros _ n v []|reflexivity]|]. cbn.
  inversion N as [|? ? Nx N']; subst.
  assert (Step : snd (import_all table (set_key name fn ft)) = None <-> (forall n v, In n (map fst table) -> find n ft = Some v -> placeholder v = true)).
  { rewrite IH by exact N'. split; intros H n v In' F.
    - apply (H n v In'). rewrite find_set. destruct (beq n name) eqn:B; [apply beq_eq in B; subst; contradiction|exact F].
    - rewrite find_set in F. destruct (beq n name) eqn:B; [apply beq_eq in B; subst; contradiction|]. exact (H n v In' F). }
  destruct (find name ft) as [old|] eqn:F; [destruct (placeholder old) eqn:P|].
  - rewrite Step. split; intros H n v.
    + intros [<-|In'] F'; [rewrite F in F'; injection F' as <-; exact P|exact (H n v In' F')].
    + intros In' F'. exact (H n v (or_intror In') F').
  - split; [discriminate|]. intros H. rewrite (H name old (or_introl eq_refl) F) in P. discriminate.
  - rewrite Step. split; intros H n v.
    + intros [<-|In'] F'; [rewrite F in F'; discriminate|exact (H n v In' F')].
    + intros In' F'. exact (H n v (or_intror In') F').
Qed.
Lemma import_all_adds : forall table ft, NoDup (map fst table) -> snd (import_all table ft) = None -> forall n v, In (n, v) table -> find n (fst (import_all table ft)) = Some v.
Proof.
  induction table as [|(name, fn) table IH]; intros ft N E n v Hin; [destruct Hin|]. inversion N as [|? ? Nx N']; subst. cbn in E |- *.
  assert (Step : snd (import_all table (set_key name fn ft)) = None -> find n (fst (import_all table (set_key name fn ft))) = Some v).
  { intros E'. destruct Hin as [[= <- <-]|Hin]; [|exact (IH _ N' E' n v Hin)]. rewrite import_all_outside by exact Nx. rewrite find_set, beq_refl. reflexivity. }
  destruct (find name ft) as [old|]; [destruct (placeholder old)|]; [exact (Step E)|discriminate|exact (Step E)].
Qed.
Lemma import_all_clash : forall table ft n, snd (import_all table ft) = Some n -> NoDup (map fst table) -> In n (map fst table) /\ exists v, find n ft = Some v /\ placeholder v = false.
Proof.
  induction table as [|(name, fn) table IH]; intros ft n E N; [discriminate|]. inversion N as [|? ? Nx N']; subst. cbn in E |- *.
  assert (Step : snd (import_all table (set_key name fn ft)) = Some n -> In n (map fst table) /\ exists v, find n ft = Some v /\ placeholder v = false).
  { intros E'. destruct (IH _ _ E' N') as (I1 & v & F & P). split; [exact I1|]. exists v. split; [|exact P]. rewrite find_set in F.
    destruct (beq n name) eqn:B; [apply beq_eq in B; subst; contradiction|exact F]. }
  destruct (find name ft) as [old|] eqn:F; [destruct (placeholder old) eqn:P|].
  - destruct (Step E) as (I1 & X). split; [right; exact I1|exact X].
  - injection E as <-. split; [left; reflexivity|]. exists old. split; [exact F|exact P].
  - destruct (Step E) as (I1 & X). split; [right; exact I1|exact X].
Qed.
(** the table that is imported: what _initSafe made of it, in SafeMode *)
Definition effective (c : import_call) (table : ftable) : Prop :=
  (i_safe c = true /\ exists v f, find m_initSafe (i_table c) = Some v /\ i_init c v = Some f /\ table = f (i_table c)) \/
  ((i_safe c = false \/ find m_initSafe (i_table c) = None) /\ table = i_table c).
Lemma do_import_eff : forall c ft, (exists table, effective c table) \/ do_import c ft = IBadInit ft.
Proof.
  intros c ft. unfold do_import, Import, effective. destruct (i_safe c); [|left; exists (i_table c); right; auto].
  destruct (find m_initSafe (i_table c)) as [v|] eqn:F; [|left; exists (i_table c); right; auto].
  destruct (i_init c v) as [f|] eqn:G; [left; exists (f (i_table c)); left; eauto 6|right; reflexivity].
Qed.
Lemma do_import_mod : forall c ft table, effective c table -> i_mod c <> [] ->
  do_import c ft = match find (i_mod c) ft with Some _ => IExists ft (i_mod c) | None => IOk (set_key (i_mod c) (i_modval c table) ft) end.
Proof.
  intros c ft table He Hm. unfold do_import, Import. destruct He as [(-> & v & f & -> & -> & ->)|([-> | F] & ->)].
  - destruct (i_mod c); [congruence|reflexivity].
  - destruct (i_mod c); [congruence|reflexivity].
  - rewrite F. destruct (i_safe c); destruct (i_mod c); try congruence; reflexivity.
Qed.
Lemma do_import_all : forall c ft table, effective c table -> i_mod c = [] ->
  do_import c ft = match import_all table ft with (ft', None) => IOk ft' | (ft', Some n) => IExists ft' n end.
Proof.
  intros c ft table He Hm. unfold do_import, Import. rewrite Hm. destruct He as [(-> & v & f & -> & -> & ->)|([-> | F] & ->)]; try reflexivity.
  rewrite F. destruct (i_safe c); reflexivity.
Qed.
Theorem C61_never_replaces : forall history ft n v, implemented n v ft -> implemented n v (do_imports history ft).
Proof.
  induction history as [|c h IH]; intros ft n v H; [exact H|]. cbn. apply IH. clear IH. destruct H as (F & D1 & D2). split; [|split; assumption].
  assert (P : placeholder v = false). { destruct (placeholder v) eqn:P; [|reflexivity]. apply placeholder_iff in P. destruct P; contradiction. }
  destruct (do_import_eff c ft) as [(table & He)| ->]; [|exact F]. destruct (i_mod c) as [|b m] eqn:M.
  - rewrite (do_import_all c ft table He M). pose proof (import_all_keeps table ft n v F P) as K. destruct (import_all table ft) as (ft', [x|]); exact K.
  - rewrite (do_import_mod c ft table He) by congruence. rewrite M. destruct (find (b :: m) ft) as [x|] eqn:G; [exact F|].
    cbn [table_after]. rewrite find_set. destruct (beq n (b :: m)) eqn:B; [|exact F]. apply beq_eq in B. subst. congruence.
Qed.
Theorem C61_others_unchanged : forall c table ft n, effective c table ->
  (i_mod c = [] /\ ~ In n (map fst table)) \/ (i_mod c <> [] /\ n <> i_mod c) -> find n (table_after (do_import c ft)) = find n ft.
Proof.
  intros c table ft n He [(M & Hn)|(M & Hn)].
  - rewrite (do_import_all c ft table He M). pose proof (import_all_outside table ft n Hn) as K. destruct (import_all table ft) as (ft', [x|]); exact K.
  - rewrite (do_import_mod c ft table He M). destruct (find (i_mod c) ft); [reflexivity|]. cbn. change (find n (set_key (i_mod c) (i_modval c table) ft) = find n ft). rewrite find_set.
    destruct (beq n (i_mod c)) eqn:B; [apply beq_eq in B; contradiction|reflexivity].
Qed.
(** with no module name: panics if and only if some symbol of the table exists and is implemented; otherwise all are added *)
Theorem C61_import_all : forall c table ft, effective c table -> i_mod c = [] -> NoDup (map fst table) ->
  ((exists ft' n, do_import c ft = IExists ft' n) <-> exists n v, In n (map fst table) /\ implemented n v ft) /\
  (forall ft' n, do_import c ft = IExists ft' n -> In n (map fst table) /\ exists v, implemented n v ft) /\
  (forall ft', do_import c ft = IOk ft' -> forall n v, In (n, v) table -> find n ft' = Some v) /\
  do_import c ft <> IBadInit ft.
Proof.
  intros c table ft He M N. rewrite (do_import_all c ft table He M).
  assert (NP : forall v, placeholder v = false -> v <> VDummy 1 /\ v <> VDummy 2) by (intros v P; split; intros ->; discriminate).
  pose proof (import_all_none table ft N) as E. pose proof (import_all_adds table ft N) as A. pose proof (fun n H => import_all_clash table ft n H N) as Cl.
  destruct (import_all table ft) as (ft', r). cbn [fst snd] in *. destruct r as [n|]; (split; [|split; [|split]]); try discriminate.
  - split; [|intros _; eauto]. intros _. destruct (Cl n eq_refl) as (I1 & v & F & P). exists n, v. split; [exact I1|]. split; [exact F|apply NP; exact P].
  - intros f' n' [= <- <-]. destruct (Cl n eq_refl) as (I1 & v & F & P). split; [exact I1|]. exists v. split; [exact F|apply NP; exact P].
  - split; [intros (f' & n & [=])|]. intros (n & v & I1 & F & D1 & D2). pose proof (proj1 E eq_refl n v I1 F) as P. apply placeholder_iff in P. destruct P; contradiction.
  - intros f' [= <-]. exact (A eq_refl).
Qed.
(** with a module name: panics if and only if the name exists; otherwise it becomes the module *)
Theorem C61_import_module : forall c table ft, effective c table -> i_mod c <> [] ->
  ((exists v, find (i_mod c) ft = Some v) -> do_import c ft = IExists ft (i_mod c)) /\
  (find (i_mod c) ft = None -> exists ft', do_import c ft = IOk ft' /\ find (i_mod c) ft' = Some (i_modval c table)).
Proof.
  intros c table ft He M. rewrite (do_import_mod c ft table He M). split; [intros (v & ->); reflexivity|]. intros ->.
  eexists. split; [reflexivity|]. rewrite find_set, beq_refl. reflexivity.
Qed.
(** which symbols a panicking Import has added depends on the order of the map *)
Theorem C61_partial_import : exists table table' ft, Permutation table table' /\
  find (s2b "b") (fst (import_all table ft)) = Some (VInt 2) /\ find (s2b "b") (fst (import_all table' ft)) = None /\ snd (import_all table ft) = snd (import_all table' ft).
Proof.
  exists [(s2b "b", VInt 2); (s2b "a", VInt 1)], [(s2b "a", VInt 1); (s2b "b", VInt 2)], [(s2b "a", VInt 0)].
  split; [apply perm_swap|]. repeat split.
Qed.

(** ** C63 *)
Definition in_kind (k : nkind) (z : Z) : Prop :=
  match k with
  | NInt8 => - 2 ^ 7 <= z < 2 ^ 7 | NInt16 => - 2 ^ 15 <= z < 2 ^ 15 | NInt32 => - 2 ^ 31 <= z < 2 ^ 31 | NInt64 => - 2 ^ 63 <= z < 2 ^ 63
  | NUint16 => 0 <= z < 2 ^ 16 | NUint32 => 0 <= z < 2 ^ 32 | NUint | NUint64 | NUintptr => 0 <= z < 2 ^ 64
  end.
(** a result of a Go function: the value and whether its declared type is an interface *)
Definition pushed (outs : list (bool * value)) (v : value) : Prop := ret_value outs = v.
Theorem C63_integers : forall k z, in_kind k z -> exists r, wraps_to z r /\ pushed [(false, VNum k z)] (VInt r) /\ (z < 2 ^ 63 -> r = z).
Proof.
  intros k z Hz. exists (wrap64 z). split; [apply wrap64_wraps|]. split; [destruct k; reflexivity|]. intros L.
  apply (C52_exact_in_range z); [|apply wrap64_wraps]. unfold int64_range. destruct k; cbn [in_kind] in Hz; lia.
Qed.
Theorem C63_floats : forall f, pushed [(false, VFloat32 f)] (VFloat f) /\ pushed [(false, VFloat f)] (VFloat f).
Proof. intros f. split; reflexivity. Qed.
(** a byte does not stay a byte *)
Theorem C63_byte_refuted : forall z, 0 <= z < 256 -> pushed [(false, VByte z)] (VInt z).
Proof. intros z Hz. unfold pushed. cbn. f_equal. apply (C52_exact_in_range z); [unfold int64_range; lia|apply wrap64_wraps]. Qed.
Definition plain (v : value) : Prop := (forall k z, v <> VNum k z) /\ (forall z, v <> VByte z) /\ (forall f, v <> VFloat32 f).
Theorem C63_others_unchanged : forall v, plain v -> pushed [(false, v)] v.
Proof. intros v (H1 & H2 & H3). destruct v; try reflexivity; [destruct (H2 z); reflexivity|destruct (H1 k z); reflexivity|destruct (H3 f); reflexivity]. Qed.
(** nothing is done to a result declared with an interface type, so ints of other kinds and float32s arrive as they are *)
Theorem C63_interface_refuted : forall v, pushed [(true, v)] v.
Proof. intros v. reflexivity. Qed.
Theorem C63_several : forall o1 o2 outs vs, Forall2 (fun o v => pushed [o] v) (o1 :: o2 :: outs) vs -> pushed (o1 :: o2 :: outs) (VSlice TAny vs).
Proof.
  intros o1 o2 outs vs H. unfold pushed.
  assert (E : map (fun o => castVal (fst o) (snd o)) (o1 :: o2 :: outs) = vs).
  { induction H as [|o v l l' Ho _ IH]; [reflexivity|]. cbn. rewrite IH. f_equal. destruct o as (i, x). exact Ho. }
  cbn [map] in E. destruct o1 as (i, x). cbn in E |- *. rewrite E. reflexivity.
Qed.
Theorem C63_none : pushed [] VNil.
Proof. reflexivity. Qed.

(** ** Instances *)
Example C52_add_wraps : wraps_to (2 ^ 63 - 1 + 1) (- 2 ^ 63) /\ Add (VInt (2 ^ 63 - 1)) (VInt 1) = inl (VInt (- 2 ^ 63)).
Proof. split; [split; [unfold int64_range; lia|exists 1; reflexivity]|vm_compute; reflexivity]. Qed.
Example C52_div_ex : truncated (-7) 2 (-3) (-1) /\ Quo (VInt (-7)) (VInt 2) = inl (VInt (-3)) /\ Mod (VInt (-7)) (VInt 2) = inl (VInt (-1)) /\
  Quo (VInt (- 2 ^ 63)) (VInt (-1)) = inl (VInt (- 2 ^ 63)).
Proof. split; [split; [reflexivity|split; [reflexivity|right; reflexivity]]|vm_compute; auto]. Qed.
Example C52_mixed_ex : Add (VInt 1) (VFloat (S754_finite false 4503599627370496 (-53))) = inl (VFloat (S754_finite false 6755399441055744 (-52))).
Proof. vm_compute. reflexivity. Qed.
Example C52_other_ex : ~ (is_number (VByte 1) /\ is_number (VInt 1)) /\ unsupported (Add (VByte 1) (VInt 1)) /\ Add (VStr (s2b "a")) (VStr (s2b "b")) = inl (VStr (s2b "ab")).
Proof. split; [intros ((z & [C|(f & C)]) & _); discriminate|]. split; [eexists; eexists; reflexivity|reflexivity]. Qed.
Example C53_ex : comparable (VStr (s2b "ab")) (VStr (s2b "b")) /\ LT (VStr (s2b "ab")) (VStr (s2b "b")) = yes /\ comparable (VByte 97) (VByte 98) /\
  comparable (VFloat (S754_zero true)) (VFloat (S754_zero false)) /\ EQ (fun _ _ => false) (VFloat (S754_zero true)) (VFloat (S754_zero false)) = yes.
Proof.
  split; [right; right; left; eauto|]. split; [reflexivity|]. split; [right; left; eauto|]. split; [right; right; right; eexists; eexists; repeat split; discriminate|reflexivity].
Qed.
Example C52_message_ex : panics_op1 "++" (VStr (s2b "a")) (Inc (VStr (s2b "a"))) /\ panics_op2 "-" (VBool true) (VInt 1) (Sub (VBool true) (VInt 1)) /\ Not (VBool true) = inl (VBool false).
Proof. repeat split. Qed.
Example C53_equal_ex : let f := mkFunc 1 [] None 0 false in let g := mkFunc 2 [] None 0 false in
  EQ (fun _ _ => true) (VFunc f) (VFunc g) = no /\ EQ (fun _ _ => true) (VFunc f) (VFunc f) = yes /\ EQ (fun _ _ => true) (VFunc f) (VObj 1 (mkClass 1 [])) = no /\
  type_of (VInt 1) <> type_of (VByte 1) /\ EQ (fun _ _ => true) (VInt 1) (VByte 1) = no /\ EQ (fun _ _ => true) (VSlice TInt []) (VSlice TAny []) = no /\
  runtime_error (EQ (fun _ _ => true) (VSlice TInt []) (VSlice TInt [])).
Proof. repeat split; try reflexivity. discriminate. Qed.
Example C54_ex : Max (map VInt [3; 9; -2]) = inl (VInt 9) /\ Min (map VInt [3; 9; -2]) = inl (VInt (-2)) /\
  mixed [VInt 3; VFloat (S754_infinity true); VInt 9] [f_of_int 3; S754_infinity true; f_of_int 9] /\ Max [VInt 3; VFloat (S754_infinity true); VInt 9] = inl (VFloat (f_of_int 9)).
Proof.
  split; [reflexivity|]. split; [reflexivity|]. split; [|vm_compute; reflexivity]. split.
  - constructor; [right; exists 3; auto|]. constructor; [left; reflexivity|]. constructor; [right; exists 9; auto|constructor].
  - right. left. eexists. reflexivity.
Qed.
Example C61_ex : let ft := [(s2b "$add", VDummy 2); (s2b "print", VGo (s2b "print"))] in
  let c := mkImp false (fun _ => None) (fun _ => VOther 0) [] [(s2b "$add", VGo (s2b "Add")); (s2b "len", VGo (s2b "len"))] in
  implemented (s2b "print") (VGo (s2b "print")) ft /\ effective c (i_table c) /\ NoDup (map fst (i_table c)) /\
  (exists ft', do_import c ft = IOk ft' /\ find (s2b "$add") ft' = Some (VGo (s2b "Add"))) /\
  (exists ft', do_import (mkImp false (fun _ => None) (fun _ => VOther 0) [] [(s2b "print", VInt 1)]) ft = IExists ft' (s2b "print")).
Proof.
  split; [split; [reflexivity|split; discriminate]|]. split; [right; auto|]. split; [constructor; [intros [C|[]]; discriminate|constructor; [intros []|constructor]]|].
  split; eexists; [split; reflexivity|reflexivity].
Qed.
Example C63_ex : in_kind NUint64 (2 ^ 64 - 1) /\ pushed [(false, VNum NUint64 (2 ^ 64 - 1))] (VInt (-1)) /\ pushed [(false, VNum NInt8 (-5)); (true, VNum NInt8 (-5)); (false, VStr (s2b "x"))] (VSlice TAny [VInt (-5); VNum NInt8 (-5); VStr (s2b "x")]).
Proof. split; [cbn; lia|]. split; vm_compute; reflexivity. Qed.

Print Assumptions C52_exact_in_range.
Print Assumptions C52_int.
Print Assumptions C52_int_sub.
Print Assumptions C52_int_mul.
Print Assumptions C52_int_div.
Print Assumptions C52_int_div_overflow.
Print Assumptions C52_div_by_zero.
Print Assumptions C52_unary.
Print Assumptions C52_bytes.
Print Assumptions C52_mixed.
Print Assumptions C52_other_types.
Print Assumptions C52_other_types_unary.
Print Assumptions C53_comparison.
Print Assumptions C53_transitive.
Print Assumptions C53_mixed_ints.
Print Assumptions C53_converted.
Print Assumptions C53_byte_int_refuted.
Print Assumptions C53_int_float_refuted.
Print Assumptions C53_nan_refuted.
Print Assumptions C53_other_types.
Print Assumptions C53_types_differ.
Print Assumptions C53_equal.
Print Assumptions C53_uncomparable.
Print Assumptions C54_max_ints.
Print Assumptions C54_min_ints.
Print Assumptions C54_max_mixed.
Print Assumptions C54_min_mixed.
Print Assumptions C54_other_types.
Print Assumptions C54_empty.
Print Assumptions C54_nan_refuted.
Print Assumptions C54_rat_max.
Print Assumptions C54_rat_min.
Print Assumptions C61_never_replaces.
Print Assumptions C61_others_unchanged.
Print Assumptions C61_import_all.
Print Assumptions C61_import_module.
Print Assumptions C61_partial_import.
Print Assumptions C63_integers.
Print Assumptions C63_floats.
Print Assumptions C63_byte_refuted.
Print Assumptions C63_others_unchanged.
Print Assumptions C63_interface_refuted.
Print Assumptions C63_several.
Print Assumptions C63_none.
