(** Property C89: the complex calculator over complex128 (pairs of float64): Gaussian integers up to 2^53 are exact; real, imag and complex.
    Specification: [v_doc] (CalcSpec) over pairs of integers, [holds] (Float53). *)
From Coq Require Import String SpecFloat.
From Verif Require Import Base Token Utf8 Utf8Proofs Scanner ScannerSpec ScannerProofs ScanRun ScanInit ScanObs Tokenize TokenizeProofs PropScan Grammar Matcher Compiler Interp PropInterp
  Calc CalcSpec PropCompiler PropCalc QValue PropValue Float53 CalcSim PropFloat.
Local Open Scope list_scope. Local Open Scope Z_scope.

(** ** Specification: Gaussian integers, given up beyond 2^53 in a literal, a product or a sum *)
Definition gauss : Type := (Z * Z)%type.
Definition gkeep (a b : option Z) : option gauss := match a, b with Some x, Some y => Some (x, y) | _, _ => None end.
Definition okeep (a b : option Z) (op : Z -> Z -> Z) : option Z := match a, b with Some x, Some y => keep (op x y) | _, _ => None end.
Definition g_add (a b : gauss) : option gauss := gkeep (keep (fst a + fst b)) (keep (snd a + snd b)).
Definition g_sub (a b : gauss) : option gauss := gkeep (keep (fst a - fst b)) (keep (snd a - snd b)).
(** (a + b i) (c + d i) = (a c - b d) + (a d + b c) i *)
Definition g_mul (a b : gauss) : option gauss :=
  gkeep (okeep (keep (fst a * fst b)) (keep (snd a * snd b)) Z.sub) (okeep (keep (fst a * snd b)) (keep (snd a * fst b)) Z.add).
Definition imag_lit (s : bytes) : option gauss :=
  if (last s 0 =? 105) && negb (length (removelast s) =? 0)%nat && all_digits (removelast s) then gkeep (Some 0) (keep (ScannerSpec.value 10 (removelast s))) else None.
Definition gauss_lits : list (Z * (bytes -> option gauss)) := [(INT, fun s => gkeep (keep (go_int s)) (Some 0)); (IMAG, imag_lit)].
Definition n_real : bytes := Eval vm_compute in s2b "real".
Definition n_imag : bytes := Eval vm_compute in s2b "imag".
Definition n_complex : bytes := Eval vm_compute in s2b "complex".
Definition n_conj : bytes := Eval vm_compute in s2b "conj".
Definition n_rect : bytes := Eval vm_compute in s2b "rect".
Definition gauss_call (f : bytes) (vs : list gauss) : option gauss :=
  if beq f n_real then match vs with [a] => Some (fst a, 0) | _ => None end
  else if beq f n_imag then match vs with [a] => Some (snd a, 0) | _ => None end
  else if beq f n_conj then match vs with [a] => Some (fst a, - snd a) | _ => None end
  else if beq f n_complex then match vs with [a; b] => if (snd a =? 0) && (snd b =? 0) then Some (fst a, fst b) else None | _ => None end
  else None.
Definition gauss_value : list token -> option gauss -> Prop :=
  v_doc gauss_lits [(MUL, g_mul)] [(ADD, g_add); (SUB, g_sub)] (fun a => Some (- fst a, - snd a)) gauss_call.

(** ** complex128 *)
Definition complex : Type := (float * float)%type.
(** cmplx.go:39-57: the operators of the language on complex128.  Division (cmplx.go:47-49) is a parameter;
    products are rounded before they are added (Go allows to fuse them on some processors). *)
Definition c_neg (a : complex) : complex := (f_neg (fst a), f_neg (snd a)).
Definition c_add (a b : complex) : complex := (f_add (fst a) (fst b), f_add (snd a) (snd b)).
Definition c_sub (a b : complex) : complex := (f_sub (fst a) (fst b), f_sub (snd a) (snd b)).
Definition c_mul (a b : complex) : complex :=
  (f_sub (f_mul (fst a) (fst b)) (f_mul (snd a) (snd b)), f_add (f_mul (fst a) (snd b)) (f_mul (snd a) (fst b))).
Definition zero : float := S754_zero false.
(** complex(v, 0), complex(0, v): cmplx.go:109-118 *)
Definition c_real (v : float) : complex := (v, zero).
Definition c_imag (v : float) : complex := (zero, v).
(** x != 0 *)
Definition non0 (x : float) : bool := negb (f_eq x zero).
(** cmplx.go:208-209 *)
Definition c_to_int (a : complex) : option Z := if non0 (snd a) then None else Some (f_int (fst a)).
(** cmplx.go:72-87 *)
Definition Real (a : complex) : complex := c_real (fst a).
Definition Imag (a : complex) : complex := c_real (snd a).
Definition Complex (a b : complex) : option complex := if non0 (snd a) || non0 (snd b) then None else Some (fst a, fst b).
(** cmplx.go:63-68; [polar]: math/cmplx.Rect *)
Definition Rect (polar : float -> float -> complex) (a b : complex) : option complex := if non0 (snd a) || non0 (snd b) then None else Some (polar (fst a) (fst b)).
(** math/cmplx.Conj *)
Definition Conj (a : complex) : complex := (fst a, f_neg (snd a)).
(** cmplx.go:228-270: the functions modelled; the others of package math/cmplx are any functions [mathlib] *)
Definition c_lib (polar : float -> float -> complex) (mathlib : bytes -> option (libfn complex)) (name : bytes) : option (libfn complex) :=
  if beq name n_real then Some (lib1 (fun a => Some (Real a))) else if beq name n_imag then Some (lib1 (fun a => Some (Imag a)))
  else if beq name n_conj then Some (lib1 (fun a => Some (Conj a))) else if beq name n_complex then Some (lib2 Complex)
  else if beq name n_rect then Some (lib2 (Rect polar)) else mathlib name.

(** ** Gaussian integers *)
Definition gholds (c : complex) (g : gauss) : Prop := holds (fst c) (fst g) /\ holds (snd c) (snd g).
Definition gsmall (g : gauss) : Prop := small (fst g) /\ small (snd g).
Definition grel (a : option gauss) (a' : option complex) : Prop := forall g, a = Some g -> gsmall g /\ exists c, a' = Some c /\ gholds c g.
Lemma gkeep_some : forall a b g, gkeep a b = Some g -> exists x y, a = Some x /\ b = Some y /\ g = (x, y).
Proof. intros [x|] [y|] g; cbn; try discriminate. intros [= <-]. eauto. Qed.
Lemma okeep_some : forall a b op z, okeep (keep a) (keep b) op = Some z -> z = op a b /\ small a /\ small b /\ small z.
Proof.
  intros a b op z. unfold okeep. destruct (keep a) as [x|] eqn:A; [|discriminate]. destruct (keep b) as [y|] eqn:B; [|discriminate].
  apply keep_some in A. apply keep_some in B. destruct A as (-> & SA), B as (-> & SB). intro H. apply keep_some in H. destruct H as (-> & S). auto.
Qed.
Lemma grel_op2 : forall (op : gauss -> gauss -> option gauss) (fop : complex -> complex -> complex),
  (forall c d a b g, gsmall a -> gsmall b -> gholds c a -> gholds d b -> op a b = Some g -> gsmall g /\ gholds (fop c d) g) ->
  forall a b a' b', grel a a' -> grel b b' -> grel (opt2 op a b) (opt2 (yes2 fop) a' b').
Proof.
  intros op fop H a b a' b' Ra Rb g E. destruct a as [a|]; [|discriminate]. destruct b as [b|]; [|discriminate]. destruct (Ra a eq_refl) as (Sa & c & -> & Hc). destruct (Rb b eq_refl) as (Sb & d & -> & Hd).
  cbn in E. destruct (H c d a b g Sa Sb Hc Hd E) as (Sg & Hg). split; [exact Sg|]. exists (fop c d). auto.
Qed.
Lemma gmul_sim : forall c_quo, sim2 grel [(MUL, g_mul)] (cmplx_mulv c_mul c_quo).
Proof.
  intros c_quo k op [[= <- <-]|[]]; eexists; (split; [cbn; eauto|]); apply grel_op2; intros c d a b g (Sa1 & Sa2) (Sb1 & Sb2) (Hc1 & Hc2) (Hd1 & Hd2) E.
  apply gkeep_some in E. destruct E as (x & y & Ex & Ey & ->). apply okeep_some in Ex. apply okeep_some in Ey. destruct Ex as (-> & X1 & X2 & X3), Ey as (-> & Y1 & Y2 & Y3).
  split; [split; assumption|]. split; cbn [fst snd c_mul].
  - apply holds_sub; try assumption; apply holds_mul; assumption.
  - apply holds_add; try assumption; apply holds_mul; assumption.
Qed.
Lemma gadd_sim : sim2 grel [(ADD, g_add); (SUB, g_sub)] (cmplx_addv c_add c_sub).
Proof.
  intros k op [[= <- <-]|[[= <- <-]|[]]]; eexists; (split; [cbn; eauto|]); apply grel_op2; intros c d a b g (Sa1 & Sa2) (Sb1 & Sb2) (Hc1 & Hc2) (Hd1 & Hd2) E;
    apply gkeep_some in E; destruct E as (x & y & Ex & Ey & ->); apply keep_some in Ex; apply keep_some in Ey; destruct Ex as (-> & X), Ey as (-> & Y); (split; [split; assumption|]); split; cbn [fst snd c_add c_sub].
  - apply holds_add; assumption.
  - apply holds_add; assumption.
  - apply holds_sub; assumption.
  - apply holds_sub; assumption.
Qed.
Lemma non0_holds : forall f z, small z -> holds f z -> non0 f = negb (z =? 0).
Proof.
  intros f z S H. unfold non0, f_eq, SFeqb. rewrite (holds_compare f zero z 0 S) by (try assumption; try apply holds_zero; unfold small; lia). f_equal. unfold Z.eqb. destruct z; reflexivity.
Qed.
Lemma gall_sim : forall vs vs' gs, Forall2 grel vs vs' -> all_some vs = Some gs -> exists cs, all_some vs' = Some cs /\ Forall2 gholds cs gs /\ Forall gsmall gs.
Proof.
  intros vs vs' gs H. revert gs. induction H as [|a a' l l' R _ IH]; intros gs E; cbn [all_some] in *; [injection E as <-; exists []; auto|].
  destruct a as [a|]; [|discriminate]. destruct (all_some l) as [xs|]; [|discriminate]. injection E as <-. destruct (R a eq_refl) as (S & f & -> & Hf). destruct (IH xs eq_refl) as (fs & -> & F2 & FS).
  exists (f :: fs). auto.
Qed.
Lemma small0 : small 0.
Proof. unfold small. cbn. lia. Qed.
Lemma gcall_sim : forall polar mathlib f vs vs', Forall2 grel vs vs' -> grel (callv gauss_call f vs) (callv (call_in (c_lib polar mathlib)) f vs').
Proof.
  intros polar mathlib f vs vs' H g E. unfold callv in *. destruct (all_some vs) as [gs|] eqn:Ev; [|discriminate]. destruct (gall_sim vs vs' gs H Ev) as (cs & -> & F2 & FS).
  unfold gauss_call in E. unfold call_in, c_lib. pose proof small0 as S0.
  destruct (beq f n_real); [|destruct (beq f n_imag); [|destruct (beq f n_conj); [|destruct (beq f n_complex); [|discriminate]]]].
  - destruct F2 as [|x a cs gs (Hx1 & Hx2) F2]; [discriminate|]. destruct F2; [|discriminate]. injection E as <-. inversion FS as [|? ? (S1 & S2) _]; subst. split; [split; assumption|]. eexists. split; [reflexivity|]. split; [exact Hx1|apply holds_zero].
  - destruct F2 as [|x a cs gs (Hx1 & Hx2) F2]; [discriminate|]. destruct F2; [|discriminate]. injection E as <-. inversion FS as [|? ? (S1 & S2) _]; subst. split; [split; assumption|]. eexists. split; [reflexivity|]. split; [exact Hx2|apply holds_zero].
  - destruct F2 as [|x a cs gs (Hx1 & Hx2) F2]; [discriminate|]. destruct F2; [|discriminate]. injection E as <-. inversion FS as [|? ? (S1 & S2) _]; subst. split; [split; [exact S1|unfold small in *; cbn [snd]; lia]|]. eexists. split; [reflexivity|]. split; [exact Hx1|apply holds_neg; assumption].
  - destruct F2 as [|x a cs gs (Hx1 & Hx2) F2]; [discriminate|]. destruct F2 as [|y b cs gs (Hy1 & Hy2) F2]; [discriminate|]. destruct F2; [|discriminate]. destruct (Z.eqb_spec (snd a) 0) as [Za|]; [|discriminate]. destruct (Z.eqb_spec (snd b) 0) as [Zb|]; [|discriminate].
    injection E as <-. inversion FS as [|? ? (S1 & S2) FS']; subst. inversion FS' as [|? ? (T1 & T2) _]; subst. split; [split; assumption|].
    exists (fst x, fst y). split; [|split; assumption]. cbn. unfold Complex. rewrite (non0_holds _ _ S2 Hx2), (non0_holds _ _ T2 Hy2), Za, Zb. reflexivity.
Qed.

Section Cmplx.
Context {X : Type}.
Variable c_quo : complex -> complex -> complex.
Variable polar : float -> float -> complex.
Variable mathlib : bytes -> option (libfn complex).
Hypothesis mathlib_ok : forall name l, mathlib name = Some l -> l_variadic l = true -> l_arity l <> 0%nat.
Variable to_float : val float X unit complex -> float.
Variable parse_float : bytes -> float + nerr.
Hypothesis Hparse : reads_digits parse_float.
Variables isL isD : Z -> bool.
(** strconv.ParseFloat with its error ignored: on an error the value is what it is *)
Variable on_error : bytes -> float.
Definition anyway (s : bytes) : float := match parse_float s with inl v => v | inr _ => on_error s end.
Notation lib := (c_lib polar mathlib).
Notation cc := (@cmplx float X complex c_neg c_mul c_quo c_add c_sub c_real c_imag f_of_int c_to_int lib anyway).
Notation value := (v_doc (cmplx_lits c_real c_imag f_of_int anyway parse_float) (cmplx_mulv c_mul c_quo) (cmplx_addv c_add c_sub) (fun a => Some (c_neg a)) (call_in lib)).

Lemma clib_ok : forall name l, lib name = Some l -> l_variadic l = true -> l_arity l <> 0%nat.
Proof.
  intros name l. unfold c_lib. repeat match goal with |- context [if ?b then _ else _] => destruct b; [intros [= <-]; intros; cbn in *; congruence|] end. apply mathlib_ok.
Qed.
Lemma c_int_exact : forall n, 0 <= n < 2 ^ 53 -> c_to_int (c_real (f_of_int n)) = Some n.
Proof. intros n H. unfold c_to_int. cbn [snd fst c_real]. replace (non0 zero) with false by reflexivity. f_equal. apply holds_f_int; [unfold small; lia|apply holds_int]. Qed.
Lemma imag_value : forall s g, imag_lit s = Some g -> s <> [] /\ gsmall g /\ gholds (c_imag (anyway (removelast s))) g.
Proof.
  intros s g. unfold imag_lit. destruct ((last s 0 =? 105) && negb (length (removelast s) =? 0)%nat && all_digits (removelast s)) eqn:C; [|discriminate].
  apply andb_true_iff in C. destruct C as (C & D). apply andb_true_iff in C. destruct C as (_ & N). intro E. apply gkeep_some in E. destruct E as (x & y & [= <-] & Ey & ->). apply keep_some in Ey. destruct Ey as (-> & S).
  assert (D' : Forall digit (removelast s)). { apply Forall_forall. intros b Hb. unfold all_digits in D. rewrite forallb_forall in D. specialize (D b Hb). unfold digit. lia. }
  split; [intros ->; discriminate|]. split; [split; [apply small0|exact S]|]. split; [apply holds_zero|]. unfold anyway. rewrite Hparse; [apply holds_int| |exact D'|unfold small in S; cbn [snd] in S; lia].
  intros Z0. rewrite Z0 in N. discriminate.
Qed.
Lemma glits_sim : forall k op t, In (k, op) gauss_lits -> kind_is k t -> int_token t \/ tkind t <> INT ->
  exists k' fop, In (k', fop) (cmplx_lits c_real c_imag f_of_int anyway parse_float) /\ kind_is k' t /\ grel (op (tlit t)) (fop (tlit t)).
Proof.
  intros k op t [[= <- <-]|[[= <- <-]|[]]] K Ht.
  - destruct (lits_sim (fun _ => None) parse_float Hparse INT _ t (or_introl eq_refl) K Ht) as (k' & fop & [[= <- <-]|[[= <- <-]|[]]] & K' & R).
    + exists FLOAT. eexists. split; [left; reflexivity|]. split; [exact K'|]. intros g E. apply gkeep_some in E. destruct E as (x & y & Ex & [= <-] & ->).
      destruct (R x Ex) as (S & f & Ef & Hf). split; [split; [exact S|apply small0]|]. destruct (ParseFloat f_of_int parse_float (tlit t)) as [[v|]|]; try discriminate. injection Ef as ->. eexists. split; [reflexivity|]. split; [exact Hf|apply holds_zero].
    + exfalso. destruct K as [K|(_ & D)]; [|discriminate D]. destruct K' as [K'|(_ & D)]; [|discriminate D]. rewrite K in K'. discriminate K'.
  - exists IMAG. eexists. split; [right; left; reflexivity|]. split; [exact K|]. intros g E. destruct (imag_value _ _ E) as (N & S & H). split; [exact S|]. exists (c_imag (anyway (removelast (tlit t)))). split; [|exact H]. destruct (tlit t); [contradiction|reflexivity].
Qed.

(** A text whose tokens are an expression of Gaussian integers evaluates to its value, exactly, as long as no part, product or sum exceeds 2^53. *)
Theorem C89_gauss : forall old0 root d, engine cc to_float isL isD old0 cmplx_grammar root d ->
  forall old src s ts eof, Forall byte src -> Tokenize isL isD false false (d_tk d) old src = TzOk ts eof -> fits ts ->
  forall a b, gauss_value ts (Some (a, b)) ->
  exists re im k s', Eval cc to_float f_of_int parse_float isL isD root d k old src s = MNil s' /\ fst (Ret (ust s')) = Some (re, im) /\ holds re a /\ holds im b.
Proof.
  intros old0 root d HE old src s ts eof Hb Ht Hf a b Hz.
  pose proof (cmplx_engine c_neg c_mul c_quo c_add c_sub c_real c_imag f_of_int c_to_int lib anyway to_float isL isD old0 root d HE) as (_ & _ & Htk).
  assert (HP : Forall (fun t => int_token t \/ tkind t <> INT) ts).
  { apply Forall_forall. intros t Hi. destruct (Z.eq_dec (tkind t) INT) as [K|K]; [left|right; exact K]. exists isL, isD, false, false, (d_tk d), old, src, ts, eof. auto 10. }
  destruct (sim gauss_lits [(MUL, g_mul)] [(ADD, g_add); (SUB, g_sub)] (fun a => Some (- fst a, - snd a)) gauss_call
    (cmplx_lits c_real c_imag f_of_int anyway parse_float) (cmplx_mulv c_mul c_quo) (cmplx_addv c_add c_sub) (fun a => Some (c_neg a)) (call_in lib)
    (fun t => int_token t \/ tkind t <> INT) grel glits_sim (gmul_sim c_quo) gadd_sim) with (ts := ts) (r := Some (a, b)) as (r' & V & R); try assumption.
  - intros x x' R g E. destruct x as [x|]; [|discriminate]. injection E as <-. destruct (R x eq_refl) as ((S1 & S2) & c & -> & H1 & H2). split; [split; unfold small in *; cbn [fst snd]; lia|]. eexists. split; [reflexivity|]. split; apply holds_neg; assumption.
  - apply gcall_sim.
  - destruct (R (a, b) eq_refl) as (_ & (re & im) & -> & H1 & H2).
    destruct (C40_cmplx c_neg c_mul c_quo c_add c_sub c_real c_imag f_of_int c_to_int lib anyway to_float parse_float isL isD c_int_exact clib_ok old0 root d HE old src s ts eof Ht Hf) as (C & _).
    destruct (proj1 (C (re, im)) V) as (k & s' & E1 & _ & E2). exists re, im, k, s'. auto.
Qed.

(** ** real, imag, complex, rect on any expressions *)
(** the tokens f ( xs ) and f ( xs , ys ) *)
Definition call1 (f : bytes) (xs ts : list token) : Prop :=
  exists t l r, ts = t :: l :: xs ++ [r] /\ tkind t = IDENT /\ tlit t = f /\ tkind l = LPAREN /\ tkind r = RPAREN.
Definition call2 (f : bytes) (xs ys ts : list token) : Prop :=
  exists t l c r, ts = t :: l :: xs ++ (c :: ys) ++ [r] /\ tkind t = IDENT /\ tlit t = f /\ tkind l = LPAREN /\ tkind c = COMMA /\ tkind r = RPAREN.
Notation factor := (v_factor (cmplx_lits c_real c_imag f_of_int anyway parse_float) (cmplx_mulv c_mul c_quo) (cmplx_addv c_add c_sub) (fun a => Some (c_neg a)) (call_in lib)).
Lemma value_factor : forall ts r, factor ts r -> value ts r.
Proof. intros ts r H. rewrite <- (app_nil_r ts). eapply V_doc; [|constructor]. rewrite <- (app_nil_r ts). eapply V_term; [exact H|constructor]. Qed.
Lemma value_call1 : forall f xs ts a, call1 f xs ts -> value xs a -> value ts (callv (call_in lib) f [a]).
Proof.
  intros f xs ts a (t & l & r & -> & K & <- & Kl & Kr) V. apply value_factor. rewrite <- (app_nil_r xs). apply V_call; try assumption. constructor.
Qed.
Lemma value_call2 : forall f xs ys ts a b, call2 f xs ys ts -> value xs a -> value ys b -> value ts (callv (call_in lib) f [a; b]).
Proof.
  intros f xs ys ts a b (t & l & c & r & -> & K & <- & Kl & Kc & Kr) V W. apply value_factor. rewrite app_assoc. apply V_call; try assumption. rewrite <- (app_nil_r ys). apply V_more; [assumption|assumption|constructor].
Qed.

(** complex(real(x), imag(y)) for two expressions with the value v has the value v, bit for bit: zeros keep their signs, infinities and NaN are kept *)
Theorem C89_parts : forall old0 root d, engine cc to_float isL isD old0 cmplx_grammar root d ->
  forall old src s ts eof, Tokenize isL isD false false (d_tk d) old src = TzOk ts eof -> fits ts ->
  forall xs ys us vs v, value xs (Some v) -> value ys (Some v) -> call1 n_real xs us -> call1 n_imag ys vs -> call2 n_complex us vs ts ->
  exists k s', Eval cc to_float f_of_int parse_float isL isD root d k old src s = MNil s' /\ fst (Ret (ust s')) = Some v.
Proof.
  intros old0 root d HE old src s ts eof Ht Hf xs ys us vs v Vx Vy C1 C2 C3.
  destruct (C40_cmplx c_neg c_mul c_quo c_add c_sub c_real c_imag f_of_int c_to_int lib anyway to_float parse_float isL isD c_int_exact clib_ok old0 root d HE old src s ts eof Ht Hf) as (C & _).
  pose proof (value_call2 _ _ _ _ _ _ C3 (value_call1 _ _ _ _ C1 Vx) (value_call1 _ _ _ _ C2 Vy)) as V. destruct v as (re & im). cbn in V. destruct (proj1 (C (re, im)) V) as (k & s' & E & _ & R). eauto.
Qed.
(** complex(x, y) and rect(x, y) raise a RuntimeError if a part that has to be real is not (NaN included), and are defined otherwise *)
Theorem C89_real_arguments : forall old0 root d, engine cc to_float isL isD old0 cmplx_grammar root d ->
  forall old src s ts eof, Tokenize isL isD false false (d_tk d) old src = TzOk ts eof -> fits ts ->
  forall f op xs ys a b c e, (f = n_complex /\ op = pair) \/ (f = n_rect /\ op = polar) -> value xs (Some (a, b)) -> value ys (Some (c, e)) -> call2 f xs ys ts ->
  let is0 x := x = S754_zero true \/ x = S754_zero false in
  (is0 b /\ is0 e -> exists k s', Eval cc to_float f_of_int parse_float isL isD root d k old src s = MNil s' /\ fst (Ret (ust s')) = Some (op a c)) /\
  (~ (is0 b /\ is0 e) -> exists k er w s', Eval cc to_float f_of_int parse_float isL isD root d k old src s = MPanic (PUser (PvRuntime er w)) s').
Proof.
  intros old0 root d HE old src s ts eof Ht Hf f op xs ys a b c e Hop Vx Vy C2 is0.
  destruct (C40_cmplx c_neg c_mul c_quo c_add c_sub c_real c_imag f_of_int c_to_int lib anyway to_float parse_float isL isD c_int_exact clib_ok old0 root d HE old src s ts eof Ht Hf) as (C & N).
  pose proof (value_call2 _ _ _ _ _ _ C2 Vx Vy) as V.
  assert (Z0 : forall x, (non0 x = false /\ is0 x) \/ (non0 x = true /\ ~ is0 x)).
  { intros [[]|[]| |[] m n]; unfold is0; try (left; split; [reflexivity|auto]; fail); right; (split; [reflexivity|intros [D|D]; discriminate]). }
  assert (V' : value ts (if non0 b || non0 e then None else Some (op a c))).
  { destruct Hop as [(-> & ->)|(-> & ->)]; exact V. }
  destruct (Z0 b) as [(Eb & Ib)|(Eb & Ib)], (Z0 e) as [(Ee & Ie)|(Ee & Ie)]; rewrite Eb, Ee in V'; cbn [orb] in V'; (split; [intros (A & B); try contradiction|intro A; try (exfalso; tauto)]); try (apply N; exact V').
  destruct (proj1 (C _) V') as (k & s' & E & _ & R). eauto.
Qed.
End Cmplx.

(** ** Facts about complex128 on which programs rely, and some on which they cannot *)
(** conj, real and imag of any complex value *)
Theorem C89_conj : forall a, Conj (Conj a) = a /\ Real (Conj a) = Real a /\ Imag (Conj a) = (f_neg (snd a), zero).
Proof. intros (x & y). unfold Conj, Real, Imag, c_real. cbn [fst snd]. split; [|auto]. f_equal. destruct y as [[]|[]| |[] m e]; reflexivity. Qed.
(** a + b*1i is not complex(a, b): a zero loses its sign and an infinity gives NaN *)
Theorem C89_parts_refuted :
  c_add (c_real zero) (c_mul (c_real (S754_zero true)) (c_imag (f_of_int 1))) <> (zero, S754_zero true) /\
  c_add (c_real zero) (c_mul (c_real (S754_infinity false)) (c_imag (f_of_int 1))) <> (zero, S754_infinity false).
Proof. split; vm_compute; discriminate. Qed.

(** ** Instances *)
Definition cc89 : calc float unit complex := cmplx c_neg c_mul (fun a _ => a) c_add c_sub c_real c_imag f_of_int c_to_int (c_lib pair (fun _ => None)) (anyway parse88 (fun _ => zero)).
Definition run89 (src : string) : option (option complex) :=
  match Cl (cmarker cc89 (fun _ => S754_nan)) ex_isL ex_isL 200 (AutoKw new_akw) PropScan.fresh tt cmplx_grammar with
  | ClOk root d =>
      match Eval cc89 (fun _ => S754_nan) f_of_int parse88 ex_isL ex_isL root d 2000 PropScan.fresh (s2b src) (mkSt (fun _ => 0) (mkE 0 tt [] tt)) with
      | MNil s => Some (fst (Ret (ust s)))
      | MPanic _ _ => Some None
      | _ => None
      end
  | _ => None
  end.
Example C89_instance : run89 "(1 + 2i) * (3 - 4i) + conj(5i)" = Some (Some (f_of_int 11, f_of_int (-3))) /\ run89 "complex(real(2-7i), imag(2-7i))" = Some (Some (f_of_int 2, f_of_int (-7))) /\
  run89 "complex(1i, 2)" = Some None /\ run89 "rect(1, 2)" = Some (Some (f_of_int 1, f_of_int 2)) /\ run89 "010i + 010" = Some (Some (f_of_int 8, f_of_int 10)).
Proof. vm_compute. auto. Qed.
(** 2 * 3i *)
Example C89_instance_value : gauss_value [tok88 INT "2"; tok88 MUL ""; tok88 IMAG "3i"] (Some (0, 6)).
Proof.
  enough (V : exists r, gauss_value (([tok88 INT "2"] ++ (tok88 MUL "" :: [tok88 IMAG "3i"] ++ [])) ++ []) r /\ r = Some (0, 6)) by (destruct V as (r & V & ->); exact V).
  eexists. split; [|shelve]. eapply V_doc; [|apply V_add0]. eapply V_term; [eapply (V_lit _ _ _ _ _ INT); [left; reflexivity|left; reflexivity]|]. eapply V_mul; [left; reflexivity| |apply V_mul0].
  eapply (V_lit _ _ _ _ _ IMAG); [right; left; reflexivity|left; reflexivity].
  Unshelve. vm_compute. reflexivity.
Qed.

Print Assumptions C89_gauss.
Print Assumptions C89_parts.
Print Assumptions C89_real_arguments.
Print Assumptions C89_conj.
Print Assumptions C89_parts_refuted.
