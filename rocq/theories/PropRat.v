(** Property C90: the rational calculator is exact: whatever the size of the numbers, an expression of decimal literals evaluates to its
    mathematical value in lowest terms, or fails where that value does not exist; and it agrees with the number and the complex
    calculator on integers.
    Specification: [v_doc] (CalcSpec) over the rational numbers of Coq's library, where equality is [==]. *)
From Coq Require Import String SpecFloat QArith Qabs Qminmax Qreduction.
From Verif Require Import Base Token Utf8 Utf8Proofs Scanner ScannerSpec ScannerProofs ScanRun ScanInit ScanObs Tokenize TokenizeProofs PropScan Grammar Matcher Compiler Interp PropInterp
  Calc CalcSpec PropCompiler PropCalc QValue PropValue Float53 CalcSim PropFloat PropCmplx.
Local Open Scope list_scope. Local Open Scope Z_scope.

(** ** Specification *)
Definition decimals (t : token) : Prop := tkind t = INT -> tlit t <> [] /\ Forall digit (tlit t).
Definition exact_lits : list (Z * (bytes -> option Q)) := [(INT, fun s => Some (inject_Z (ScannerSpec.value 10 s)))].
Definition exact_muls : list (Z * (Q -> Q -> option Q)) :=
  [(MUL, fun a b => Some (a * b)%Q); (QUO, fun a b => if Qeq_bool b 0 then None else Some (a / b)%Q)].
Definition exact_adds : list (Z * (Q -> Q -> option Q)) := [(ADD, fun a b => Some (a + b)%Q); (SUB, fun a b => Some (a - b)%Q)].
Definition n_inv : bytes := Eval vm_compute in s2b "inv".
Definition n_num : bytes := Eval vm_compute in s2b "num".
Definition n_denom : bytes := Eval vm_compute in s2b "denom".
(** numerator and denominator are those of the fraction in lowest terms ([C90_lowest]) *)
Definition exact_call (f : bytes) (vs : list Q) : option Q :=
  if beq f n_max then Some (match vs with [] => 0%Q | a :: l => fold_left Qmax l a end)
  else if beq f n_min then Some (match vs with [] => 0%Q | a :: l => fold_left Qmin l a end)
  else match vs with
  | [a] => if beq f n_abs then Some (Qabs a)
           else if beq f n_inv then (if Qeq_bool a 0 then None else Some (/ a)%Q)
           else if beq f n_num then Some (inject_Z (Qnum (Qred a)))
           else if beq f n_denom then Some (inject_Z (Zpos (Qden (Qred a))))
           else None
  | _ => None
  end.
Definition exact_value : list token -> option Q -> Prop := v_doc exact_lits exact_muls exact_adds (fun a => Some (- a)%Q) exact_call.
Definition lowest (q : Q) : Prop := Z.gcd (Qnum q) (Zpos (Qden q)) = 1.

(** ** Lowest terms *)
Lemma lowest_red : forall q, lowest (Qred q).
Proof.
  intros [n d]. unfold lowest, Qred. pose proof (Z.ggcd_gcd n (Zpos d)) as G1. pose proof (Z.ggcd_correct_divisors n (Zpos d)) as G2.
  destruct (Z.ggcd n (Zpos d)) as (g, (aa, bb)). cbn [fst snd] in *. destruct G2 as (En & Ed).
  assert (Hg : 0 < g). { pose proof (Z.gcd_nonneg n (Zpos d)). assert (g <> 0) by (intros ->; rewrite Z.mul_0_l in Ed; discriminate). lia. }
  assert (Hb : 0 < bb) by nia. cbn [Qnum Qden]. rewrite Z2Pos.id by exact Hb.
  rewrite En, Ed, Z.gcd_mul_mono_l in G1. rewrite Z.abs_eq in G1 by lia. nia.
Qed.
Lemma red_lowest : forall q, Qred (Qred q) = Qred q.
Proof. intro q. apply Qred_complete, Qred_correct. Qed.
Lemma red_int : forall n, Qred (inject_Z n) = inject_Z n.
Proof.
  intro n. unfold Qred, inject_Z. pose proof (Z.ggcd_gcd n 1) as G1. pose proof (Z.ggcd_correct_divisors n 1) as G2. destruct (Z.ggcd n 1) as (g, (aa, bb)). cbn [fst] in G1.
  rewrite Z.gcd_1_r in G1. subst g. destruct G2 as (G2 & G3). rewrite Z.mul_1_l in G2, G3. subst aa bb. reflexivity.
Qed.

(** ** The two ways to calculate *)
Definition rrel (a : option Q) (a' : option rat) : Prop :=
  match a with None => a' = None | Some q => exists q', a' = Some (Some q') /\ (q' == q)%Q /\ Qred q' = q' end.
Definition rrel' (a' : option rat) (a : option Q) : Prop := rrel a a'.
Lemma rrel_red : forall p q, (p == q)%Q -> rrel (Some q) (Some (Some (Qred p))).
Proof. intros p q E. exists (Qred p). split; [reflexivity|]. split; [rewrite Qred_correct; exact E|apply red_lowest]. Qed.
Lemma op2_rel : forall (op : Q -> Q -> option Q) (rop : rat -> rat -> option rat), (forall x y a b, (x == a)%Q -> (y == b)%Q -> rrel (op a b) (rop (Some x) (Some y))) ->
  forall a b a' b', rrel a a' -> rrel b b' -> rrel (opt2 op a b) (opt2 rop a' b').
Proof.
  intros op rop H a b a' b' Ra Rb. destruct a as [a|]; cbn in Ra; [|subst a'; reflexivity]. destruct Ra as (x & -> & Ex & _). destruct b as [b|]; cbn in Rb; [|subst b'; reflexivity].
  destruct Rb as (y & -> & Ey & _). apply H; assumption.
Qed.
Lemma zero_eq : forall x a, (x == a)%Q -> Qeq_bool x 0 = Qeq_bool a 0.
Proof. intros x a E. apply eq_true_iff_eq. rewrite !Qeq_bool_iff. rewrite E. reflexivity. Qed.
Lemma mul_rel : forall x y a b, (x == a)%Q -> (y == b)%Q -> rrel (Some (a * b)%Q) (q2 Qmult (Some x) (Some y)).
Proof. intros x y a b Ex Ey. apply rrel_red. rewrite Ex, Ey. reflexivity. Qed.
Lemma quo_rel : forall x y a b, (x == a)%Q -> (y == b)%Q ->
  rrel (if Qeq_bool b 0 then None else Some (a / b)%Q) (r2 (fun a b => match q_quo a b with Some q => Some (Qred q) | None => None end) (Some x) (Some y)).
Proof.
  intros x y a b Ex Ey. unfold r2, q_quo. rewrite (zero_eq y b Ey). destruct (Qeq_bool b 0); [reflexivity|]. apply rrel_red. rewrite Ex, Ey. reflexivity.
Qed.
Lemma add_rel : forall x y a b, (x == a)%Q -> (y == b)%Q -> rrel (Some (a + b)%Q) (q2 Qplus (Some x) (Some y)).
Proof. intros x y a b Ex Ey. apply rrel_red. rewrite Ex, Ey. reflexivity. Qed.
Lemma sub_rel : forall x y a b, (x == a)%Q -> (y == b)%Q -> rrel (Some (a - b)%Q) (q2 Qminus (Some x) (Some y)).
Proof. intros x y a b Ex Ey. apply rrel_red. rewrite Ex, Ey. reflexivity. Qed.
Lemma neg_rel : forall a a', rrel a a' -> rrel (opt1 (fun a => Some (- a)%Q) a) (opt1 (q1 Qopp) a').
Proof. intros a a' R. destruct a as [a|]; cbn in R; [|subst a'; reflexivity]. destruct R as (x & -> & Ex & _). apply rrel_red. rewrite Ex. reflexivity. Qed.
Lemma all_rel : forall vs vs', Forall2 rrel vs vs' ->
  match all_some vs with
  | Some qs => exists xs, all_some vs' = Some (map Some xs) /\ Forall2 (fun x q => (x == q)%Q /\ Qred x = x) xs qs
  | None => all_some vs' = None
  end.
Proof.
  intros vs vs' H. induction H as [|a a' l l' R _ IH]; cbn [all_some]; [exists []; auto|]. destruct a as [a|]; cbn in R; [|subst a'; reflexivity]. destruct R as (x & -> & Ex & Rx).
  destruct (all_some l) as [qs|]; [|rewrite IH; reflexivity]. destruct IH as (xs & -> & F). exists (x :: xs). auto.
Qed.
Lemma best_rel : forall (better : Q -> Q -> bool) (op : Q -> Q -> Q), (forall x m a b, (x == a)%Q -> (m == b)%Q -> ((if better x m then x else m) == op b a)%Q) ->
  forall xs qs, Forall2 (fun x q => (x == q)%Q /\ Qred x = x) xs qs -> forall m b, (m == b)%Q -> Qred m = m -> rrel (Some (fold_left op qs b)) (r_best better (Some m) (map Some xs)).
Proof.
  intros better op H xs qs F. induction F as [|x q xs qs (E & R) _ IH]; intros m b Em Rm; cbn [fold_left map r_best]; [exists m; auto|].
  pose proof (H x m q b E Em) as H'. destruct (better x m); apply IH; assumption.
Qed.
Lemma gt_max : forall x m a b, (x == a)%Q -> (m == b)%Q -> ((if q_gtb x m then x else m) == Qmax b a)%Q.
Proof.
  intros x m a b Ex Em. unfold q_gtb. destruct (Qle_bool x m) eqn:L; cbn [negb].
  - apply Qle_bool_iff in L. rewrite Ex, Em in L. rewrite Em. symmetry. apply Q.max_l. exact L.
  - rewrite Ex. symmetry. apply Q.max_r. rewrite <- Ex, <- Em. apply Qlt_le_weak, Qnot_le_lt. intro N. apply Qle_bool_iff in N. congruence.
Qed.
Lemma lt_min : forall x m a b, (x == a)%Q -> (m == b)%Q -> ((if q_ltb x m then x else m) == Qmin b a)%Q.
Proof.
  intros x m a b Ex Em. unfold q_ltb. destruct (Qle_bool m x) eqn:L; cbn [negb].
  - apply Qle_bool_iff in L. rewrite Ex, Em in L. rewrite Em. symmetry. apply Q.min_l. exact L.
  - rewrite Ex. symmetry. apply Q.min_r. rewrite <- Ex, <- Em. apply Qlt_le_weak, Qnot_le_lt. intro N. apply Qle_bool_iff in N. congruence.
Qed.
Lemma ext_rel : forall (better : Q -> Q -> bool) (op : Q -> Q -> Q), (forall x m a b, (x == a)%Q -> (m == b)%Q -> ((if better x m then x else m) == op b a)%Q) ->
  forall xs qs, Forall2 (fun x q => (x == q)%Q /\ Qred x = x) xs qs -> rrel (Some (match qs with [] => 0%Q | a :: l => fold_left op l a end)) (r_ext better (map Some xs)).
Proof.
  intros better op H xs qs [|x q xs' qs' (E & R) F]; cbn [map r_ext]; [exists 0%Q; repeat split; reflexivity|]. apply best_rel; assumption.
Qed.
Lemma abs_q : forall x a, (x == a)%Q -> ((if q_ltb x 0 then - x else x) == Qabs a)%Q.
Proof.
  intros x a E. rewrite <- E. clear. unfold q_ltb. destruct (Qle_bool 0 x) eqn:L; cbn [negb].
  - apply Qle_bool_iff in L. symmetry. apply Qabs_pos. exact L.
  - symmetry. apply Qabs_neg. apply Qlt_le_weak, Qnot_le_lt. intro N. apply Qle_bool_iff in N. congruence.
Qed.
Lemma call_rel : forall f vs vs', Forall2 rrel vs vs' -> rrel (callv exact_call f vs) (callv (call_in rat_lib) f vs').
Proof.
  intros f vs vs' H. apply all_rel in H. unfold callv. destruct (all_some vs) as [qs|]; [|rewrite H; reflexivity]. destruct H as (xs & -> & F).
  unfold exact_call, call_in, rat_lib, rat_libs. cbn [find].
  change (s2b "abs") with n_abs. change (s2b "inv") with n_inv. change (s2b "max") with n_max. change (s2b "min") with n_min. change (s2b "denom") with n_denom. change (s2b "num") with n_num.
  destruct (beq f n_max) eqn:B1; [apply beq_eq in B1; subst f; cbn [beq n_abs n_inv n_max Z.eqb Pos.eqb andb l_variadic l_arity l_run Nat.sub Nat.leb]; exact (ext_rel q_gtb Qmax gt_max xs qs F)|].
  destruct (beq f n_min) eqn:B2; [apply beq_eq in B2; subst f; cbn [beq n_abs n_inv n_max n_min Z.eqb Pos.eqb andb l_variadic l_arity l_run Nat.sub Nat.leb]; exact (ext_rel q_ltb Qmin lt_min xs qs F)|].
  destruct F as [|x a xs qs (E & R) F];
    [destruct (beq f n_abs), (beq f n_inv), (beq f n_denom), (beq f n_num); reflexivity|].
  destruct F as [|y b xs qs _ F]; [|destruct (beq f n_abs), (beq f n_inv), (beq f n_denom), (beq f n_num); reflexivity].
  cbn [map length].
  destruct (beq f n_abs); [apply rrel_red, abs_q, E|]. destruct (beq f n_inv); [cbn [lib1 l_variadic l_arity l_run Nat.eqb r1]; unfold q_inv; rewrite (zero_eq x a E); destruct (Qeq_bool a 0); [reflexivity|apply rrel_red; rewrite E; reflexivity]|].
  destruct (beq f n_denom) eqn:B3.
  - apply beq_eq in B3. subst f. cbn. rewrite (Qred_complete x a E). eexists. split; [reflexivity|]. split; [reflexivity|apply red_int].
  - destruct (beq f n_num); [|reflexivity]. cbn. rewrite (Qred_complete x a E). eexists. split; [reflexivity|]. split; [reflexivity|apply red_int].
Qed.
Lemma decimal_value : forall s n, Forall digit s -> decimal n s = fold_left (fun x d => x * 10 + hexval d) s n.
Proof.
  induction s as [|c s IH]; intros n H; [reflexivity|]. inversion H as [|? ? Hc Hs]; subst. cbn [decimal fold_left]. rewrite IH by exact Hs. f_equal. f_equal.
  unfold digit in Hc. unfold hexval. destruct (Z.leb_spec 48 c), (Z.leb_spec c 57); cbn; lia.
Qed.

Section Rat.
Context {F X : Type}.
Variable set_string : bytes -> option Q.
Variable to_float : val F X unit rat -> F.
Variable of_int : Z -> F.
Variable parse_float : bytes -> F + nerr.
Variables isL isD : Z -> bool.
Notation rc := (@rat_calc F X set_string).
Notation rat_value := (v_doc (rat_lits set_string) rat_mulv rat_addv (q1 Qopp) (call_in rat_lib)).
Lemma lit_rel : forall s, s <> [] -> Forall digit s ->
  rrel (Some (inject_Z (ScannerSpec.value 10 s))) (Some (if negb (length s =? 0)%nat && all_digits s then Some (inject_Z (decimal 0 s)) else set_string s)).
Proof.
  intros s N D. replace (negb (length s =? 0)%nat && all_digits s) with true.
  - eexists. split; [reflexivity|]. rewrite decimal_value by exact D. split; [reflexivity|apply red_int].
  - symmetry. apply andb_true_iff. split; [destruct s; [contradiction|reflexivity]|]. apply forallb_forall. rewrite Forall_forall in D. intros c Hc. specialize (D c Hc). unfold digit in D. lia.
Qed.
Lemma to_rat : forall ts r, exact_value ts r -> Forall decimals ts -> exists r', rat_value ts r' /\ rrel r r'.
Proof.
  apply (sim exact_lits exact_muls exact_adds (fun a => Some (- a)%Q) exact_call (rat_lits set_string) rat_mulv rat_addv (q1 Qopp) (call_in rat_lib) decimals rrel).
  - intros k op t [[= <- <-]|[]] K P. exists INT. eexists. split; [left; reflexivity|]. split; [exact K|]. destruct K as [K|(_ & D)]; [|discriminate]. destruct (P K) as (N & D). exact (lit_rel _ N D).
  - intros k op [[= <- <-]|[[= <- <-]|[]]]; eexists; (split; [cbn; eauto|]); apply op2_rel; [exact mul_rel|exact quo_rel].
  - intros k op [[= <- <-]|[[= <- <-]|[]]]; eexists; (split; [cbn; eauto|]); apply op2_rel; [exact add_rel|exact sub_rel].
  - exact neg_rel.
  - exact call_rel.
Qed.
Lemma flip2 : forall (vs : list (option Q)) (vs' : list (option rat)), Forall2 rrel' vs' vs -> Forall2 rrel vs vs'.
Proof. intros vs vs' H. induction H; constructor; auto. Qed.
Lemma of_rat : forall ts r', rat_value ts r' -> Forall decimals ts -> exists r, exact_value ts r /\ rrel r r'.
Proof.
  apply (sim (rat_lits set_string) rat_mulv rat_addv (q1 Qopp) (call_in rat_lib) exact_lits exact_muls exact_adds (fun a => Some (- a)%Q) exact_call decimals rrel').
  - intros k op t [[= <- <-]|[]] K P. exists INT. eexists. split; [left; reflexivity|]. split; [exact K|]. destruct K as [K|(_ & D)]; [|discriminate]. destruct (P K) as (N & D). exact (lit_rel _ N D).
  - intros k op [[= <- <-]|[[= <- <-]|[]]]; eexists; (split; [cbn; eauto|]); intros a b a' b' Ra Rb; revert a' b' a b Ra Rb; unfold rrel'; intros a' b' a b Ra Rb; revert Ra Rb; apply op2_rel; [exact mul_rel|exact quo_rel].
  - intros k op [[= <- <-]|[[= <- <-]|[]]]; eexists; (split; [cbn; eauto|]); intros a b a' b' Ra Rb; unfold rrel' in *; revert Ra Rb; apply op2_rel; [exact add_rel|exact sub_rel].
  - intros a a' R. exact (neg_rel _ _ R).
  - intros f vs vs' H. exact (call_rel _ _ _ (flip2 _ _ H)).
Qed.

(** Every expression of decimal literals that has a value evaluates to it, in lowest terms; one whose value does not exist (a division
    by zero, inv(0), an unknown function, a wrong number of arguments) fails at run time. *)
Theorem C90_exact : forall old0 root d, engine rc to_float isL isD old0 rat_grammar root d ->
  forall old src s ts eof, Tokenize isL isD false false (d_tk d) old src = TzOk ts eof -> fits ts -> Forall decimals ts ->
  (forall q, exact_value ts (Some q) -> exists k s' q', Eval rc to_float of_int parse_float isL isD root d k old src s = MNil s' /\
     fst (Ret (ust s')) = Some (Some q') /\ (q' == q)%Q /\ lowest q') /\
  (exact_value ts None -> exists k e w s', Eval rc to_float of_int parse_float isL isD root d k old src s = MPanic (PUser (PvRuntime e w)) s').
Proof.
  intros old0 root d HE old src s ts eof Ht Hf HD.
  destruct (C40_rat set_string to_float of_int parse_float isL isD old0 root d HE old src s ts eof Ht Hf) as (C & C'). split.
  - intros q V. destruct (to_rat ts _ V HD) as (r' & V' & R). cbn in R. destruct R as (q' & -> & E & L). destruct (proj1 (C (Some q')) V') as (k & s' & E1 & _ & E2).
    exists k, s', q'. repeat split; try assumption. rewrite <- L. apply lowest_red.
  - intro V. destruct (to_rat ts _ V HD) as (r' & V' & R). cbn in R. subst r'. exact (C' V').
Qed.
(** Conversely, whatever evaluation gives is the value of the expression. *)
Theorem C90_only : forall old0 root d, engine rc to_float isL isD old0 rat_grammar root d ->
  forall old src s k s', (forall ts eof, Tokenize isL isD false false (d_tk d) old src = TzOk ts eof -> fits ts /\ Forall decimals ts) ->
  Eval rc to_float of_int parse_float isL isD root d k old src s = MNil s' ->
  exists ts eof q q', Tokenize isL isD false false (d_tk d) old src = TzOk ts eof /\ exact_value ts (Some q) /\
    fst (Ret (ust s')) = Some (Some q') /\ (q' == q)%Q /\ lowest q' /\ forall r, exact_value ts r -> exists p, r = Some p /\ (p == q)%Q.
Proof.
  intros old0 root d HE old src s k s' HT E.
  destruct (C41_rat set_string to_float of_int parse_float isL isD old0 root d HE old src s) as (_ & C). destruct (C (fun ts eof H => proj1 (HT ts eof H)) k s' E) as (ts & eof & v & Ht & V & U & Es).
  destruct (HT ts eof Ht) as (_ & HD). destruct (of_rat ts _ V HD) as (r & V' & R). destruct r as [q|]; cbn in R; [|discriminate]. destruct R as (q' & [= ->] & Eq & L).
  exists ts, eof, q, q'. repeat split; try assumption; [rewrite Es; reflexivity|rewrite <- L; apply lowest_red|].
  intros r Vr. destruct (to_rat ts _ Vr HD) as (r' & Vr' & R). apply U in Vr'. subst r'. destruct r as [p|]; cbn in R; [|discriminate]. destruct R as (p' & [= <-] & Ep & _). exists p. split; [reflexivity|]. rewrite <- Ep. exact Eq.
Qed.
End Rat.

(** What num and denom give: the one fraction in lowest terms with a positive denominator. *)
Theorem C90_lowest : forall q n m, exact_call n_num [q] = Some n -> exact_call n_denom [q] = Some m ->
  (0 < m)%Q /\ (n / m == q)%Q /\ exists a b, n = inject_Z a /\ m = inject_Z b /\ Z.gcd a b = 1 /\ forall c e, (0 < e)%Z -> (inject_Z c / inject_Z e == q)%Q -> Z.gcd c e = 1 -> c = a /\ e = b.
Proof.
  intros q n m [= <-] [= <-]. assert (P : (0 < inject_Z (Zpos (Qden (Qred q))))%Q) by reflexivity. split; [exact P|].
  assert (E : (inject_Z (Qnum (Qred q)) / inject_Z (Zpos (Qden (Qred q))) == q)%Q).
  { rewrite <- Qmake_Qdiv. destruct (Qred q) as [a b] eqn:E. cbn. rewrite <- (Qred_correct q), E. reflexivity. }
  split; [exact E|]. eexists _, _. split; [reflexivity|]. split; [reflexivity|]. split; [apply lowest_red|]. intros c e He Hc Hg.
  assert (R : Qred (c # Z.to_pos e) = Qred q). { apply Qred_complete. rewrite <- Hc. rewrite Qmake_Qdiv. rewrite Z2Pos.id by exact He. reflexivity. }
  rewrite <- R. clear - He Hg. unfold Qred. rewrite Z2Pos.id by exact He. pose proof (Z.ggcd_gcd c e) as G1. pose proof (Z.ggcd_correct_divisors c e) as G2. destruct (Z.ggcd c e) as (g, (aa, bb)).
  cbn [fst snd] in *. rewrite Hg in G1. subst g. destruct G2 as (-> & ->). rewrite !Z.mul_1_l in *. cbn [Qnum Qden]. rewrite Z2Pos.id by lia. auto.
Qed.
(** max and min give one of their arguments, and none is beyond it. *)
Lemma fold_ext : forall (op : Q -> Q -> Q) (le : Q -> Q -> Prop), (forall x, le x x) -> (forall x y z, le x y -> le y z -> le x z) -> (forall x y, le x (op x y) /\ le y (op x y)) ->
  (forall x y, (op x y == x)%Q \/ (op x y == y)%Q) -> forall l a, (exists x, In x (a :: l) /\ (fold_left op l a == x)%Q) /\ forall x, In x (a :: l) -> le x (fold_left op l a).
Proof.
  intros op le Rf Tr Hle Hin. induction l as [|b l IH]; intro a; cbn [fold_left].
  - split; [exists a; split; [left; reflexivity|reflexivity]|]. intros x [<-|[]]. apply Rf.
  - destruct (IH (op a b)) as ((x & Hx & Ex) & Hall). split.
    + destruct Hx as [<-|Hx]; [|exists x; split; [right; right; exact Hx|exact Ex]]. destruct (Hin a b) as [E|E]; [exists a|exists b]; (split; [cbn; auto|rewrite Ex; exact E]).
    + pose proof (Hall (op a b) (or_introl eq_refl)) as H0. destruct (Hle a b) as (La & Lb). intros y [<-|[<-|Hy]]; [eapply Tr; eassumption|eapply Tr; eassumption|]. apply Hall. right. exact Hy.
Qed.
Theorem C90_max : forall a l, exists m, exact_call n_max (a :: l) = Some m /\ (exists x, In x (a :: l) /\ (m == x)%Q) /\ forall x, In x (a :: l) -> (x <= m)%Q.
Proof.
  intros a l. eexists. split; [reflexivity|]. apply (fold_ext Qmax Qle Qle_refl Qle_trans).
  - intros x y. split; [apply Q.le_max_l|apply Q.le_max_r].
  - intros x y. destruct (Q.max_dec x y) as [E|E]; rewrite E; [left|right]; reflexivity.
Qed.
Theorem C90_min : forall a l, exists m, exact_call n_min (a :: l) = Some m /\ (exists x, In x (a :: l) /\ (m == x)%Q) /\ forall x, In x (a :: l) -> (m <= x)%Q.
Proof.
  intros a l. eexists. split; [reflexivity|]. apply (fold_ext Qmin (fun x y => (y <= x)%Q)).
  - intro. apply Qle_refl.
  - intros x y z H1 H2. eapply Qle_trans; eassumption.
  - intros x y. split; [apply Q.le_min_l|apply Q.le_min_r].
  - intros x y. destruct (Q.min_dec x y) as [E|E]; rewrite E; [left|right]; reflexivity.
Qed.

(** ** Agreement with the other calculators *)
(** integer arithmetic of decimal literals without leading zeros, given up beyond 2^53, where a quotient is not an integer and at a division by 0 *)
Definition plain (t : token) : Prop := tkind t = INT -> Forall digit (tlit t) /\ (tlit t = [48] \/ exists c r, tlit t = c :: r /\ c <> 48).
Definition common_lits : list (Z * (bytes -> option Z)) := [(INT, fun s => keep (ScannerSpec.value 10 s))].
Definition common_muls : list (Z * (Z -> Z -> option Z)) :=
  [(MUL, fun a b => keep (a * b)); (QUO, fun a b => if (b =? 0) || negb (Z.rem a b =? 0) then None else Some (Z.quot a b))].
Definition common_call (f : bytes) (vs : list Z) : option Z :=
  if beq f n_max then Some (z_max vs) else if beq f n_min then Some (z_min vs)
  else if beq f n_abs then match vs with [a] => Some (Z.abs a) | _ => None end else None.
Definition common_value : list token -> option Z -> Prop := v_doc common_lits common_muls int_adds (fun a => Some (- a)) common_call.
(** without division and functions *)
Definition ring_value : list token -> option Z -> Prop := v_doc common_lits [(MUL, fun a b => keep (a * b))] int_adds (fun a => Some (- a)) (fun _ _ => None).

Lemma plain_go_int : forall s, Forall digit s -> s = [48] \/ (exists c r, s = c :: r /\ c <> 48) -> go_int s = ScannerSpec.value 10 s.
Proof.
  intros s _ [->|(c & r & -> & Hc)]; [reflexivity|]. unfold go_int. destruct c as [|p|p]; try reflexivity; destruct r as [|x r]; try reflexivity; do 6 (destruct p as [p|p|]; try reflexivity); contradiction.
Qed.
Definition same (a a' : option Z) : Prop := forall z, a = Some z -> a' = Some z.
Lemma same2 : forall (op op' : Z -> Z -> option Z), (forall a b z, op a b = Some z -> op' a b = Some z) -> forall a b a' b', same a a' -> same b b' -> same (opt2 op a b) (opt2 op' a' b').
Proof. intros op op' H a b a' b' Ra Rb z E. destruct a as [a|]; [|discriminate]. destruct b as [b|]; [|discriminate]. rewrite (Ra a eq_refl), (Rb b eq_refl). apply H. exact E. Qed.
Lemma same_all : forall vs vs' zs, Forall2 same vs vs' -> all_some vs = Some zs -> all_some vs' = Some zs.
Proof.
  intros vs vs' zs H. revert zs. induction H as [|a a' l l' R _ IH]; intros zs E; cbn [all_some] in *; [exact E|]. destruct a as [a|]; [|discriminate]. destruct (all_some l) as [xs|]; [|discriminate]. injection E as <-.
  rewrite (R a eq_refl), (IH xs eq_refl). reflexivity.
Qed.
Lemma common_int : forall ts z, common_value ts (Some z) -> Forall plain ts -> int_value ts (Some z).
Proof.
  intros ts z V HP. destruct (sim common_lits common_muls int_adds (fun a => Some (- a)) common_call int_lits int_muls int_adds (fun a => Some (- a)) int_call plain same) with (ts := ts) (r := Some z) as (r & V' & R); try assumption.
  - intros k op t [[= <- <-]|[]] K P. exists INT. eexists. split; [left; reflexivity|]. split; [exact K|]. destruct K as [K|(_ & D)]; [|discriminate]. destruct (P K) as (D & C). cbv beta. rewrite (plain_go_int _ D C). intros z0 E. exact E.
  - intros k op [[= <- <-]|[[= <- <-]|[]]]; eexists; (split; [cbn; eauto|]); apply same2; auto.
  - intros k op H. exists op. split; [exact H|]. apply same2; auto.
  - intros a a' R z0 E. destruct a as [a|]; [|discriminate]. rewrite (R a eq_refl). exact E.
  - intros f vs vs' H z0 E. unfold callv in *. destruct (all_some vs) as [zs|] eqn:Ev; [|discriminate]. rewrite (same_all _ _ _ H Ev). unfold common_call in E. unfold int_call.
    destruct (beq f n_max); [exact E|]. destruct (beq f n_min); [exact E|]. destruct (beq f n_abs); [exact E|discriminate].
  - rewrite (R z eq_refl) in V'. exact V'.
Qed.
Lemma ring_common : forall ts z, ring_value ts (Some z) -> common_value ts (Some z).
Proof.
  intros ts z V. destruct (sim common_lits [(MUL, fun a b => keep (a * b))] int_adds (fun a => Some (- a)) (fun _ _ => None) common_lits common_muls int_adds (fun a => Some (- a)) common_call (fun _ => True) same) with (ts := ts) (r := Some z) as (r & V' & R); try assumption.
  - intros k op t H K _. exists k, op. repeat split; try assumption. intros z0 E. exact E.
  - intros k op [[= <- <-]|[]]; eexists; (split; [left; reflexivity|]); apply same2; auto.
  - intros k op H. exists op. split; [exact H|]. apply same2; auto.
  - intros a a' R z0 E. destruct a as [a|]; [|discriminate]. rewrite (R a eq_refl). exact E.
  - intros f vs vs' H z0 E. unfold callv in E. destruct (all_some vs); discriminate.
  - apply Forall_forall. auto.
  - rewrite (R z eq_refl) in V'. exact V'.
Qed.
Definition isq (a : option Z) (a' : option Q) : Prop := forall z, a = Some z -> exists q, a' = Some q /\ (q == inject_Z z)%Q.
Lemma isq2 : forall (op : Z -> Z -> option Z) (op' : Q -> Q -> option Q), (forall a b x y z, (x == inject_Z a)%Q -> (y == inject_Z b)%Q -> op a b = Some z -> exists q, op' x y = Some q /\ (q == inject_Z z)%Q) ->
  forall a b a' b', isq a a' -> isq b b' -> isq (opt2 op a b) (opt2 op' a' b').
Proof.
  intros op op' H a b a' b' Ra Rb z E. destruct a as [a|]; [|discriminate]. destruct b as [b|]; [|discriminate]. destruct (Ra a eq_refl) as (x & -> & Ex). destruct (Rb b eq_refl) as (y & -> & Ey). exact (H a b x y z Ex Ey E).
Qed.
Lemma isq_all : forall vs vs' zs, Forall2 isq vs vs' -> all_some vs = Some zs -> exists qs, all_some vs' = Some qs /\ Forall2 (fun z q => (q == inject_Z z)%Q) zs qs.
Proof.
  intros vs vs' zs H. revert zs. induction H as [|a a' l l' R _ IH]; intros zs E; cbn [all_some] in *; [injection E as <-; exists []; auto|]. destruct a as [a|]; [|discriminate]. destruct (all_some l) as [xs|]; [|discriminate]. injection E as <-.
  destruct (R a eq_refl) as (q & -> & Eq). destruct (IH xs eq_refl) as (qs & -> & F). exists (q :: qs). auto.
Qed.
Lemma int_le : forall a b, a <= b -> (inject_Z a <= inject_Z b)%Q.
Proof. intros a b H. rewrite <- Zle_Qle. exact H. Qed.
Lemma fold_q : forall (zop : Z -> Z -> Z) (qop : Q -> Q -> Q), (forall a b x y, (x == inject_Z a)%Q -> (y == inject_Z b)%Q -> (qop x y == inject_Z (zop a b))%Q) ->
  forall zs qs, Forall2 (fun z q => (q == inject_Z z)%Q) zs qs -> forall a x, (x == inject_Z a)%Q -> (fold_left qop qs x == inject_Z (fold_left zop zs a))%Q.
Proof. intros zop qop H zs qs F. induction F as [|z q zs qs E _ IH]; intros a x Ex; cbn [fold_left]; [exact Ex|]. apply IH. apply H; assumption. Qed.
Lemma max_q : forall a b x y, (x == inject_Z a)%Q -> (y == inject_Z b)%Q -> (Qmax x y == inject_Z (Z.max a b))%Q.
Proof.
  intros a b x y Ex Ey. destruct (Z.le_ge_cases a b) as [L|L]; [rewrite Z.max_r by exact L; rewrite Q.max_r; [exact Ey|]|rewrite Z.max_l by exact L; rewrite Q.max_l; [exact Ex|]]; rewrite Ex, Ey; apply int_le; exact L.
Qed.
Lemma min_q : forall a b x y, (x == inject_Z a)%Q -> (y == inject_Z b)%Q -> (Qmin x y == inject_Z (Z.min a b))%Q.
Proof.
  intros a b x y Ex Ey. destruct (Z.le_ge_cases a b) as [L|L]; [rewrite Z.min_l by exact L; rewrite Q.min_l; [exact Ex|]|rewrite Z.min_r by exact L; rewrite Q.min_r; [exact Ey|]]; rewrite Ex, Ey; apply int_le; exact L.
Qed.
Lemma common_exact : forall ts z, common_value ts (Some z) -> exists q, exact_value ts (Some q) /\ (q == inject_Z z)%Q.
Proof.
  intros ts z V. destruct (sim common_lits common_muls int_adds (fun a => Some (- a)) common_call exact_lits exact_muls exact_adds (fun a => Some (- a)%Q) exact_call (fun _ => True) isq) with (ts := ts) (r := Some z) as (r & V' & R); try assumption.
  - intros k op t [[= <- <-]|[]] K _. exists INT. eexists. split; [left; reflexivity|]. split; [exact K|]. intros z0 E. apply keep_some in E. destruct E as (-> & _). eexists. split; reflexivity.
  - intros k op [[= <- <-]|[[= <- <-]|[]]]; eexists; (split; [cbn; eauto|]); apply isq2; intros a b x y z0 Ex Ey E.
    + apply keep_some in E. destruct E as (-> & _). eexists. split; [reflexivity|]. rewrite Ex, Ey, inject_Z_mult. reflexivity.
    + destruct (Z.eqb_spec b 0) as [|Nb]; [discriminate|]. destruct (Z.eqb_spec (Z.rem a b) 0) as [Rm|]; [|discriminate]. injection E as <-.
      assert (N0 : ~ (y == 0)%Q). { rewrite Ey. intro H. apply Nb. unfold Qeq in H. cbn in H. lia. }
      assert (B : Qeq_bool y 0 = false). { destruct (Qeq_bool y 0) eqn:B; [|reflexivity]. apply Qeq_bool_iff in B. contradiction. }
      rewrite B. eexists. split; [reflexivity|]. pose proof (Z.quot_rem a b Nb) as Hq. rewrite Rm, Z.add_0_r in Hq. rewrite Ex. rewrite Hq at 1. rewrite inject_Z_mult, <- Ey. field. exact N0.
  - intros k op [[= <- <-]|[[= <- <-]|[]]]; eexists; (split; [cbn; eauto|]); apply isq2; intros a b x y z0 Ex Ey E; apply keep_some in E; destruct E as (-> & _); (eexists; split; [reflexivity|]).
    + rewrite Ex, Ey, inject_Z_plus. reflexivity.
    + unfold Z.sub. rewrite Ex, Ey, inject_Z_plus, inject_Z_opp. reflexivity.
  - intros a a' R z0 E. destruct a as [a|]; [|discriminate]. injection E as <-. destruct (R a eq_refl) as (q & -> & Eq). eexists. split; [reflexivity|]. rewrite Eq, inject_Z_opp. reflexivity.
  - intros f vs vs' H z0 E. unfold callv in *. destruct (all_some vs) as [zs|] eqn:Ev; [|discriminate]. destruct (isq_all _ _ _ H Ev) as (qs & -> & F). unfold common_call in E. unfold exact_call.
    destruct (beq f n_max); [injection E as <-; eexists; split; [reflexivity|]; destruct F as [|z1 q1 zs' qs' Eq F]; [reflexivity|]; exact (fold_q Z.max Qmax max_q _ _ F _ _ Eq)|].
    destruct (beq f n_min); [injection E as <-; eexists; split; [reflexivity|]; destruct F as [|z1 q1 zs' qs' Eq F]; [reflexivity|]; exact (fold_q Z.min Qmin min_q _ _ F _ _ Eq)|].
    destruct (beq f n_abs); [|discriminate]. destruct F as [|z1 q1 zs' qs' Eq F]; [discriminate|]. destruct F; [|discriminate]. injection E as <-. eexists. split; [reflexivity|]. rewrite Eq. reflexivity.
  - apply Forall_forall. auto.
  - destruct (R z eq_refl) as (q & -> & Eq). exists q. auto.
Qed.
Definition isg (a : option Z) (a' : option gauss) : Prop := forall z, a = Some z -> a' = Some (z, 0).
Lemma keep_0 : keep 0 = Some 0.
Proof. reflexivity. Qed.
Lemma isg2 : forall (op : Z -> Z -> option Z) (op' : gauss -> gauss -> option gauss), (forall a b z, op a b = Some z -> op' (a, 0) (b, 0) = Some (z, 0)) -> forall a b a' b', isg a a' -> isg b b' -> isg (opt2 op a b) (opt2 op' a' b').
Proof. intros op op' H a b a' b' Ra Rb z E. destruct a as [a|]; [|discriminate]. destruct b as [b|]; [|discriminate]. rewrite (Ra a eq_refl), (Rb b eq_refl). apply H. exact E. Qed.
Lemma ring_gauss : forall ts z, ring_value ts (Some z) -> Forall plain ts -> gauss_value ts (Some (z, 0)).
Proof.
  intros ts z V HP. destruct (sim common_lits [(MUL, fun a b => keep (a * b))] int_adds (fun a => Some (- a)) (fun _ _ => None) gauss_lits [(MUL, g_mul)] [(ADD, g_add); (SUB, g_sub)] (fun a => Some (- fst a, - snd a)) gauss_call plain isg) with (ts := ts) (r := Some z) as (r & V' & R); try assumption.
  - intros k op t [[= <- <-]|[]] K P. exists INT. eexists. split; [left; reflexivity|]. split; [exact K|]. destruct K as [K|(_ & D)]; [|discriminate]. destruct (P K) as (D & C). cbv beta. rewrite (plain_go_int _ D C). intros z0 E. rewrite E. reflexivity.
  - intros k op [[= <- <-]|[]]; eexists; (split; [left; reflexivity|]); apply isg2; intros a b z0 E. unfold g_mul. cbn [fst snd]. rewrite E, Z.mul_0_r, Z.mul_0_r, Z.mul_0_l, keep_0. cbn [okeep]. apply keep_some in E. destruct E as (-> & S).
    rewrite Z.sub_0_r. change (0 + 0) with 0. rewrite keep_0. unfold keep. destruct (Z.leb_spec (Z.abs (a * b)) (2 ^ 53)); [reflexivity|]. unfold small in S. lia.
  - intros k op [[= <- <-]|[[= <- <-]|[]]]; eexists; (split; [cbn; eauto|]); apply isg2; intros a b z0 E; unfold g_add, g_sub; cbn [fst snd]; rewrite E; reflexivity.
  - intros a a' R z0 E. destruct a as [a|]; [|discriminate]. rewrite (R a eq_refl). injection E as <-. reflexivity.
  - intros f vs vs' H z0 E. unfold callv in E. destruct (all_some vs); discriminate.
  - rewrite (R z eq_refl) in V'. exact V'.
Qed.
Lemma plain_decimals : forall ts, Forall plain ts -> Forall decimals ts.
Proof. intros ts H. eapply Forall_impl; [|exact H]. intros t P K. destruct (P K) as (D & C). split; [|exact D]. destruct C as [->|(c & r & -> & _)]; discriminate. Qed.

(** The calculators' grammars use no words: all three engines read a text alike. *)
Ltac plain_tk H := match type of H with engine ?c ?tf ?isL ?isD ?old ?g ?root ?d =>
  let G := fresh in
  assert (G : exists root' d', engine c tf isL isD old g root' d' /\ d_tk d' = tk_init (AutoKw new_akw))
    by (eexists _, _; split; [apply (compiles_run _ _ _ _ _ _ _ 200); [vm_compute; reflexivity|discriminate]|reflexivity]);
  let root' := fresh in let d' := fresh in let E := fresh in let U := fresh in
  destruct G as (root' & d' & G & E); pose proof (compiles_unique _ _ _ _ _ _ _ _ _ H G) as U; injection U as -> ->; exact E end.

Section Agree.
Context {X F' X' X'' : Type}.
Variables isL isD : Z -> bool.
Variable consts : bytes -> option float.
Variable mathlib : bytes -> option (libfn float).
Hypothesis mathlib_ok : forall name l, mathlib name = Some l -> l_variadic l = true -> l_arity l <> 0%nat.
Variable to_float : val float X unit float -> float.
Variable parse_float : bytes -> float + nerr.
Hypothesis Hparse : reads_digits parse_float.
Notation num := (@number float X f_neg f_mul f_div f_mod f_add f_sub consts f_of_int f_int (num_lib mathlib)).
Variable set_string : bytes -> option Q.
Variable to_float' : val F' X' unit rat -> F'.
Variable of_int' : Z -> F'.
Variable parse_float' : bytes -> F' + nerr.
Notation rc := (@rat_calc F' X' set_string).
Variable c_quo : complex -> complex -> complex.
Variable polar : float -> float -> complex.
Variable cmathlib : bytes -> option (libfn complex).
Hypothesis cmathlib_ok : forall name l, cmathlib name = Some l -> l_variadic l = true -> l_arity l <> 0%nat.
Variable err_value : bytes -> float.
Variable to_float'' : val float X'' unit complex -> float.
Notation cc := (@cmplx float X'' complex c_neg c_mul c_quo c_add c_sub c_real c_imag f_of_int c_to_int (c_lib polar cmathlib) (anyway parse_float err_value)).

Theorem C90_tokens : forall old root d,
  (engine num to_float isL isD old number_grammar root d -> d_tk d = tk_init (AutoKw new_akw)).
Proof. intros old root d H. plain_tk H. Qed.
Theorem C90_tokens_rat : forall old root d, engine rc to_float' isL isD old rat_grammar root d -> d_tk d = tk_init (AutoKw new_akw).
Proof. intros old root d H. plain_tk H. Qed.
Theorem C90_tokens_cmplx : forall old root d, engine cc to_float'' isL isD old cmplx_grammar root d -> d_tk d = tk_init (AutoKw new_akw).
Proof. intros old root d H. plain_tk H. Qed.

Lemma rat_common : forall oldr rootr dr, engine rc to_float' isL isD oldr rat_grammar rootr dr ->
  forall old src sr ts eof, Tokenize isL isD false false (d_tk dr) old src = TzOk ts eof -> fits ts -> Forall plain ts -> forall z, common_value ts (Some z) ->
  exists k s', Eval rc to_float' of_int' parse_float' isL isD rootr dr k old src sr = MNil s' /\ fst (Ret (ust s')) = Some (Some (inject_Z z)).
Proof.
  intros oldr rootr dr HR old src sr ts eof Tr Hf HP z V. destruct (common_exact ts z V) as (q & Vq & Eq).
  destruct (to_rat set_string ts _ Vq (plain_decimals ts HP)) as (r' & V' & R). destruct R as (q' & -> & E' & L).
  destruct (C40_rat set_string to_float' of_int' parse_float' isL isD oldr rootr dr HR old src sr ts eof Tr Hf) as (C' & _). destruct (proj1 (C' (Some q')) V') as (k & s' & E1 & _ & E2).
  exists k, s'. split; [exact E1|]. rewrite E2. do 2 f_equal. rewrite <- L, <- (red_int z). apply Qred_complete. rewrite E'. exact Eq.
Qed.

(** The same integer expression in the number and in the rational calculator gives the same integer. *)
Theorem C90_agree : forall oldn rootn dn, engine num to_float isL isD oldn number_grammar rootn dn ->
  forall oldr rootr dr, engine rc to_float' isL isD oldr rat_grammar rootr dr ->
  forall old src sn sr ts eof, Forall byte src -> Tokenize isL isD false false (d_tk dn) old src = TzOk ts eof -> fits ts -> Forall plain ts ->
  forall z, common_value ts (Some z) ->
  (exists f k s', Eval num to_float f_of_int parse_float isL isD rootn dn k old src sn = MNil s' /\ fst (Ret (ust s')) = Some f /\ holds f z) /\
  (exists k s', Eval rc to_float' of_int' parse_float' isL isD rootr dr k old src sr = MNil s' /\ fst (Ret (ust s')) = Some (Some (inject_Z z))).
Proof.
  intros oldn rootn dn HN oldr rootr dr HR old src sn sr ts eof Hb Tn Hf HP z V. split.
  - exact (C88_number consts mathlib mathlib_ok to_float parse_float Hparse isL isD oldn rootn dn HN old src sn ts eof Hb Tn Hf z (common_int ts z V HP)).
  - rewrite (C90_tokens _ _ _ HN), <- (C90_tokens_rat _ _ _ HR) in Tn. eapply rat_common; eassumption.
Qed.
(** Without division and functions the complex calculator gives it too, with an imaginary part 0. *)
Theorem C90_agree_cmplx : forall oldc rootc dc, engine cc to_float'' isL isD oldc cmplx_grammar rootc dc ->
  forall oldr rootr dr, engine rc to_float' isL isD oldr rat_grammar rootr dr ->
  forall old src s sr ts eof, Forall byte src -> Tokenize isL isD false false (d_tk dc) old src = TzOk ts eof -> fits ts -> Forall plain ts ->
  forall z, ring_value ts (Some z) ->
  (exists re im k s', Eval cc to_float'' f_of_int parse_float isL isD rootc dc k old src s = MNil s' /\ fst (Ret (ust s')) = Some (re, im) /\ holds re z /\ holds im 0) /\
  (exists k s', Eval rc to_float' of_int' parse_float' isL isD rootr dr k old src sr = MNil s' /\ fst (Ret (ust s')) = Some (Some (inject_Z z))).
Proof.
  intros oldc rootc dc HC oldr rootr dr HR old src s sr ts eof Hb Tc Hf HP z V. split.
  - eapply C89_gauss; try eassumption. apply ring_gauss; assumption.
  - rewrite (C90_tokens_cmplx _ _ _ HC), <- (C90_tokens_rat _ _ _ HR) in Tc. eapply rat_common; try eassumption. apply ring_common. exact V.
Qed.
End Agree.

(** A leading zero makes a literal octal for the number calculator, not for the rational one. *)
Definition run90 (src : string) : option rat := match ex_run src with inl (Some (q, _)) => Some q | _ => None end.
Theorem C90_octal_refuted : exists ts eof src, Tokenize ex_isL ex_isL false false (tk_init (AutoKw new_akw)) PropScan.fresh src = TzOk ts eof /\ Forall decimals ts /\ exact_value ts (Some 10%Q) /\ int_value ts (Some 8) /\
  run88 (string_of_list_ascii (map Ascii.ascii_of_nat (map Z.to_nat src))) = Some (f_of_int 8) /\ run90 (string_of_list_ascii (map Ascii.ascii_of_nat (map Z.to_nat src))) = Some (Some 10%Q).
Proof.
  exists [mkTok INT 1 (s2b "010")]. eexists. exists (s2b "010"). split; [vm_compute; reflexivity|]. repeat split.
  - constructor; [|constructor]. intros _. split; [discriminate|]. repeat constructor; cbv; discriminate.
  - change [mkTok INT 1 (s2b "010")] with (([mkTok INT 1 (s2b "010")] ++ []) ++ []). eapply V_doc; [|apply V_add0]. eapply V_term; [|apply V_mul0].
    exact (V_lit exact_lits exact_muls exact_adds (fun a => Some (- a)%Q) exact_call INT _ (mkTok INT 1 (s2b "010")) (or_introl eq_refl) (or_introl eq_refl)).
  - change [mkTok INT 1 (s2b "010")] with (([mkTok INT 1 (s2b "010")] ++ []) ++ []). eapply V_doc; [|apply V_add0]. eapply V_term; [|apply V_mul0].
    exact (V_lit int_lits int_muls int_adds (fun a => Some (- a)) int_call INT _ (mkTok INT 1 (s2b "010")) (or_introl eq_refl) (or_introl eq_refl)).
Qed.

(** ** Instances *)
Example C90_instance : run90 "100000000000000000000000000000001 * 3 / 300000000000000000000000000000000" = Some (Some (100000000000000000000000000000001 # 100000000000000000000000000000000)%Q) /\
  run90 "num(6/4) + denom(6/4) - inv(-abs(-4/6))" = Some (Some (13 # 2)%Q) /\ run90 "max(1/3, 1/2, -7) - min(1/3, 0-2)" = Some (Some (5 # 2)%Q) /\ run90 "max()" = Some (Some 0%Q) /\
  ex_run "inv(1/2 - 2/4)" = inr true /\ ex_run "abs(1, 2)" = inr true /\ ex_run "sqrt(2)" = inr true.
Proof. vm_compute. auto 10. Qed.
(** 6 / 4 and 6 / 0 *)
Definition ts90 (d : string) : list token := [tok88 INT "6"; tok88 QUO ""; tok88 INT d].
Lemma ex90 : forall d, exact_value (ts90 d) (opt2 (fun a b => if Qeq_bool b 0 then None else Some (a / b)%Q) (Some 6%Q) (Some (inject_Z (ScannerSpec.value 10 (s2b d))))).
Proof.
  intro d. assert (L : forall l, v_factor exact_lits exact_muls exact_adds (fun a => Some (- a)%Q) exact_call [tok88 INT l] (Some (inject_Z (ScannerSpec.value 10 (s2b l))))) by
    (intro l; exact (V_lit exact_lits exact_muls exact_adds (fun a => Some (- a)%Q) exact_call INT _ (tok88 INT l) (or_introl eq_refl) (or_introl eq_refl))).
  change (ts90 d) with (([tok88 INT "6"] ++ (tok88 QUO "" :: [tok88 INT d] ++ [])) ++ []). eapply V_doc; [|apply V_add0]. eapply V_term; [apply L|].
  eapply V_mul; [right; left; reflexivity|apply L|]. apply V_mul0.
Qed.
Example C90_instance_value : exact_value (ts90 "4") (Some (6 / 4)%Q) /\ exact_value (ts90 "00") None /\ Forall decimals (ts90 "00") /\ (Qred (6 / 4) = 3 # 2)%Q.
Proof.
  split; [exact (ex90 "4")|]. split; [exact (ex90 "00")|]. split; [|reflexivity]. repeat constructor; intro K; try discriminate K; repeat constructor; cbv; discriminate.
Qed.
Example C90_instance_lowest : exact_call n_num [(-6 # 4)%Q] = Some (-3)%Q /\ exact_call n_denom [(-6 # 4)%Q] = Some 2%Q /\ exact_call n_max [(1 # 3)%Q; (1 # 2)%Q] = Some (1 # 2)%Q.
Proof. vm_compute. auto. Qed.
(** 7 * 6 *)
Example C90_instance_agree : ring_value [tok88 INT "7"; tok88 MUL ""; tok88 INT "6"] (Some 42) /\ common_value [tok88 INT "7"; tok88 MUL ""; tok88 INT "6"] (Some 42) /\
  Forall plain [tok88 INT "7"; tok88 MUL ""; tok88 INT "6"] /\ run88 "7 * 6" = Some (f_of_int 42) /\ run90 "7 * 6" = Some (Some 42%Q) /\ run89 "7 * 6" = Some (Some (f_of_int 42, zero)).
Proof.
  assert (V : ring_value [tok88 INT "7"; tok88 MUL ""; tok88 INT "6"] (Some 42)).
  { change [tok88 INT "7"; tok88 MUL ""; tok88 INT "6"] with (([tok88 INT "7"] ++ (tok88 MUL "" :: [tok88 INT "6"] ++ [])) ++ []).
    assert (L : forall l, v_factor common_lits [(MUL, fun a b => keep (a * b))] int_adds (fun a => Some (- a)) (fun _ _ => None) [tok88 INT l] (keep (ScannerSpec.value 10 (s2b l)))) by
      (intro l; exact (V_lit common_lits [(MUL, fun a b => keep (a * b))] int_adds (fun a => Some (- a)) (fun _ _ => None) INT _ (tok88 INT l) (or_introl eq_refl) (or_introl eq_refl))).
    eapply V_doc; [|apply V_add0]. eapply V_term; [apply L|]. eapply V_mul; [left; reflexivity|apply L|]. apply V_mul0. }
  split; [exact V|]. split; [apply ring_common; exact V|]. split; [|vm_compute; auto].
  constructor; [|constructor; [|constructor; [|constructor]]]; intro K; try discriminate K; (split; [repeat constructor; cbv; discriminate|right; eexists _, _; split; [reflexivity|discriminate]]).
Qed.

Print Assumptions C90_exact.
Print Assumptions C90_only.
Print Assumptions C90_lowest.
Print Assumptions C90_max.
Print Assumptions C90_min.
Print Assumptions C90_tokens.
Print Assumptions C90_tokens_rat.
Print Assumptions C90_tokens_cmplx.
Print Assumptions C90_agree.
Print Assumptions C90_agree_cmplx.
Print Assumptions C90_octal_refuted.
