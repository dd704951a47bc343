(** Programs with functions do what QFun says (Property C94). *)
From Coq Require Import String SpecFloat.
From Verif Require Import Base Token Grammar Compiler Interp QValue Qlang QlangSpec QlangTop QText QTidy QExpr QEval PropCtrl PropVars PropCall QExprP QEmbed PropEmbed QWhile QWhileP QFun.
From Verif Require PropClass.
Local Open Scope list_scope.
Local Open Scope Z_scope.

Scheme xprim_ind' := Minimality for xprim Sort Prop
with xwritten_ind' := Minimality for xwritten Sort Prop
with xargs_ind' := Minimality for xargs Sort Prop
with xmore_ind' := Minimality for xmore Sort Prop.
Definition xwritten_all := fun W L p1 p2 p3 p4 h1 h2 h3 h4 h5 h6 h7 h8 h9 h10 h11 h12 h13 h14 h15 h16 h17 h18 h19 h20 =>
  conj (xprim_ind' W L p1 p2 p3 p4 h1 h2 h3 h4 h5 h6 h7 h8 h9 h10 h11 h12 h13 h14 h15 h16 h17 h18 h19 h20) (conj (xwritten_ind' W L p1 p2 p3 p4 h1 h2 h3 h4 h5 h6 h7 h8 h9 h10 h11 h12 h13 h14 h15 h16 h17 h18 h19 h20)
  (conj (xargs_ind' W L p1 p2 p3 p4 h1 h2 h3 h4 h5 h6 h7 h8 h9 h10 h11 h12 h13 h14 h15 h16 h17 h18 h19 h20) (xmore_ind' W L p1 p2 p3 p4 h1 h2 h3 h4 h5 h6 h7 h8 h9 h10 h11 h12 h13 h14 h15 h16 h17 h18 h19 h20))).
Scheme fwritten_ind' := Minimality for fwritten Sort Prop
with fbwritten_ind' := Minimality for fbwritten Sort Prop
with frwritten_ind' := Minimality for frwritten Sort Prop
with felwritten_ind' := Minimality for felwritten Sort Prop
with fewritten_ind' := Minimality for fewritten Sort Prop
with fcwritten_ind' := Minimality for fcwritten Sort Prop
with fdwritten_ind' := Minimality for fdwritten Sort Prop
with fhwritten_ind' := Minimality for fhwritten Sort Prop.
Definition fwritten_all := fun W L p1 p2 p3 p4 p5 p6 p7 p8 h1 h2 h3 h4 h5 h6 h7 h8 h9 h10 h11 h12 h13 h14 h15 h16 h17 h18 h19 h20 h21 h22 h23 h24 h25 h26 =>
  conj (fwritten_ind' W L p1 p2 p3 p4 p5 p6 p7 p8 h1 h2 h3 h4 h5 h6 h7 h8 h9 h10 h11 h12 h13 h14 h15 h16 h17 h18 h19 h20 h21 h22 h23 h24 h25 h26) (conj (fbwritten_ind' W L p1 p2 p3 p4 p5 p6 p7 p8 h1 h2 h3 h4 h5 h6 h7 h8 h9 h10 h11 h12 h13 h14 h15 h16 h17 h18 h19 h20 h21 h22 h23 h24 h25 h26) (conj (frwritten_ind' W L p1 p2 p3 p4 p5 p6 p7 p8 h1 h2 h3 h4 h5 h6 h7 h8 h9 h10 h11 h12 h13 h14 h15 h16 h17 h18 h19 h20 h21 h22 h23 h24 h25 h26) (conj (felwritten_ind' W L p1 p2 p3 p4 p5 p6 p7 p8 h1 h2 h3 h4 h5 h6 h7 h8 h9 h10 h11 h12 h13 h14 h15 h16 h17 h18 h19 h20 h21 h22 h23 h24 h25 h26) (conj (fewritten_ind' W L p1 p2 p3 p4 p5 p6 p7 p8 h1 h2 h3 h4 h5 h6 h7 h8 h9 h10 h11 h12 h13 h14 h15 h16 h17 h18 h19 h20 h21 h22 h23 h24 h25 h26) (conj (fcwritten_ind' W L p1 p2 p3 p4 p5 p6 p7 p8 h1 h2 h3 h4 h5 h6 h7 h8 h9 h10 h11 h12 h13 h14 h15 h16 h17 h18 h19 h20 h21 h22 h23 h24 h25 h26) (conj (fdwritten_ind' W L p1 p2 p3 p4 p5 p6 p7 p8 h1 h2 h3 h4 h5 h6 h7 h8 h9 h10 h11 h12 h13 h14 h15 h16 h17 h18 h19 h20 h21 h22 h23 h24 h25 h26) (fhwritten_ind' W L p1 p2 p3 p4 p5 p6 p7 p8 h1 h2 h3 h4 h5 h6 h7 h8 h9 h10 h11 h12 h13 h14 h15 h16 h17 h18 h19 h20 h21 h22 h23 h24 h25 h26))))))).

Section FunP.
Context {W : Type}.
Variable L : qlib W.
Notation St := (est nat value (@rest W)).
Notation ev := (QlangTop.ev L).
Notation sem := (@sem W).
Infix ">>" := seq (at level 60, right associativity).

(** ** States *)
(** a panic that calls do not take for something else *)
Definition fine (q : pvq) : Prop := match q with PvStr _ => True | PvErr (EOther VReturn) => False | PvErr _ => True | PvOther (VExit _) | PvOther (VExtern _) => False | PvOther _ => True | _ => False end.
Definition thrown (q : pvq) (e : panicq) : Prop := fine q /\ exists src, e = wrap src (PUser q).
Definition recov_as (x : option pvq) (y : option panicq) : Prop := match x, y with None, None => True | Some q, Some e => thrown q e | _, _ => False end.
(** the functions made, the expressions deferred, and the panics; outside any function nothing is deferred *)
Definition kept (h : store) (s : St) : Prop :=
  (r_ids (e_rest s) = st_made h /\ Forall2 thrown (st_caught h) (r_excs (e_rest s))) /\ (forall i, fr_defers (getf i s) = map VCode (deferred h i) /\ recov_as (pending h i) (fr_recov (getf i s))) /\ forall i, up h i = None -> deferred h i = [].
(** the scopes of [h] are the frames of [s], and [p] is one of them *)
Definition at_store (p : nat) (h : store) (s : St) : Prop :=
  coherent s /\ (p < nframes s)%nat /\ nframes s = length (st_scopes h) /\ (forall i, parent i s = up h i) /\
  (forall i n v, defines s n i v <-> own h i n = Some v) /\ kept h s /\ forall i n, has_entry s n i <-> knows h i n = true.
Definition same_rest (s s' : St) : Prop :=
  (nframes s <= nframes s')%nat /\ e_mute s' = e_mute s /\ e_ipt s' = e_ipt s /\
  r_objs (e_rest s') = r_objs (e_rest s) /\ r_world (e_rest s') = r_world (e_rest s).
(** the same but for variables, new frames, the stack, and functions made *)
Definition like (s s' : St) : Prop :=
  (forall i, (i < nframes s)%nat -> fr_parent (getf i s') = fr_parent (getf i s) /\
             fr_ret (getf i s') = fr_ret (getf i s) /\ fr_base (getf i s') = fr_base (getf i s)) /\ same_rest s s'.
(** nor the base of [p], and with [r] its result *)
Definition still (r : bool) (p : nat) (s s' : St) : Prop :=
  (forall i, (i < nframes s)%nat -> fr_parent (getf i s') = fr_parent (getf i s) /\
             (r = false \/ i <> p -> fr_ret (getf i s') = fr_ret (getf i s)) /\
             (fr_base (getf i s') = fr_base (getf i s) \/ i = p /\ (fr_base (getf i s') <= length (e_stk s'))%nat)) /\ same_rest s s'.
(** an evaluation in [p] that started in [s] has this outcome, with the value on top of [stk] *)
Definition dgave (d : bool) (p : nat) (stk : list value) (s : St) (o : foutcome) (r : @qres W unit) : Prop :=
  match snd o with
  | Gives v => exists s', r = inl (tt, s') /\ plain v /\ e_stk s' = v :: stk /\ at_store p (fst o) s' /\ like s s'
  | Panics q => exists e s', r = inr (e, s') /\ panics_as d q e /\ fine q /\ (exists l, e_stk s' = l ++ stk) /\ at_store p (fst o) s' /\ still false p s s'
  | Returns v => exists s', r = inr (p_return, s') /\ (plain v /\ up (fst o) p <> None) /\ fr_ret (getf p s') = v /\ (exists l, e_stk s' = l ++ stk) /\ at_store p (fst o) s' /\ still true p s s'
  end.
Notation sgave := (dgave false).

Lemma rest_refl : forall s, same_rest s s.
Proof. intro s. repeat split. lia. Qed.
Lemma rest_trans : forall s1 s2 s3, same_rest s1 s2 -> same_rest s2 s3 -> same_rest s1 s3.
Proof. intros s1 s2 s3 (A1 & A2 & A3 & A4 & A5) (B1 & B2 & B3 & B4 & B5). split; [lia|]. repeat split; etransitivity; eassumption. Qed.
Lemma like_refl : forall s, like s s.
Proof. intro s. split; [auto|apply rest_refl]. Qed.
Lemma like_trans : forall s1 s2 s3, like s1 s2 -> like s2 s3 -> like s1 s3.
Proof.
  intros s1 s2 s3 (A & A') (B & B'). split; [|eapply rest_trans; eassumption]. intros i Hi. destruct (A i Hi) as (b & c & d). destruct (B i ltac:(destruct A'; lia)) as (b' & c' & d'). repeat split; etransitivity; eassumption.
Qed.
Lemma like_still : forall r p s1 s2 s3, like s1 s2 -> still r p s2 s3 -> still r p s1 s3.
Proof.
  intros r p s1 s2 s3 (A & A') (B & B'). split; [|eapply rest_trans; eassumption]. intros i Hi. destruct (A i Hi) as (a2 & a3 & a4). destruct (B i ltac:(destruct A'; lia)) as (b2 & b3 & b4).
  split; [congruence|]. split; [intro N; rewrite (b3 N); exact a3|rewrite <- a4; exact b4].
Qed.
Lemma like_is_still : forall r p s s', like s s' -> still r p s s'.
Proof. intros r p s s' (A & A'). split; [|exact A']. intros i Hi. destruct (A i Hi) as (a2 & a3 & a4). auto. Qed.
Lemma store_stk : forall p h s l, at_store p h s -> at_store p h (set_stk l s).
Proof. intros p h s l (C & F & N & P & V & I). split; [apply coherent_stk; exact C|]. exact (conj F (conj N (conj P (conj V I)))). Qed.
Lemma entry_like : forall (s s' : St), (forall i, fr_vars (getf i s') = fr_vars (getf i s)) -> forall n i, has_entry s' n i <-> has_entry s n i.
Proof. intros s s' H n i. unfold has_entry, var_of. rewrite H. reflexivity. Qed.
Lemma store_like : forall p p' h s s', (forall i, fr_vars (getf i s') = fr_vars (getf i s) /\ fr_defers (getf i s') = fr_defers (getf i s) /\ fr_recov (getf i s') = fr_recov (getf i s)) -> (forall i, parent i s' = parent i s) -> nframes s' = nframes s -> r_ids (e_rest s') = r_ids (e_rest s) /\ r_excs (e_rest s') = r_excs (e_rest s) -> (p' < nframes s)%nat ->
  at_store p h s -> at_store p' h s'.
Proof.
  intros p p' h s s' Hv0 Hp Hn Hi F (C & _ & N & P & V & (I & I1 & I2) & T). pose proof (fun i => proj1 (Hv0 i)) as Hv. split; [apply (coherent_like s); assumption|]. rewrite Hn. split; [exact F|]. split; [exact N|]. split; [intro i; rewrite Hp; apply P|].
  split; [intros i n v; rewrite <- V; unfold defines, var_of; rewrite Hv; reflexivity|]. split; [split; [rewrite (proj1 Hi), (proj2 Hi); exact I|split; [intro i; destruct (Hv0 i) as (_ & -> & ->); apply I1|exact I2]]|]. intros i n. rewrite (entry_like s s' Hv). apply T.
Qed.
Lemma kept_like : forall h h' (s s' : St), kept h s -> st_made h' = st_made h /\ st_caught h' = st_caught h -> (forall i, up h' i = up h i) -> (forall i, deferred h' i = deferred h i /\ pending h' i = pending h i) ->
  r_ids (e_rest s') = r_ids (e_rest s) /\ r_excs (e_rest s') = r_excs (e_rest s) -> (forall i, fr_defers (getf i s') = fr_defers (getf i s) /\ fr_recov (getf i s') = fr_recov (getf i s)) -> kept h' s'.
Proof.
  intros h h' s s' ((K1 & K4) & K2 & K3) (M & M') U D (R & R') F. split; [rewrite M, M', R, R'; auto|]. split; [intro i; destruct (F i) as (-> & ->), (D i) as (-> & ->); apply K2|]. intros i X. rewrite (proj1 (D i)). apply K3. rewrite <- U. exact X.
Qed.
Lemma like_stk : forall s l, like s (set_stk l s).
Proof. intros s l. split; [auto|]. split; [apply Nat.le_refl|]. repeat split. Qed.
Lemma sgave_from : forall d p stk s s1 o r, like s s1 -> dgave d p stk s1 o r -> dgave d p stk s o r.
Proof.
  intros d p stk s s1 (h, [v|q|v]) r A H; cbn [dgave snd fst] in *.
  - destruct H as (s' & E & Pv & K & V & S). exists s'. split; [exact E|]. split; [exact Pv|]. split; [exact K|]. split; [exact V|]. eapply like_trans; eassumption.
  - destruct H as (e & s' & E & X0 & Fq & K & V & S). exists e, s'. repeat (split; [assumption|]). eapply like_still; eassumption.
  - destruct H as (s' & E & Pv & R & K & V & S). exists s'. repeat (split; [assumption|]). eapply like_still; eassumption.
Qed.
Lemma loosely : forall p stk s o r, sgave p stk s o r -> dgave true p stk s o r.
Proof.
  intros p stk s (h, [v|q|v]) r H; [exact H| |exact H]. destruct H as (e & s' & E & [X|(X & _)] & H); [|discriminate X]. exists e, s'. split; [exact E|]. split; [left; exact X|exact H].
Qed.
Lemma sgave_blame : forall ts d p stk s o (m : @Q W unit) s0, dgave d p stk s o (m s0) -> sgave p stk s o (blame ts m s0).
Proof.
  intros ts d p stk s (g, [v|q|v]) m s0 H; unfold blame.
  - destruct H as (s' & -> & H). exists s'. auto.
  - destruct H as (e & s' & -> & [(src & ->)|(_ & ->)] & H).
    + exists (wrap src (PUser q)), s'. rewrite wrap_wrap. split; [reflexivity|]. split; [left; exists src; reflexivity|exact H].
    + exists (wrap ts (PUser q)), s'. split; [reflexivity|]. split; [left; exists ts; reflexivity|exact H].
  - destruct H as (s' & -> & H). exists s'. split; [reflexivity|exact H].
Qed.
(** a panic here and now *)
Lemma throws : forall p l stk s h q, fine q -> at_store p h s -> e_stk s = l ++ stk -> dgave true p stk s (h, Panics q) (inr (PUser q, s)).
Proof. intros p l stk s h q Fq V K. exists (PUser q), s. split; [reflexivity|]. split; [right; auto|]. split; [exact Fq|]. split; [exists l; exact K|]. split; [exact V|]. apply like_is_still, like_refl. Qed.
(** one after another *)
Definition stops (r : result) : Prop := match r with Gives _ => False | _ => True end.
Lemma sgave_stop : forall {A} d p stk s h r (m : @Q W unit) (f : unit -> @Q W A) (g : @qres W A -> @qres W unit), stops r -> dgave d p stk s (h, r) (m s) ->
  (forall e s', g (inr (e, s')) = inr (e, s')) -> dgave d p stk s (h, r) (g (bind m f s)).
Proof.
  intros A d p stk s h [v|q|v] m f g St0 H Hg; [destruct St0| |].
  - destruct H as (e & s' & E & K). exists e, s'. unfold bind. rewrite E, Hg. split; [reflexivity|exact K].
  - destruct H as (s' & E & K). exists s'. unfold bind. rewrite E, Hg. split; [reflexivity|exact K].
Qed.

Lemma sgave_lower : forall d p l stk s h rs r, stops rs -> dgave d p (l ++ stk) s (h, rs) r -> dgave d p stk s (h, rs) r.
Proof.
  intros d p l stk s h [v|q|v] r St0; [destruct St0| |].
  - intros (e & s' & E & X0 & Fq & (l' & K) & R). exists e, s'. split; [exact E|]. split; [exact X0|]. split; [exact Fq|]. split; [exists (l' ++ l); rewrite K; apply app_assoc|exact R].
  - intros (s' & E & X0 & Fq & (l' & K) & R). exists s'. split; [exact E|]. split; [exact X0|]. split; [exact Fq|]. split; [exists (l' ++ l); rewrite K; apply app_assoc|exact R].
Qed.
(** one after another; [l] is what is on the stack for later *)
Lemma seq_gave : forall d l (a : option foutcome) kf p h o (m f : nat -> @Q W unit), fthen a kf = Some o ->
  (forall o1, a = Some o1 -> exists N, forall n s, (N <= n)%nat -> at_store p h s -> dgave d p (e_stk s) s o1 (m n s)) ->
  (forall h1 v, kf h1 v = Some o -> exists N, forall n s stk, (N <= n)%nat -> at_store p h1 s -> plain v -> e_stk s = v :: l ++ stk -> dgave d p stk s o (f n s)) ->
  exists N, forall n s stk, (N <= n)%nat -> at_store p h s -> e_stk s = l ++ stk -> dgave d p stk s o ((m n ;;; f n) s).
Proof.
  intros d l a kf p h o m f E Ha Hf. destruct a as [(h1, r)|]; [|discriminate E]. destruct (Ha _ eq_refl) as (N1 & M1).
  assert (D : (exists v, r = Gives v) \/ stops r) by (destruct r; [left; eauto|right; exact Logic.I|right; exact Logic.I]). destruct D as [(v & ->)|D]; cbn [fthen] in E.
  - destruct (Hf h1 v E) as (N2 & M2). exists (N1 + N2)%nat. intros n s stk Hn V K. destruct (M1 n s ltac:(lia) V) as (s1 & E1 & Pv & K1 & V1 & S1). unfold bind. rewrite E1. apply (sgave_from d p stk s s1); [exact S1|].
    apply M2; [lia|exact V1|exact Pv|rewrite K1, K; reflexivity].
  - assert (o = (h1, r)) as -> by (destruct r; [destruct D| |]; injection E as <-; reflexivity). exists N1. intros n s stk Hn V K. apply (sgave_stop _ _ _ _ h1 r _ _ (fun r => r) D); [|reflexivity].
    apply (sgave_lower d p l stk s h1 r _ D). rewrite <- K. apply M1; assumption.
Qed.
Lemma seq_gave0 : forall d (a : option foutcome) kf p h o (m f : nat -> @Q W unit), fthen a kf = Some o ->
  (forall o1, a = Some o1 -> exists N, forall n s, (N <= n)%nat -> at_store p h s -> dgave d p (e_stk s) s o1 (m n s)) ->
  (forall h1 v, kf h1 v = Some o -> exists N, forall n s stk, (N <= n)%nat -> at_store p h1 s -> plain v -> e_stk s = v :: stk -> dgave d p stk s o (f n s)) ->
  exists N, forall n s, (N <= n)%nat -> at_store p h s -> dgave d p (e_stk s) s o ((m n ;;; f n) s).
Proof. intros d a kf p h o m f E Ha Hf. destruct (seq_gave d [] a kf p h o m f E Ha Hf) as (N & M). exists N. intros n s Hn V. apply M; [exact Hn|exact V|reflexivity]. Qed.
(** a value on the stack, with what was above it gone *)
Lemma push_gave : forall d p h s stk v, at_store p h s -> plain v -> dgave d p stk s (h, Gives v) (push v (set_stk stk s)).
Proof. intros d p h s stk v V Pv. exists (set_stk (v :: stk) s). split; [reflexivity|]. split; [exact Pv|]. split; [reflexivity|]. split; [apply store_stk; exact V|apply like_stk]. Qed.

(** ** Names *)
Lemma public_iff : forall n, is_public n = true <-> public n.
Proof.
  intros [|c n]; cbn.
  - split; [discriminate|]. intros (c & n' & E & _). discriminate E.
  - destruct (Z.eqb_spec c 95) as [->|N]; cbn; split; try discriminate; [|intros _; exists c, n; auto|reflexivity]. intros (c & n' & [= <- <-] & X). contradiction.
Qed.
Lemma owner_sees : forall p h s, at_store p h s -> forall k i n, (i < k)%nat ->
  match owner k h i n with Some q => exists v, own h q n = Some v /\ sees s n i q v | None => forall q v, ~ sees s n i q v end.
Proof.
  intros p h s (C & F & N & P & V & _). induction k as [|k IH]; intros i n Hi; [lia|]. cbn [owner]. destruct (own h i n) as [v|] eqn:O.
  - exists v. split; [exact O|]. apply sees_own. apply V. exact O.
  - assert (D : forall v, ~ defines s n i v) by (intros v X; apply V in X; congruence). destruct (is_public n) eqn:B.
    + apply public_iff in B. rewrite <- P. destruct (parent i s) as [j|] eqn:E.
      * pose proof (proj1 C i j E) as Hj. specialize (IH j n ltac:(lia)). destruct (owner k h j n) as [q|].
        -- destruct IH as (v & O' & S). exists v. split; [exact O'|]. eapply sees_up; eassumption.
        -- intros q v S. inversion S; subst; [exact (D _ H)|]. replace j0 with j in * by congruence. eapply IH. eassumption.
      * intros q v S. inversion S; subst; [exact (D _ H)|congruence].
    + intros q v S. inversion S; subst; [exact (D _ H)|]. apply public_iff in H0. congruence.
Qed.
Lemma whose_sees : forall p h s n, at_store p h s -> match whose h p n with Some q => exists v, view h p n = Some v /\ own h q n = Some v /\ sees s n p q v | None => view h p n = None /\ forall q v, ~ sees s n p q v end.
Proof.
  intros p h s n V. assert (X : match whose h p n with Some q => exists v, own h q n = Some v /\ sees s n p q v | None => forall q v, ~ sees s n p q v end) by (apply (owner_sees p h s V); destruct V as (_ & F & N & _); lia).
  unfold view. destruct (whose h p n) as [q|]; [|split; [reflexivity|exact X]]. destruct X as (v & O & S). exists v. split; [exact O|]. split; [exact O|exact S].
Qed.
(** what a call knows it sees *)
Lemma knows_sees : forall p h s n, at_store p h s -> knows h p n = true -> exists q v, whose h p n = Some q /\ view h p n = Some v /\ has_entry s n p /\ sees s n p q v /\ (q < length (st_scopes h))%nat.
Proof.
  intros p h s n V H. pose proof (whose_sees p h s n V) as X. destruct V as (C & F & N & P & V & I & T). apply T in H. destruct (entry_sees s n p C H) as (q & v & S & _). destruct (whose h p n) as [q'|]; [|destruct X as (_ & X); exfalso; exact (X _ _ S)].
  destruct X as (v' & X1 & X2 & X3). exists q', v'. repeat (split; [assumption || reflexivity|]). rewrite <- N. eapply frame_in. eapply sees_def. exact X3.
Qed.
Lemma set_at : forall {A} p (x y : A) l, nth_error l p = Some y -> forall i, nth_error (set_nth p x l) i = if (i =? p)%nat then Some x else nth_error l i.
Proof. intros A p x y l. revert p. induction l as [|z l IH]; intros p E i; [destruct p; discriminate E|]. destruct p as [|p]; cbn [set_nth]; destruct i as [|i]; cbn [nth_error Nat.eqb]; try reflexivity. apply IH. exact E. Qed.
Lemma noted_facts : forall p n h,
  length (st_scopes (note_read p n h)) = length (st_scopes h) /\ (forall i, up (note_read p n h) i = up h i) /\ (st_made (note_read p n h) = st_made h /\ st_caught (note_read p n h) = st_caught h) /\ (forall i m, own (note_read p n h) i m = own h i m) /\ forall i, deferred (note_read p n h) i = deferred h i /\ pending (note_read p n h) i = pending h i.
Proof.
  intros p n h. unfold note_read. destruct (nth_error (st_scopes h) p) as [c|] eqn:E; [|auto 8]. destruct (beq n n_unset); [auto 8|]. destruct (whose h p n); [|auto 8]. cbn [st_scopes st_made]. split; [apply set_nth_length|].
  pose proof (set_at p (mkScope (sc_own c) (sc_up c) (fun m => beq m n || sc_read c m) (sc_deferred c) (sc_pending c)) c (st_scopes h) E) as X.
  split; [intro i; unfold up; cbn [st_scopes]; rewrite X; destruct (Nat.eqb_spec i p) as [->|]; [rewrite E|]; reflexivity|]. split; [split; reflexivity|].
  split; [intros i m; unfold own|intro i; unfold deferred, pending]; cbn [st_scopes]; rewrite X; destruct (Nat.eqb_spec i p) as [->|]; try rewrite E; try split; reflexivity.
Qed.
Lemma noted_knows : forall p n h q, n <> n_unset -> (p < length (st_scopes h))%nat -> whose h p n = Some q -> forall i m, knows (note_read p n h) i m = (beq m n && (i =? p)%nat || knows h i m)%bool.
Proof.
  intros p n h q Nu Hp Hw i m. unfold knows at 1. destruct (noted_facts p n h) as (_ & _ & _ & O & _). rewrite O. unfold knows.
  assert (X : has_read (note_read p n h) i m = (beq m n && (i =? p)%nat || has_read h i m)%bool).
  { unfold has_read, note_read. destruct (nth_error (st_scopes h) p) as [c|] eqn:E; [|apply nth_error_None in E; lia]. rewrite (beq_neq _ _ Nu), Hw. cbn [st_scopes]. rewrite (set_at p _ c _ E). destruct (Nat.eqb_spec i p) as [->|]; [rewrite E; cbn [sc_read]; rewrite Bool.andb_true_r; reflexivity|rewrite Bool.andb_false_r; reflexivity]. }
  rewrite X. destruct (own h i m); [rewrite Bool.orb_true_r|]; reflexivity.
Qed.
Lemma noted_same : forall p n h, n = n_unset \/ whose h p n = None -> note_read p n h = h.
Proof. intros p n h H. unfold note_read. destruct (nth_error (st_scopes h) p); [|reflexivity]. destruct H as [->|H]; [reflexivity|]. rewrite H. destruct (beq n n_unset); reflexivity. Qed.
Lemma put_entries : forall q n v l (s : St), (q < nframes s)%nat -> forall m i, has_entry (set_stk l (put q n v s)) m i <-> has_entry s m i \/ (m = n /\ i = q).
Proof.
  intros q n v l s Hq m i. unfold has_entry. change (var_of i m (set_stk l (put q n v s))) with (var_of i m (put q n v s)). rewrite var_of_put by exact Hq.
  destruct (beq m n) eqn:B; cbn [andb]; [apply beq_eq in B; subst m|].
  - destruct (Nat.eqb_spec i q) as [->|X]; [split; [auto|discriminate]|]. split; [auto|]. intros [H|(_ & H)]; [exact H|contradiction].
  - split; [auto|]. intros [H|(H & _)]; [exact H|]. subst m. rewrite beq_refl in B. discriminate B.
Qed.
(** reading a name *)
Lemma read_entries : forall p n s q v v' s', coherent s -> n <> n_unset -> sees s n p q v -> getRef L p n s = inl (v', s') -> forall m i, has_entry s' m i <-> has_entry s m i \/ (m = n /\ i = p).
Proof.
  intros p n s q v v' s' C Nu S E m i. assert (Same : has_entry s n p -> (has_entry s m i <-> has_entry s m i \/ m = n /\ i = p)) by (intro H; split; [auto|intros [X|(-> & ->)]; assumption]).
  unfold getRef in E. rewrite (beq_neq _ _ Nu) in E. destruct (var_of p n s) as [e|] eqn:Ee.
  - assert (X : has_entry s n p) by (unfold has_entry; congruence). destruct e; injection E as _ <-; apply Same; exact X.
  - assert (Hp : (p < nframes s)%nat /\ public n) by (inversion S; subst; [destruct H; congruence|split; [eapply nframes_parent; eassumption|assumption]]). destruct Hp as (Hp & P).
    rewrite (proj2 (inherits_public n) P) in E. destruct (outer_spec s n p C P Ee) as [(_ & H)|(t & e & q' & v0 & F & _)]; [exfalso; exact (H _ _ S)|]. rewrite F in E.
    assert (Y : exists q0, s' = put p n (VExtern q0) s) by (destruct e; unfold set_var, modify in E; injection E as _ <-; eexists; reflexivity). destruct Y as (q0 & ->). change (put p n (VExtern q0) s) with (set_stk (e_stk s) (put p n (VExtern q0) s)). apply put_entries. exact Hp.
Qed.

(** ** Values and panics *)
Definition good_val (r : value + pvq) : Prop := match r with inl v => plain v | inr q => fine q end.
Lemma eq_fine : forall a b, match EQ (l_same L) a b with inl (VBool _) => True | inr q => fine q | _ => False end.
Proof.
  intros a b. destruct a; destruct b; cbn; try exact Logic.I.
  all: try (destruct (l_same L _ _); try exact Logic.I; rewrite ?Bool.orb_true_r, ?Bool.orb_false_r; try exact Logic.I; destruct (beq _ _); exact Logic.I).
  all: destruct t; try exact Logic.I; destruct t0; exact Logic.I.
Qed.
Lemma op_fine : forall l k f, operator L l k f -> forall a b, good_val (f a b).
Proof.
  intros l k f H a b.
  assert (T : forall f, (match f with inl (VBool _) | inl (VInt _) | inl (VFloat _) | inl (VStr _) => True | inr q => fine q | _ => False end) -> good_val f).
  { intros [[]|q] X; try destruct X; try exact X; intros ? ?; discriminate. }
  apply T. clear T. destruct H.
  1-5: destruct a; try exact Logic.I; destruct b; try exact Logic.I; cbn; try destruct (_ =? 0); exact Logic.I.
  1-4: destruct a; try exact Logic.I; destruct b; exact Logic.I.
  - pose proof (eq_fine a b) as X. destruct (EQ (l_same L) a b) as [[]|q]; try destruct X; try exact Logic.I. exact X.
  - pose proof (eq_fine a b) as X. unfold NE. destruct (EQ (l_same L) a b) as [[]|q]; try destruct X; try exact Logic.I. exact X.
Qed.
Lemma un_fine : forall a, good_val (Not a) /\ good_val (Neg a).
Proof. intro a. split; destruct a; try exact Logic.I; intros ? ?; discriminate. Qed.
Variable PL : plain_lib L.
(** ** Pieces of code *)
Lemma code_gave : forall rule ts c, text_is L rule ts c -> exists N', forall N p h o,
  (forall n s, (N <= n)%nat -> at_store p h s -> fr_base (getf p s) = length (e_stk s) -> sgave p (e_stk s) s o (c (ev n) n p s)) ->
  forall n s, (S (N + N') <= n)%nat -> at_store p h s -> sgave p (e_stk s) s o (evalCode (ev n) p rule (VCode ts) s).
Proof.
  intros rule ts c Ht. destruct (eval_text L rule ts c Ht) as (N' & E). exists N'. intros N p h o H n s Hn V0. pose proof V0 as (C & F & NF & _). destruct n as [|n]; [lia|].
  unfold evalCode, bind, depth, modify, gets. set (s1 := updf p (set_base (length (e_stk s))) s). rewrite (E n p s1) by lia. unfold evaluated. set (s2 := set_mute 0 (set_ipt p s1)).
  pose proof (fun i => getf_base p (length (e_stk s)) s i) as K0. fold s1 in K0.
  assert (V2 : forall i, fr_vars (getf i s2) = fr_vars (getf i s) /\ fr_defers (getf i s2) = fr_defers (getf i s) /\ fr_recov (getf i s2) = fr_recov (getf i s)) by (intro i; split; [|split]; apply (K0 i)).
  assert (P2 : forall i, parent i s2 = parent i s) by (intro i; apply (K0 i)).
  assert (N2 : nframes s2 = nframes s) by (apply (nframes_updf p (set_base (length (e_stk s))) s)).
  assert (G2 : at_store p h s2) by (apply (store_like p p h s s2 V2 P2 N2 (conj eq_refl eq_refl) F V0)).
  assert (B2 : fr_base (getf p s2) = length (e_stk s2)). { change (getf p s2) with (getf p s1). destruct (K0 p) as (_ & _ & _ & _ & _ & ->). rewrite Nat.eqb_refl, (proj2 (Nat.ltb_lt _ _) F). reflexivity. }
  specialize (H n s2 ltac:(lia) G2 B2). change (e_stk s2) with (e_stk s) in H.
  assert (S12 : forall r s3, (exists l, e_stk s3 = l ++ e_stk s) -> still r p s2 s3 -> still r p s (aside s1 s3)).
  { intros r s3 (l & El) (A & A1 & A2 & A3 & A4 & A5). split; [|split; [change (nframes (aside s1 s3)) with (nframes s3); lia|repeat split; assumption]]. intros i Hi. rewrite <- N2 in Hi. destruct (A i Hi) as (a2 & a3 & a4).
    change (getf i (aside s1 s3)) with (getf i s3). change (e_stk (aside s1 s3)) with (e_stk s3). destruct (K0 i) as (_ & j4 & j2 & j3 & _ & j5). unfold parent in j4. change (getf i s2) with (getf i s1) in *. rewrite a2, j4. split; [reflexivity|]. split; [intro X; rewrite (a3 X); exact j2|].
    destruct a4 as [a4|a4]; [|right; exact a4]. rewrite a4, j5. destruct (Nat.eqb_spec i p) as [->|]; [|left; reflexivity]. destruct (_ <? _)%nat; cbn [andb]; [right; split; [reflexivity|]; rewrite El, app_length; lia|left; reflexivity]. }
  destruct o as (h', [v|q|v]); cbn [dgave fst snd] in *.
  - destruct H as (s3 & -> & Pv & K3 & V3 & S3). set (s4 := aside s1 s3). pose proof (fun i => getf_base p (fr_base (getf p s)) s4 i) as K. exists (updf p (set_base (fr_base (getf p s))) s4).
    split; [reflexivity|]. split; [exact Pv|]. split; [exact K3|]. assert (F3 : (p < nframes s3)%nat) by apply V3. split.
    + apply (store_like p p h' s3); [intro i; split; [|split]; apply (K i)|intro i; apply (K i)|exact (nframes_updf p _ s4)|split; reflexivity|exact F3|exact V3].
    + destruct S3 as (A & A1 & A2). split; [|split; [rewrite nframes_updf; change (nframes s4) with (nframes s3); lia|repeat split; apply A2]]. intros i Hi. rewrite <- N2 in Hi. destruct (A i Hi) as (a2 & a3 & a4).
      destruct (K i) as (_ & k4 & k2 & k3 & _ & k5). unfold parent in k4. rewrite k2, k4, k5. change (getf i s4) with (getf i s3). destruct (K0 i) as (_ & j4 & j2 & j3 & _ & j5). unfold parent in j4. change (getf i s2) with (getf i s1) in *. rewrite a2, a3, a4, j2, j4, j5. repeat split.
      rewrite (proj2 (Nat.ltb_lt _ _) F). change (nframes s4) with (nframes s3). rewrite (proj2 (Nat.ltb_lt _ _) F3). destruct (Nat.eqb_spec i p) as [->|]; reflexivity.
  - destruct H as (e & s3 & -> & X3 & Fq & K3 & V3 & S3). exists e, (aside s1 s3). split; [reflexivity|]. split; [exact X3|]. split; [exact Fq|]. split; [exact K3|]. split; [|apply S12; [exact K3|exact S3]].
    destruct V3 as (C3 & V3). split; [apply (coherent_like s3); [reflexivity|reflexivity|exact C3]|exact V3].
  - destruct H as (s3 & -> & Pv & R & K3 & V3 & S3). exists (aside s1 s3). split; [reflexivity|]. split; [exact Pv|]. split; [exact R|]. split; [exact K3|]. split; [|apply S12; [exact K3|exact S3]].
    destruct V3 as (C3 & V3). split; [apply (coherent_like s3); [reflexivity|reflexivity|exact C3]|exact V3].
Qed.
(** ** Calls *)
Variable call : func -> list value -> store -> option foutcome.
Variable k : nat.
(** a call from [p] that started in [s] has this outcome *)
Definition fgave (p : nat) (s : St) (o : foutcome) (r : @qres W value) : Prop :=
  match snd o with
  | Gives v => exists s', r = inl (v, s') /\ plain v /\ e_stk s' = e_stk s /\ at_store p (fst o) s' /\ like s s'
  | Panics q => exists e s', r = inr (e, s') /\ panics_as true q e /\ fine q /\ (exists l, e_stk s' = l ++ e_stk s) /\ at_store p (fst o) s' /\ still false p s s'
  | Returns _ => False
  end.
Definition calls_ok : Prop := forall f vs h o, call f vs h = Some o -> Forall plain vs -> exists N, forall n p s, (N <= n)%nat -> at_store p h s -> fgave p s o (FnCall (ev n) f vs s).
Variable Hcall : calls_ok.
Notation xval := (QFun.xval L call).
Notation xvals := (QFun.xvals L call).
Notation xoval := (QFun.xoval L call).
Notation frun := (QFun.frun L call k).
Notation fbrun := (QFun.fbrun L call k).
Notation fifrun := (QFun.fifrun L call k).
Notation fcaserun := (QFun.fcaserun L call k).

(** ** Meanings *)
Definition emeans (e : fx) (c : sem) : Prop :=
  forall p h o, xval e p h = Some o -> exists N, forall n s, (N <= n)%nat -> at_store p h s -> sgave p (e_stk s) s o (c (ev n) n p s).
Definition cmeans (rule : bytes) (e : fx) (ts : list token) : Prop :=
  forall p h o, xval e p h = Some o -> exists N, forall n s, (N <= n)%nat -> at_store p h s -> sgave p (e_stk s) s o (evalCode (ev n) p rule (VCode ts) s).
Definition smeans (st : fstmt) (c : sem) : Prop :=
  forall p h o, frun st p h = Some o -> exists N, forall n s, (N <= n)%nat -> at_store p h s -> sgave p (e_stk s) s o (c (ev n) n p s).
Definition bodymeans (b : fblock) (ts : list token) : Prop :=
  forall p h o, fbrun b p h = Some o -> exists N, forall n s, (N <= n)%nat -> at_store p h s -> sgave p (e_stk s) s o (run_body (ev n) p ts s).
(** what follows a statement of value [v] *)
Definition rrun (b : fblock) (v : value) (p : nat) (h : store) : option foutcome := match b with FNil => Some (h, Gives v) | _ => fbrun b p h end.
Lemma brun_cons : forall s b p h, fbrun (FCons s b) p h = fthen (frun s p h) (fun h1 v => rrun b v p h1).
Proof. intros s [|s' b] p h; [|reflexivity]. change (fbrun (FCons s FNil) p h) with (frun s p h). destruct (frun s p h) as [(g1, [v|q|v])|]; reflexivity. Qed.
Definition rmeans (b : fblock) (c : sem) : Prop :=
  forall p h v o, rrun b v p h = Some o -> exists N, forall n s stk, (N <= n)%nat -> at_store p h s -> plain v -> e_stk s = v :: stk -> (fr_base (getf p s) <= length stk)%nat ->
    sgave p (match b with FNil => stk | _ => cut_to (fr_base (getf p s)) stk end) s o (c (ev n) n p s).
Fixpoint brmeans (br : fbranches) (l : list (list token * list token)) : Prop :=
  match br, l with
  | GNil, [] => True
  | GCons c b br', (cs, bs) :: l' => cmeans n_expr c cs /\ bodymeans b bs /\ brmeans br' l'
  | _, _ => False
  end.
Lemma cmeans_of : forall rule e ts c, text_is L rule ts c -> emeans e c -> cmeans rule e ts.
Proof.
  intros rule e ts c Ht H p h o E. destruct (H p h o E) as (N & M). destruct (code_gave rule ts c Ht) as (N' & G). exists (S (N + N')). intros n s Hn V. apply (G N p h); [|exact Hn|exact V]. intros n' s' Hn' V' _. apply M; assumption.
Qed.
Lemma emeans_alike : forall e c c', alike c c' -> emeans e c' -> emeans e c.
Proof. intros e c c' A H p h o E. destruct (H p h o E) as (N & M). exists N. intros n s Hn V. rewrite A. apply M; assumption. Qed.

(** ** Expressions *)
(** the result of an operator *)
Lemma op_gave : forall p h s stk (r : value + pvq), good_val r -> at_store p h s -> dgave true p stk s (h, ends_in r) ((v <-- of_op r ;; push v) (set_stk stk s)).
Proof.
  intros p h s stk [v|q] G V; unfold of_op, bind, ret, throw.
  - apply push_gave; [exact V|exact G].
  - eapply sgave_from; [apply (like_stk s stk)|]. apply (throws p [] stk (set_stk stk s) h q G); [apply store_stk; exact V|reflexivity].
Qed.
Lemma lit_means : forall t v, literal L t v -> exists c, factor_is L [t] c /\ emeans (YLit v) c.
Proof.
  intros t v H. assert (G : forall m : @Q W unit, plain v -> (forall s, m s = inl (tt, pushed v s)) -> emeans (YLit v) (fun _ _ _ => blame [t] m)).
  { intros m Pv Hm p h o [= <-]. exists 0%nat. intros n s _ V. apply (sgave_blame _ true). rewrite Hm. exists (pushed v s). split; [reflexivity|]. split; [exact Pv|]. split; [reflexivity|]. split; [apply store_stk; exact V|apply like_stk]. }
  destruct H as [t z K E|t f K E|t b K E|t q c z K E E'].
  - eexists. split; [apply F_int; exact K|]. apply G; [intros ? ?; discriminate|]. intro s. unfold int_lit. rewrite E. reflexivity.
  - eexists. split; [apply F_float; exact K|]. apply G; [intros ? ?; discriminate|]. intro s. unfold float_lit. rewrite E. reflexivity.
  - eexists. split; [apply F_string; exact K|]. apply G; [intros ? ?; discriminate|]. intro s. unfold PushString. rewrite E. reflexivity.
  - eexists. split; [apply F_char; exact K|]. apply G; [intros ? ?; discriminate|]. intro s. unfold PushByte. rewrite E. cbn [length]. rewrite app_length. cbn [length]. replace (S (length c + 1) <? 2)%nat with false by (symmetry; apply Nat.ltb_ge; lia).
    replace (firstn (S (length c + 1) - 2) (skipn 1 (q :: c ++ [q]))) with c; [rewrite E'; reflexivity|]. cbn [skipn]. replace (S (length c + 1) - 2)%nat with (length c) by lia. rewrite firstn_app, Nat.sub_diag, firstn_all, app_nil_r. reflexivity.
Qed.
Lemma ref_gave : forall p x h s, at_store p h s -> dgave true p (e_stk s) s (note_read p x h, ends_in (name_val L p (view h p) x)) (Ref L p x s).
Proof.
  intros p x h s V. pose proof (whose_sees p h s x V) as X. unfold Ref, bind, name_val. destruct (beq x n_unset) eqn:B.
  - apply beq_eq in B. subst x. rewrite (noted_same p n_unset h (or_introl eq_refl)). unfold getRef. rewrite beq_refl. exists (pushed (VUnset p) s). split; [reflexivity|]. split; [intros ? ?; discriminate|]. split; [reflexivity|]. split; [apply store_stk; exact V|apply like_stk].
  - assert (Nu : x <> n_unset) by (intro Y; subst; rewrite beq_refl in B; discriminate). destruct (whose h p x) as [q|] eqn:Hw.
    + destruct X as (v & -> & _ & S). pose proof V as (C & F & N & P & D & I & T). destruct (C57_read L p x s q v C Nu S) as (s1 & E & (A1 & A2 & A3 & A4 & A5 & A6 & A7 & A8 & A9 & A10) & C1 & _). pose proof (read_entries p x s q v v s1 C Nu S E) as R. rewrite E.
      destruct (noted_facts p x h) as (O1 & O2 & O3 & O4 & O5). exists (pushed v s1). split; [reflexivity|]. split; [apply (sees_def _ _ _ _ _ S)|]. split; [cbn; rewrite A4; reflexivity|]. cbn [fst]. split.
      * split; [apply coherent_stk; exact C1|]. change (nframes (pushed v s1)) with (nframes s1). rewrite A3, O1. split; [exact F|]. split; [exact N|]. split; [intro i; rewrite O2, <- P; change (parent i (pushed v s1)) with (parent i s1); apply (A2 i)|].
        split; [intros i n u; change (defines (pushed v s1) n i u) with (defines s1 n i u); rewrite A1, O4; apply D|]. split; [apply (kept_like h _ s); [exact I|exact O3|exact O2|exact O5|split; [exact A8|exact A9]|intro i; split; apply (A2 i)]|].
        intros i m. change (has_entry (pushed v s1) m i) with (has_entry s1 m i). rewrite R, T, (noted_knows p x h q Nu ltac:(lia) Hw), Bool.orb_true_iff, Bool.andb_true_iff. rewrite Nat.eqb_eq.
        split; [intros [Y|(-> & ->)]; [right; exact Y|left; split; [apply beq_refl|reflexivity]]|intros [(Y & ->)|Y]; [right; apply beq_eq in Y; auto|left; exact Y]].
      * split; [intros i _; destruct (A2 i) as (a & b & c & d & e); auto|]. split; [change (nframes (pushed v s1)) with (nframes s1); lia|]. repeat split; assumption.
    + destruct X as (-> & X). rewrite (noted_same p x h (or_intror Hw)). destruct x as [|c0 x].
      * unfold getRef. assert (E : var_of p [] s = None).
        { destruct (var_of p [] s) as [u|] eqn:E; [|reflexivity]. exfalso. destruct (plain_dec u) as [D|(q & ->)]; [eapply X; apply sees_own; split; eassumption|]. destruct (proj2 (proj1 V) _ _ _ E) as (v & S). exact (X _ _ S). }
        cbn [beq n_unset]. rewrite E. cbn [inherits]. apply (throws p [] (e_stk s) s h rt_error Logic.I V eq_refl).
      * rewrite (C57_read_builtin L p (c0 :: x) s (proj1 V) Nu ltac:(discriminate) X). destruct (l_fnval L (c0 :: x)) as [v|] eqn:Fv.
        -- exists (pushed v s). split; [reflexivity|]. split; [exact (PL _ _ Fv)|]. split; [reflexivity|]. split; [apply store_stk; exact V|apply like_stk].
        -- apply (throws p [] (e_stk s) s h (msg m_nosym [VStr (c0 :: x)]) Logic.I V eq_refl).
Qed.
Lemma ref_means : forall t, emeans (YVar (tlit t)) (fun _ _ p => blame [t] (Ref L p (tlit t))).
Proof. intros t p h o [= <-]. exists 0%nat. intros n s _ V. apply (sgave_blame _ true). apply ref_gave. exact V. Qed.
Lemma un_means : forall c e ts m f, (forall v, good_val (f v)) -> emeans e c -> emeans (YUn f e) (c >> (fun _ _ _ => blame ts (unary m f))).
Proof.
  intros c e ts m f Hf H p h o E. apply (seq_gave0 false (xval e p h) (fun h1 v => Some (h1, ends_in (f v))) p h o (fun n => c (ev n) n p) (fun _ => blame ts (unary m f)) E (H p h)).
  intros h1 v [= <-]. exists 0%nat. intros n s stk _ V Pv K. apply (sgave_blame _ true). unfold unary. rewrite K. apply op_gave; [apply Hf|exact V].
Qed.
Lemma bin_means : forall c e c' e' ts m f, (forall v w, good_val (f v w)) -> emeans e c -> emeans e' c' -> emeans (YBin f e e') (c >> (c' >> (fun _ _ _ => blame ts (binary m f)))).
Proof.
  intros c e c' e' ts m f Hf H H' p h o E. apply (seq_gave0 false (xval e p h) (fun h1 v => fthen (xval e' p h1) (fun h2 w => Some (h2, ends_in (f v w)))) p h o (fun n => c (ev n) n p) (fun n => (c' >> (fun _ _ _ => blame ts (binary m f))) (ev n) n p) E (H p h)).
  intros h1 v E1. destruct (seq_gave false [v] (xval e' p h1) _ p h1 o (fun n => c' (ev n) n p) (fun _ => blame ts (binary m f)) E1 (H' p h1)) as (N & M).
  - intros h2 w [= <-]. exists 0%nat. intros n s stk _ V Pw K. apply (sgave_blame _ true). unfold binary. rewrite K. apply op_gave; [apply Hf|exact V].
  - exists N. intros n s stk Hn V _ K. apply M; assumption.
Qed.
Lemma lazy_means : forall stop rule m ts c a c' b ts' mk, (mk = YAnd /\ stop = false /\ m = m_and) \/ (mk = YOr /\ stop = true /\ m = m_or) ->
  emeans a c -> text_is L rule ts' c' -> emeans b c' -> emeans (mk a b) (c >> (fun ev k p => blame ts (lazy_op stop rule m ts' ev k p))).
Proof.
  intros stop rule m ts c a c' b ts' mk Hm H Ht Hb p h o E. pose proof (cmeans_of rule b ts' c' Ht Hb) as H'.
  assert (X : fthen (xval a p h) (fun h1 v => match v with VBool x => if Bool.eqb x stop then Some (h1, Gives (VBool stop)) else xval b p h1 | _ => Some (h1, Panics (msg m [])) end) = Some o).
  { destruct Hm as [(-> & -> & ->)|(-> & -> & ->)]; cbn [QFun.xval] in E; rewrite <- E; destruct (xval a p h) as [(h1, [v|q|v])|]; try reflexivity; destruct v as [|[]| | | | | | | | | | | | | | | | | | | | | | | ]; reflexivity. }
  clear E. apply (seq_gave0 false (xval a p h) _ p h o (fun n => c (ev n) n p) (fun n => blame ts (lazy_op stop rule m ts' (ev n) n p)) X (H p h)).
  intros h1 v E1.
  assert (Y : exists N, forall n s stk, (N <= n)%nat -> at_store p h1 s -> dgave true p stk s o (match v with VBool b => if Bool.eqb b stop then push (VBool stop) (set_stk stk s) else evalCode (ev n) p rule (VCode ts') (set_stk stk s) | _ => inr (PUser (msg m []), set_stk stk s) end)).
  { destruct v as [|x| | | | | | | | | | | | | | | | | | | | | | | ];
      try (injection E1 as <-; exists 0%nat; intros n1 s1 stk1 _ V1; eapply sgave_from; [apply (like_stk s1 stk1)|]; apply (throws p [] stk1 (set_stk stk1 s1) h1 (msg m []) Logic.I (store_stk _ _ _ _ V1) eq_refl)).
    destruct (Bool.eqb x stop).
    - injection E1 as <-. exists 0%nat. intros n s stk _ V. apply push_gave; [exact V|intros ? ?; discriminate].
    - destruct (H' p h1 o E1) as (N & M). exists N. intros n s stk Hn V. eapply sgave_from; [apply (like_stk s stk)|]. apply loosely. apply (M n (set_stk stk s) Hn). apply store_stk. exact V. }
  destruct Y as (N & Y). exists N. intros n s stk Hn V _ K. apply (sgave_blame _ true). specialize (Y n s stk Hn V). unfold lazy_op, pop_any, pop, bind, ret. rewrite K. destruct v as [|x| | | | | | | | | | | | | | | | | | | | | | | ]; try exact Y. destruct (Bool.eqb x stop); exact Y.
Qed.
(** functions are made *)
Lemma put_names_run : forall ns ev0 j p (s : St), put_names ns ev0 j p s = inl (tt, set_stk (rev (map VStr ns) ++ e_stk s) s) \/ ns = [].
Proof.
  induction ns as [|x ns IH]; intros ev0 j p s; [right; reflexivity|]. left. cbn [put_names]. unfold seq, bind, puts, push, modify. destruct (IH ev0 j p (set_stk (VStr x :: e_stk s) s)) as [->| ->]; [|reflexivity].
  cbn [map rev e_stk set_stk]. rewrite <- app_assoc. reflexivity.
Qed.
Lemma names_run : forall ns ev0 j p (s : St), exists s', put_names ns ev0 j p s = inl (tt, s') /\ s' = set_stk (rev (map VStr ns) ++ e_stk s) s.
Proof. intros ns ev0 j p s. destruct (put_names_run ns ev0 j p s) as [H| ->]; [eauto|]. exists s. split; [reflexivity|]. destruct s. reflexivity. Qed.
Lemma fn_means : forall ps v body ts, emeans (YFn ps v body) ((put_names ps >> count (length ps) >> count (Nat.b2n v) >> puts (code body)) >> (fun _ _ p => blame ts (raise (Function p)))).
Proof.
  intros ps v body ts p h o [= <-]. exists 0%nat. intros n s _ (C & F & N & P & V & I & T).
  assert (X : Function p (set_stk (code body :: VInt (Z.of_nat (Nat.b2n v)) :: VInt (Z.of_nat (length ps)) :: rev (map VStr ps) ++ e_stk s) s) =
    inl (None, pushed (VFunc (mkFunc (r_ids (e_rest s)) ps (code_of (code body)) p v)) (with_ids (S (r_ids (e_rest s))) (set_stk (e_stk s) s)))).
  { unfold Function. rewrite (bind_inl _ _ _ _ _ _ _ (pop_set _ _ _)), (bind_inl _ _ _ _ _ _ _ (popArity_set _ _ _)), (bind_inl _ _ _ _ _ _ _ (popArity_set _ _ _)), (bind_inl _ _ _ _ _ _ _ (popFnArgs_set _ _ _)). destruct v; reflexivity. }
  unfold seq. unfold bind at 1. unfold bind at 1. destruct (names_run ps (ev n) n p s) as (s0 & -> & ->). unfold count, puts, push, modify, bind, blame, raise, bind, ret. cbn [e_stk set_stk].
  match goal with |- context [Function p ?x] => change x with (set_stk (code body :: VInt (Z.of_nat (Nat.b2n v)) :: VInt (Z.of_nat (length ps)) :: rev (map VStr ps) ++ e_stk s) s) end. rewrite X. rewrite (proj1 (proj1 I)).
  eexists. split; [reflexivity|]. split; [intros ? ?; discriminate|]. split; [cbn; do 3 f_equal; destruct body; reflexivity|]. split.
  - split; [apply (coherent_like s); [reflexivity|reflexivity|exact C]|]. exact (conj F (conj N (conj P (conj V (conj (conj (conj eq_refl (proj2 (proj1 I))) (proj2 I)) T))))).
  - split; [auto|]. split; [apply Nat.le_refl|]. repeat split.
Qed.
(** calls *)
Definition ameans (l : fxs) (c : sem) : Prop :=
  forall p h h1 r, xvals l p h = Some (h1, r) -> exists N, forall n s, (N <= n)%nat -> at_store p h s ->
    match r with
    | inl vs => exists s', c (ev n) n p s = inl (tt, s') /\ e_stk s' = rev vs ++ e_stk s /\ at_store p h1 s' /\ like s s' /\ Forall plain vs /\ length vs = how_many l
    | inr q => sgave p (e_stk s) s (h1, Panics q) (c (ev n) n p s)
    end.
Lemma ameans_nil : ameans YNil nop.
Proof. intros p h h1 r [= <- <-]. exists 0%nat. intros n s _ V. exists s. split; [reflexivity|]. split; [reflexivity|]. split; [exact V|]. split; [apply like_refl|]. split; [constructor|reflexivity]. Qed.
Lemma ameans_cons : forall e l c rc, emeans e c -> ameans l rc -> ameans (YCons e l) (c >> rc).
Proof.
  intros e l c rc He Hl p h h2 r E. change (match xval e p h with Some (h1, Gives v) => match xvals l p h1 with Some (h2, inl vs) => Some (h2, inl (v :: vs)) | r => r end | Some (h1, Panics q) => Some (h1, inr q) | _ => None end = Some (h2, r)) in E.
  destruct (xval e p h) as [(h1, [v|q|v])|] eqn:E1; try discriminate E.
  - destruct (He p h _ E1) as (N & M). destruct (xvals l p h1) as [(h3, r3)|] eqn:E2; [|discriminate E]. destruct (Hl p h1 h3 r3 E2) as (N' & M'). exists (N + N')%nat. intros n s Hn V.
    destruct (M n s ltac:(lia) V) as (s1 & X1 & Pv & K1 & V1 & S1). specialize (M' n s1 ltac:(lia) V1). unfold seq, bind. rewrite X1. destruct r3 as [vs|q]; injection E as <- <-.
    + destruct M' as (s2 & X2 & K2 & V2 & S2 & P2 & L2). exists s2. split; [exact X2|]. split; [rewrite K2, K1; cbn [rev]; rewrite <- app_assoc; reflexivity|]. split; [exact V2|]. split; [eapply like_trans; eassumption|].
      split; [constructor; assumption|cbn; congruence].
    + rewrite K1 in M'. apply (sgave_from _ _ _ s s1 _ _ S1). exact (sgave_lower false p [v] (e_stk s) s1 h3 (Panics q) _ Logic.I M').
  - injection E as <- <-. destruct (He p h _ E1) as (N & M). exists N. intros n s Hn V. apply (sgave_stop _ _ _ _ h1 (Panics q) _ _ (fun r => r) Logic.I (M n s Hn V)). reflexivity.
Qed.
Lemma spread_run : forall n fn vs vs' (s : St), spread_out vs = Some (inl vs') ->
  QVCall L (ev n) (set_stk (VInt 1 :: VInt (Z.of_nat (length vs)) :: rev vs ++ VFunc fn :: e_stk s) s) = PropClass.call_result (FnCall (ev n) fn vs' s).
Proof.
  intros n fn vs vs' s E. unfold spread_out in E. destruct (rev vs) as [|b r] eqn:R; [discriminate E|]. destruct b; try discriminate E. destruct (forallb _ l); [|discriminate E]. injection E as <-.
  assert (Ev : vs = rev r ++ [VSlice t l]) by (rewrite <- (rev_involutive vs), R; reflexivity).
  pose proof (PropClass.C55_spread L (ev n) fn (rev r) (VSlice t l) l s eq_refl) as Q. unfold PropClass.at_call, pushed_all in Q. rewrite PropClass.rev_call, <- Ev, R in Q. unfold PropClass.count in Q. exact Q.
Qed.
Lemma at_vcall : forall n fv (v : bool) vs vs' (s : St), (if v then spread_out vs else Some (inl vs)) = Some (inl vs') ->
  QVCall L (ev n) (set_stk (VInt (Z.of_nat (Nat.b2n v)) :: VInt (Z.of_nat (length vs)) :: rev vs ++ fv :: e_stk s) s) =
  lift_call (Interp.VCall emb q_pushret q_to_float (as_fn L (ev n)) (Z.of_nat (length vs'))) (set_stk (rev vs' ++ fv :: e_stk s) s).
Proof.
  intros n fv v vs vs' s E.
  destruct v; [|injection E as <-; reflexivity]. unfold spread_out in E. destruct (rev vs) as [|b r] eqn:R; [discriminate E|]. destruct b; try discriminate E. destruct (forallb _ l); [|discriminate E]. injection E as <-.
  assert (Ev : vs = rev r ++ [VSlice t l]) by (rewrite <- (rev_involutive vs), R; reflexivity).
  unfold QVCall. rewrite (bind_inl _ _ _ _ _ _ _ (popArity_set _ _ _)), (bind_inl _ _ _ _ _ _ _ (popArity_set _ _ _)). cbn [Z.eqb Pos.eqb Nat.b2n Z.of_nat].
  destruct (Z.eqb_spec (Z.of_nat (length vs)) 0) as [Y|_]; [rewrite Ev, app_length in Y; cbn in Y; lia|].
  unfold bind at 1, bind at 1, pop. cbn [e_stk set_stk app elems_of]. unfold bind, ret. rewrite PropClass.push_all_eq. unfold pushed_all. cbn [e_stk set_stk]. rewrite rev_app_distr, rev_involutive, <- app_assoc, PropClass.set_stk2. f_equal. f_equal. rewrite Ev, !app_length. cbn. lia.
Qed.
Lemma uncalled : forall n fv (v : bool) vs vs' (s : St), no_function fv = true -> (if v then spread_out vs else Some (inl vs)) = Some (inl vs') ->
  QVCall L (ev n) (set_stk (VInt (Z.of_nat (Nat.b2n v)) :: VInt (Z.of_nat (length vs)) :: rev vs ++ fv :: e_stk s) s) = inr (PUser rt_error, s).
Proof.
  intros n fv v vs vs' s F E. rewrite (at_vcall n fv v vs vs' s E).
  unfold lift_call, VCall. cbn [e_stk set_stk]. rewrite PropClass.pop_args, PropClass.set_stk2, PropClass.set_stk_same. assert (An : as_fn L (ev n) (emb fv) = None) by (destruct fv; try discriminate F; reflexivity). rewrite An. reflexivity.
Qed.
(** panic(v) *)
Lemma panicked : forall n (v : bool) vs x q h (s : St), Forall2 thrown (st_caught h) (r_excs (e_rest s)) -> (if v then spread_out vs else Some (inl vs)) = Some (inl [x]) -> thrown_by x h = Some q -> fine q /\
  exists e, QVCall L (ev n) (set_stk (VInt (Z.of_nat (Nat.b2n v)) :: VInt (Z.of_nat (length vs)) :: rev vs ++ VGo n_panic :: e_stk s) s) = inr (e, s) /\ panics_as true q e.
Proof.
  intros n v vs x q h s C E Q. rewrite (at_vcall n _ v vs [x] s E).
  assert (X : forall e, throw_value x s = inr (e, s) -> lift_call (Interp.VCall emb q_pushret q_to_float (as_fn L (ev n)) (Z.of_nat (length [x]))) (set_stk (rev [x] ++ VGo n_panic :: e_stk s) s) = inr (e, s)).
  { intros e T. unfold lift_call, VCall. cbn [e_stk set_stk]. rewrite PropClass.pop_args, PropClass.set_stk2, PropClass.set_stk_same. cbn [as_fn emb unemb map].
    destruct x; try discriminate Q; cbn -[throw_value]; unfold apply_fn; cbn -[throw_value]; unfold run; cbn -[throw_value]; rewrite T; reflexivity. }
  destruct x; try discriminate Q; try (injection Q as <-; split; [exact Logic.I|]; eexists; split; [apply X; reflexivity|right; split; reflexivity]).
  injection Q as <-. assert (G : forall k l l', Forall2 thrown l l' -> fine (nth k l rt_error) /\ panics_as true (nth k l rt_error) (nth k l' (PUser rt_error))).
  { intro k0. induction k0 as [|k0 IH]; intros l l' H; destruct H as [|a b l l' (Fa & src & Ha) H]; try (split; [exact Logic.I|right; split; reflexivity]); [split; [exact Fa|left; exists src; exact Ha]|exact (IH l l' H)]. }
  destruct (G n0 _ _ C) as (G1 & G2). split; [exact G1|]. eexists. split; [apply X; reflexivity|exact G2].
Qed.
Lemma panicked_wrong : forall n (v : bool) vs vs' (s : St), (if v then spread_out vs else Some (inl vs)) = Some (inl vs') -> length vs' <> 1%nat ->
  QVCall L (ev n) (set_stk (VInt (Z.of_nat (Nat.b2n v)) :: VInt (Z.of_nat (length vs)) :: rev vs ++ VGo n_panic :: e_stk s) s) = inl (Some (EArgCount 1 (Z.of_nat (length vs'))), s).
Proof.
  intros n v vs vs' s E H. rewrite (at_vcall n _ v vs vs' s E). unfold lift_call, VCall. cbn [e_stk set_stk]. rewrite PropClass.pop_args, PropClass.set_stk2, PropClass.set_stk_same.
  cbn [as_fn emb unemb map]. rewrite beq_refl. unfold count_err. cbn [fn_in fn_variadic length]. change (Z.of_nat 1) with 1. destruct (Z.eqb_spec (Z.of_nat (length vs')) 1); [lia|]. reflexivity.
Qed.
Lemma spread_panic : forall n fv vs q (s : St), spread_out vs = Some (inr q) -> fine q /\
  exists l, QVCall L (ev n) (set_stk (VInt 1 :: VInt (Z.of_nat (length vs)) :: rev vs ++ fv :: e_stk s) s) = inr (PUser q, set_stk (l ++ fv :: e_stk s) s).
Proof.
  intros n fv vs q s E. unfold spread_out in E. assert (Hl : length (rev vs) = length vs) by apply rev_length. destruct (rev vs) as [|b r] eqn:R.
  - injection E as <-. split; [exact Logic.I|]. exists []. rewrite <- Hl. reflexivity.
  - assert (X : elems_of b = None /\ q = msg m_dotsnon []) by (destruct b; try discriminate E; try (injection E as <-; split; reflexivity); destruct (forallb _ l); discriminate E).
    destruct X as (X & ->). split; [exact Logic.I|]. exists r. unfold QVCall. rewrite (bind_inl _ _ _ _ _ _ _ (popArity_set _ _ _)), (bind_inl _ _ _ _ _ _ _ (popArity_set _ _ _)). cbn [Z.eqb Pos.eqb].
    destruct (Z.eqb_spec (Z.of_nat (length vs)) 0) as [Y|_]; [rewrite <- Hl in Y; cbn in Y; lia|]. unfold bind at 1, bind at 1, pop. cbn [e_stk set_stk app]. rewrite X. reflexivity.
Qed.
Lemma spread_plain : forall vs vs', spread_out vs = Some (inl vs') -> Forall plain vs -> Forall plain vs'.
Proof.
  intros vs vs' E P. unfold spread_out in E. destruct (rev vs) as [|b r] eqn:R; [discriminate E|]. destruct b; try discriminate E. destruct (forallb _ l) eqn:F; [|discriminate E]. injection E as <-.
  assert (Ev : vs = rev r ++ [VSlice t l]) by (rewrite <- (rev_involutive vs), R; reflexivity). rewrite Ev in P. apply Forall_app in P. apply Forall_app. split; [apply P|]. apply Forall_forall. intros x Hx q ->.
  apply (proj1 (forallb_forall _ _) F) in Hx. discriminate Hx.
Qed.
Lemma call_means : forall f args v c0 ec t2, emeans f c0 -> ameans args ec ->
  emeans (YCall f args v) (c0 >> (ec >> count (how_many args) >> count (Nat.b2n v) >> (fun ev _ _ => blame [t2] (raise (QVCall L ev))))).
Proof.
  intros f args v0 c0 ec t2 H0 Ha p h o E.
  apply (seq_gave0 false (xval f p h) (fun h1 fv => match xvals args p h1 with
    | Some (h2, inl vs) => match (if v0 then spread_out vs else Some (inl vs)) with Some (inl vs') => match fv with VFunc fn => call fn vs' h2 | VGo n => if beq n n_panic then match vs' with [v1] => match thrown_by v1 h2 with Some q => Some (h2, Panics q) | None => None end | _ => Some (h2, Panics (PvErr (EArgCount 1 (Z.of_nat (length vs'))))) end else None | _ => if no_function fv then Some (h2, Panics rt_error) else None end | Some (inr q) => Some (h2, Panics q) | None => None end
    | Some (h2, inr q) => Some (h2, Panics q) | None => None end)
    p h o (fun n => c0 (ev n) n p) (fun n => (ec >> count (how_many args) >> count (Nat.b2n v0) >> (fun ev _ _ => blame [t2] (raise (QVCall L ev)))) (ev n) n p) E (H0 p h)).
  intros h1 fv E1. destruct (xvals args p h1) as [(h2, [vs|q])|] eqn:E2; [| |discriminate E1]; destruct (Ha p h1 _ _ E2) as (N2 & M2).
  - destruct (if v0 then spread_out vs else Some (inl vs)) as [[vs'|q]|] eqn:Sp; [| |discriminate E1].
    + destruct (no_function fv) eqn:Nf.
      { assert (o = (h2, Panics rt_error)) as -> by (destruct fv; try discriminate Nf; injection E1 as <-; reflexivity). exists N2. intros n s1 stk Hn V _ K1. destruct (M2 n s1 Hn V) as (s2 & X2 & K2 & V2 & S2 & P2 & L2). set (s3 := set_stk stk s2).
        pose proof (uncalled n fv v0 vs vs' s3 Nf Sp) as Q. rewrite L2 in Q.
        unfold seq, bind at 1. rewrite X2. unfold count, puts, push, modify, bind. cbn [e_stk set_stk]. rewrite K2, K1. apply (sgave_from _ _ _ s1 s3); [eapply like_trans; [exact S2|apply like_stk]|].
        apply (sgave_blame [t2] true). unfold raise, bind. match goal with |- context [QVCall L (ev n) ?x] => change x with (set_stk (VInt (Z.of_nat (Nat.b2n v0)) :: VInt (Z.of_nat (how_many args)) :: rev vs ++ fv :: e_stk s3) s3) end.
        rewrite Q. apply (throws p []); [exact Logic.I|apply store_stk; exact V2|reflexivity]. }
      destruct fv; try discriminate E1; try discriminate Nf.
      2:{ destruct (beq name n_panic) eqn:B; [|discriminate E1]. apply beq_eq in B. subst name. destruct (Nat.eq_dec (length vs') 1) as [Le|Le].
        2:{ assert (o = (h2, Panics (PvErr (EArgCount 1 (Z.of_nat (length vs')))))) as -> by (destruct vs' as [|x [|]]; [injection E1 as <-; reflexivity|destruct (Le eq_refl)|injection E1 as <-; reflexivity]).
          exists N2. intros n s1 stk Hn V _ K1. destruct (M2 n s1 Hn V) as (s2 & X2 & K2 & V2 & S2 & P2 & L2). set (s3 := set_stk stk s2). pose proof (panicked_wrong n v0 vs vs' s3 Sp Le) as Q. rewrite L2 in Q.
          unfold seq, bind at 1. rewrite X2. unfold count, puts, push, modify, bind. cbn [e_stk set_stk]. rewrite K2, K1. apply (sgave_from _ _ _ s1 s3); [eapply like_trans; [exact S2|apply like_stk]|].
          apply (sgave_blame [t2] true). unfold raise, bind. match goal with |- context [QVCall L (ev n) ?x] => change x with (set_stk (VInt (Z.of_nat (Nat.b2n v0)) :: VInt (Z.of_nat (how_many args)) :: rev vs ++ VGo n_panic :: e_stk s3) s3) end.
          rewrite Q. apply (throws p []); [exact Logic.I|apply store_stk; exact V2|reflexivity]. }
        destruct vs' as [|x [|]]; try discriminate Le. destruct (thrown_by x h2) as [q|] eqn:T; [|discriminate E1]. injection E1 as <-.
        exists N2. intros n s1 stk Hn V _ K1. destruct (M2 n s1 Hn V) as (s2 & X2 & K2 & V2 & S2 & P2 & L2). set (s3 := set_stk stk s2).
        assert (C2 : Forall2 thrown (st_caught h2) (r_excs (e_rest s3))) by (destruct V2 as (_ & _ & _ & _ & _ & ((_ & Y) & _) & _); exact Y).
        destruct (panicked n v0 vs x q h2 s3 C2 Sp T) as (Fq & e & Q & Pe). rewrite L2 in Q.
        unfold seq, bind at 1. rewrite X2. unfold count, puts, push, modify, bind. cbn [e_stk set_stk]. rewrite K2, K1. apply (sgave_from _ _ _ s1 s3); [eapply like_trans; [exact S2|apply like_stk]|].
        apply (sgave_blame [t2] true). unfold raise, bind. match goal with |- context [QVCall L (ev n) ?x] => change x with (set_stk (VInt (Z.of_nat (Nat.b2n v0)) :: VInt (Z.of_nat (how_many args)) :: rev vs ++ VGo n_panic :: e_stk s3) s3) end.
        rewrite Q. exists e, s3. split; [reflexivity|]. split; [exact Pe|]. split; [exact Fq|]. split; [exists []; reflexivity|]. split; [apply store_stk; exact V2|]. apply like_is_still, like_refl. }
      rename f0 into fn. assert (D : Forall plain vs \/ ~ Forall plain vs).
      { clear. induction vs as [|v l IH]; [left; constructor|]. destruct (plain_dec v) as [P|(q & ->)]; [|right; intro H; inversion H; subst; eapply H2; reflexivity]. destruct IH as [IH|IH]; [left; constructor; assumption|right; intro H; inversion H; contradiction]. }
      destruct D as [D|D]; [|exists N2; intros n s stk Hn V _ _; exfalso; destruct (M2 n s Hn V) as (s2 & _ & _ & _ & _ & P2 & _); contradiction].
      assert (D' : Forall plain vs') by (destruct v0; [exact (spread_plain vs vs' Sp D)|injection Sp as <-; exact D]).
      destruct (Hcall fn vs' h2 o E1 D') as (N3 & M3). exists (N2 + N3)%nat. intros n s1 stk Hn V _ K1. destruct (M2 n s1 ltac:(lia) V) as (s2 & X2 & K2 & V2 & S2 & P2 & L2).
      set (s3 := set_stk stk s2). specialize (M3 n p s3 ltac:(lia) (store_stk p h2 s2 stk V2)). assert (S3 : like s1 s3) by (eapply like_trans; [exact S2|apply like_stk]).
      assert (R : (ec >> count (how_many args) >> count (Nat.b2n v0) >> (fun ev _ _ => blame [t2] (raise (QVCall L ev)))) (ev n) n p s1 = match FnCall (ev n) fn vs' s3 with inl (v, s4) => inl (tt, pushed v s4) | inr (e, s4) => inr (wrap [t2] e, s4) end).
      { assert (Q : QVCall L (ev n) (set_stk (VInt (Z.of_nat (Nat.b2n v0)) :: VInt (Z.of_nat (how_many args)) :: rev vs ++ VFunc fn :: e_stk s3) s3) = PropClass.call_result (FnCall (ev n) fn vs' s3)).
        { rewrite <- L2. destruct v0; [apply spread_run; exact Sp|]. injection Sp as <-. pose proof (PropClass.C55_program_call L (ev n) fn vs s3) as Q. unfold PropClass.at_call, pushed_all in Q. rewrite PropClass.rev_call in Q. exact Q. }
        unfold seq, bind at 1. rewrite X2. unfold count, puts, push, modify, bind, blame, raise, bind. cbn [e_stk set_stk]. rewrite K2, K1.
        match goal with |- context [QVCall L (ev n) ?x] => change x with (set_stk (VInt (Z.of_nat (Nat.b2n v0)) :: VInt (Z.of_nat (how_many args)) :: rev vs ++ VFunc fn :: e_stk s3) s3) end.
        rewrite Q. unfold PropClass.call_result. destruct (FnCall (ev n) fn vs' s3) as [(v, s4)|(e, s4)]; reflexivity. }
      rewrite R. clear R. apply (sgave_from _ _ _ s1 s3); [exact S3|]. destruct o as (h', [v|q|v]); cbn [fgave fst snd] in M3; [| |destruct M3].
      * destruct M3 as (s4 & -> & Pv & K4 & V4 & S4). exists (pushed v s4). split; [reflexivity|]. split; [exact Pv|]. split; [cbn; rewrite K4; reflexivity|]. split; [apply store_stk; exact V4|]. eapply like_trans; [exact S4|apply like_stk].
      * destruct (FnCall (ev n) fn vs' s3) as [(v, s4)|(e, s4)]; [destruct M3 as (? & ? & [=] & _)|].
        destruct M3 as (e0 & s0 & [= <- <-] & M3). apply (sgave_blame [t2] true p stk s3 (h', Panics q) (fun _ => inr (e, s4)) s3). exists e, s4. split; [reflexivity|exact M3].
    + destruct v0; [|discriminate Sp]. injection E1 as <-. exists N2. intros n s1 stk Hn V _ K1. destruct (M2 n s1 Hn V) as (s2 & X2 & K2 & V2 & S2 & P2 & L2). set (s3 := set_stk stk s2).
      destruct (spread_panic n (fv) vs q s3 Sp) as (Fq & l & Q). rewrite L2 in Q.
      unfold seq, bind at 1. rewrite X2. unfold count, puts, push, modify, bind. cbn [e_stk set_stk Nat.b2n]. rewrite K2, K1. apply (sgave_from _ _ _ s1 s3); [eapply like_trans; [exact S2|apply like_stk]|].
      apply (sgave_blame [t2] true). unfold raise, bind. match goal with |- context [QVCall L (ev n) ?x] => change x with (set_stk (VInt 1 :: VInt (Z.of_nat (how_many args)) :: rev vs ++ fv :: e_stk s3) s3) end.
      rewrite Q. apply (sgave_from _ _ _ s3 (set_stk (l ++ fv :: e_stk s3) s3)); [apply like_stk|]. apply (throws p (l ++ [fv])); [exact Fq|apply store_stk, store_stk; exact V2|]. cbn [e_stk set_stk]. rewrite <- app_assoc. reflexivity.
  - injection E1 as <-. exists N2. intros n s1 stk Hn V _ K1. specialize (M2 n s1 Hn V). rewrite K1 in M2. apply (sgave_lower false p [fv] stk s1 h2 (Panics q) _ Logic.I).
    unfold seq. apply (sgave_stop _ _ _ _ h2 (Panics q) _ _ (fun r => r) Logic.I M2). reflexivity.
Qed.
(** slices *)
Lemma kind_cases : forall v, (is_int v = (kindOf v =? kInt) /\ is_number v = ((kindOf v =? kInt) || (kindOf v =? kFloat64))%bool /\ is_text v = (kindOf v =? kString)).
Proof. intro v. destruct v; repeat split; try reflexivity; destruct k0; reflexivity. Qed.
Lemma kinds_float : forall l, kindOfRest kFloat64 l = if forallb is_number l then kFloat64 else kInvalid.
Proof.
  induction l as [|a l IH]; [reflexivity|]. cbn [kindOfRest forallb]. cbv zeta. rewrite (proj1 (proj2 (kind_cases a))). destruct (Z.eqb_spec (kindOf a) kFloat64) as [->|_]; [exact IH|]. cbn [Z.eqb Pos.eqb orb kFloat64].
  destruct (Z.eqb_spec (kindOf a) kInt); [exact IH|reflexivity].
Qed.
Lemma kinds_int : forall l, kindOfRest kInt l = if forallb is_int l then kInt else if forallb is_number l then kFloat64 else kInvalid.
Proof.
  induction l as [|a l IH]; [reflexivity|]. cbn [kindOfRest forallb]. cbv zeta. rewrite (proj1 (kind_cases a)), (proj1 (proj2 (kind_cases a))). destruct (Z.eqb_spec (kindOf a) kInt) as [E|N]; [exact IH|].
  change ((kInt =? kFloat64) || (kInt =? kInt))%bool with true. cbn iota. cbn [orb andb]. destruct (Z.eqb_spec (kindOf a) kFloat64) as [E|_]; [apply kinds_float|reflexivity].
Qed.
Lemma kinds_other : forall kd l, kd <> kInt -> kd <> kFloat64 -> kindOfRest kd l = if forallb (fun v => kindOf v =? kd) l then kd else kInvalid.
Proof.
  intros kd l A B. induction l as [|a l IH]; [reflexivity|]. cbn [kindOfRest forallb]. cbv zeta. destruct (kindOf a =? kd); [exact IH|]. cbn [andb].
  rewrite (proj2 (Z.eqb_neq _ _) A), (proj2 (Z.eqb_neq _ _) B). reflexivity.
Qed.
Lemma slice_from : forall l, SliceFrom l = slice_of l.
Proof.
  intros [|a l]; [reflexivity|]. unfold SliceFrom, slice_of, kindOfArgs. cbv zeta. destruct (kind_cases a) as (A1 & A2 & A3). cbn [forallb]. rewrite A1, A2, A3.
  assert (TF : forall l, forallb is_number l = true -> map (fun v => match asFloat v with Some f => VFloat f | None => v end) l = map to_float l).
  { induction l0 as [|x l0 IH]; intro F; [reflexivity|]. cbn in F. apply Bool.andb_true_iff in F. destruct F as (F & G). cbn [map]. rewrite (IH G). f_equal. destruct x; try discriminate F; reflexivity. }
  destruct (Z.eqb_spec (kindOf a) kInt) as [E|N1].
  - rewrite E, kinds_int. cbn [orb andb]. change (kInt =? kString) with false. cbn [andb]. destruct (forallb is_int l); [reflexivity|]. destruct (forallb is_number l) eqn:F; [|reflexivity]. cbn [Z.eqb Pos.eqb kFloat64 kInt]. f_equal. apply TF. cbn [forallb]. rewrite F, Bool.andb_true_r, A2. rewrite ?E. reflexivity.
  - destruct (Z.eqb_spec (kindOf a) kFloat64) as [E|N2].
    + rewrite E, kinds_float. cbn [orb andb]. change (kFloat64 =? kString) with false. cbn [andb]. destruct (forallb is_number l) eqn:F; [|reflexivity]. cbn [Z.eqb Pos.eqb kFloat64 kInt]. f_equal. apply TF. cbn [forallb]. rewrite F, Bool.andb_true_r, A2. rewrite ?E. reflexivity.
    + rewrite (kinds_other _ l N1 N2). cbn [orb andb]. destruct (Z.eqb_spec (kindOf a) kString) as [E|N3].
      * rewrite E. cbn [andb]. assert (forallb (fun v => kindOf v =? kString) l = forallb is_text l) as ->.
        { clear. induction l as [|x l IH]; [reflexivity|]. cbn [forallb]. rewrite IH. f_equal. symmetry. apply kind_cases. }
        destruct (forallb is_text l); reflexivity.
      * cbn [andb]. destruct (forallb _ l); [|reflexivity]. rewrite (proj2 (Z.eqb_neq _ _) N1), (proj2 (Z.eqb_neq _ _) N2), (proj2 (Z.eqb_neq _ _) N3). reflexivity.
Qed.
Lemma slice_run : forall vs (s : St), VSliceLit (set_stk (VInt (Z.of_nat (length vs)) :: rev vs ++ e_stk s) s) = inl (None, pushed (slice_of vs) s).
Proof.
  intros vs s. rewrite <- slice_from. unfold VSliceLit. rewrite (bind_inl _ _ _ _ _ _ _ (popArity_set _ _ _)). unfold lift_call, Interp.Call. unfold count_err. cbn [variadic_fn fn_variadic fn_in length].
  destruct (Z.ltb_spec (Z.of_nat (length vs)) (Z.of_nat 1 - 1)); [lia|]. unfold DoCall. destruct vs as [|a vs].
  - cbn [length rev app]. rewrite PropClass.set_stk_same. reflexivity.
  - destruct (Z.ltb_spec 0 (Z.of_nat (length (a :: vs)))); [|cbn in *; lia]. cbn [e_stk set_stk]. replace (rev (a :: vs) ++ e_stk s) with (rev vs ++ a :: e_stk s) by (cbn [rev]; rewrite <- app_assoc; reflexivity).
    replace (Z.of_nat (length (a :: vs))) with (Z.of_nat (length vs) + 1) by (cbn [length]; lia). rewrite PropClass.pop_args, PropClass.set_stk2, PropClass.set_stk_same.
    unfold validateArgs. cbn [variadic_fn fn_in length Nat.sub skipn firstn last combine validate]. change (emb a :: map emb vs) with (map emb (a :: vs)).
    destruct (PropClass.validate_any (a :: vs)) as (us & E & M). rewrite E. cbn [app]. unfold apply_fn, variadic_fn. cbn [fn_call]. unfold run. rewrite M. unfold ret. rewrite PropClass.pushret_any. reflexivity.
Qed.
Lemma slice_plain : forall l, plain (slice_of l).
Proof. intros l q. unfold slice_of. destruct l; [discriminate|]. destruct (forallb is_int _); [discriminate|]. destruct (forallb is_number _); [discriminate|]. destruct (forallb is_text _); discriminate. Qed.
Lemma slice_means : forall l ec t2, ameans l ec -> emeans (YSlice l) (ec >> count (how_many l) >> (fun _ _ _ => blame [t2] (raise VSliceLit))).
Proof.
  intros l ec t2 Ha p h o E. change (match xvals l p h with Some (h1, inl vs) => Some (h1, Gives (slice_of vs)) | Some (h1, inr q) => Some (h1, Panics q) | None => None end = Some o) in E.
  destruct (xvals l p h) as [(h1, [vs|q])|] eqn:E2; [| |discriminate E]; injection E as <-; destruct (Ha p h _ _ E2) as (N & M); exists N; intros n s Hn V; specialize (M n s Hn V).
  - destruct M as (s2 & X2 & K2 & V2 & S2 & P2 & L2). set (s3 := set_stk (e_stk s) s2). pose proof (slice_run vs s3) as Q. rewrite L2 in Q.
    unfold seq, bind at 1. rewrite X2. unfold count, puts, push, modify, bind, blame, raise, bind. cbn [e_stk set_stk]. rewrite K2.
    match goal with |- context [VSliceLit ?x] => change x with (set_stk (VInt (Z.of_nat (how_many l)) :: rev vs ++ e_stk s3) s3) end. rewrite Q.
    exists (pushed (slice_of vs) s3). split; [reflexivity|]. split; [apply slice_plain|]. split; [reflexivity|]. split; [apply store_stk, store_stk; exact V2|]. eapply like_trans; [exact S2|]. eapply like_trans; [apply like_stk|apply like_stk].
  - unfold seq. apply (sgave_stop _ _ _ _ h1 (Panics q) _ _ (fun r => r) Logic.I M). reflexivity.
Qed.
Lemma item_run : forall a i r (s : St), item a i = Some r -> good_val r /\
  Index L (set_stk (VInt 0 :: VInt 0 :: VInt 1 :: i :: a :: e_stk s) s) = match r with inl v => inl (tt, pushed v s) | inr q => inr (PUser q, s) end.
Proof.
  intros a i r s E. assert (X : Index L (set_stk (VInt 0 :: VInt 0 :: VInt 1 :: i :: a :: e_stk s) s) = (v <-- Get L a i ;; push v) s).
  { unfold Index. rewrite (bind_inl _ _ _ _ _ _ _ (popArity_set _ _ _)). change (0 =? 0) with true. cbn iota. unfold bind at 1, ret at 1.
    rewrite (bind_inl _ _ _ _ _ _ _ (popArity_set _ _ _)), (bind_inl _ _ _ _ _ _ _ (popArity_set _ _ _)), (bind_inl _ _ _ _ _ _ _ (popNArgs_set [a; i] (e_stk s) s)), PropClass.set_stk_same. reflexivity. }
  rewrite X. clear X.
  assert (B : forall A (l : list A) z, (0 <=? z) && (z <? Z.of_nat (length l)) = match (if z <? 0 then None else nth_error l (Z.to_nat z)) with Some _ => true | None => false end).
  { intros A l z. destruct (Z.ltb_spec z 0); [destruct (Z.leb_spec 0 z); [lia|reflexivity]|]. destruct (Z.leb_spec 0 z); [|lia]. cbn [andb]. destruct (nth_error l (Z.to_nat z)) as [x|] eqn:N.
    - apply Z.ltb_lt. assert (Z.to_nat z < length l)%nat by (apply nth_error_Some; congruence). lia.
    - apply Z.ltb_ge. apply nth_error_None in N. lia. }
  assert (K : Some (inr rt_error : value + pvq) = Some r -> Get L a i = crash -> good_val r /\ (v <-- Get L a i ;; push v) s = match r with inl v => inl (tt, pushed v s) | inr q => inr (PUser q, s) end).
  { intros [= <-] ->. split; [exact Logic.I|reflexivity]. }
  destruct a; try discriminate E.
  - apply K; [destruct i; exact E|reflexivity].
  - destruct i; try (apply K; [exact E|reflexivity]). cbn [item] in E. unfold Get. rewrite B. destruct (z <? 0); [injection E as <-; split; [exact Logic.I|reflexivity]|].
    destruct (nth_error b (Z.to_nat z)) as [c|] eqn:N; [|injection E as <-; split; [exact Logic.I|reflexivity]]. injection E as <-. split; [intros ?; discriminate|]. rewrite (nth_error_nth _ _ _ N). reflexivity.
  - destruct i; try (apply K; [exact E|reflexivity]). cbn [item] in E. unfold Get. rewrite B. destruct (z <? 0); [injection E as <-; split; [exact Logic.I|reflexivity]|].
    destruct (nth_error l (Z.to_nat z)) as [c|] eqn:N; [|injection E as <-; split; [exact Logic.I|reflexivity]]. rewrite (nth_error_nth _ _ _ N).
    assert (Pc : plain c) by (intros q ->; discriminate E). assert (r = inl c) as -> by (destruct c; try (injection E as <-; reflexivity); discriminate E). split; [exact Pc|reflexivity].
Qed.
Lemma index_means : forall a i c ic t2, emeans a c -> emeans i ic -> emeans (YIndex a i) (c >> (ic >> count 1 >> count 0 >> count 0 >> (fun _ _ _ => blame [t2] (Index L)))).
Proof.
  intros a i c ic t2 H H' p h o E.
  apply (seq_gave0 false (xval a p h) (fun h1 v => fthen (xval i p h1) (fun h2 w => match item v w with Some r => Some (h2, ends_in r) | None => None end)) p h o (fun n => c (ev n) n p)
    (fun n => (ic >> count 1 >> count 0 >> count 0 >> (fun _ _ _ => blame [t2] (Index L))) (ev n) n p) E (H p h)).
  intros h1 v E1. destruct (seq_gave false [v] (xval i p h1) _ p h1 o (fun n => ic (ev n) n p) (fun n => (count 1 >> count 0 >> count 0 >> (fun _ _ _ => blame [t2] (Index L))) (ev n) n p) E1 (H' p h1)) as (N & M).
  - intros h2 w E2. destruct (item v w) as [r|] eqn:Ei; [|discriminate E2]. injection E2 as <-. exists 0%nat. intros n s stk _ V Pw K. destruct (item_run v w r (set_stk stk s) Ei) as (Gr & X).
    unfold seq, count, puts, push, modify, bind. cbn [e_stk set_stk]. rewrite K. cbn [app]. apply (sgave_blame _ true).
    match goal with |- context [Index L ?x] => change x with (set_stk (VInt 0 :: VInt 0 :: VInt 1 :: w :: v :: e_stk (set_stk stk s)) (set_stk stk s)) end. rewrite X. apply (sgave_from _ _ _ s (set_stk stk s)); [apply like_stk|]. destruct r as [x|q]; cbn [ends_in].
    + exists (pushed x (set_stk stk s)). split; [reflexivity|]. split; [exact Gr|]. split; [reflexivity|]. split; [apply store_stk, store_stk; exact V|apply like_stk].
    + apply (throws p []); [exact Gr|apply store_stk; exact V|reflexivity].
  - exists N. intros n s stk Hn V _ K. specialize (M n s stk Hn V K). revert M. unfold seq. unfold bind. destruct (ic (ev n) n p s) as [([], s1)|]; exact (fun x => x).
Qed.
Lemma snoc_call : forall r rc, atoms_are L r rc -> forall t es m ec ds d cm k2 t2, tkind t = LPAREN -> exprs_are L es m ec -> opt_tok ELLIPSIS ds d -> opt_tok COMMA cm k2 -> tkind t2 = RPAREN ->
  exists rc', atoms_are L (r ++ t :: es ++ ds ++ cm ++ [t2]) rc' /\ alike rc' (rc >> (ec >> count m >> count d >> (fun ev _ _ => blame [t2] (raise (QVCall L ev))))).
Proof.
  intros r rc H. induction H as [|t0 es0 n0 ec0 ds0 d0 cm0 m0 t20 r rc K0 H0 Hd0 Hc0 K20 Hr IH|t0 t20 r rc K0 K20 Hr IH|t0 i ic t20 r rc K0 Hi K20 Hr IH|t0 i n0 ic t1 j m0 jc t20 r rc K0 Hi K1 Hj K20 Hr IH]; intros t es m ec ds d cm k2 t2 K He Hd Hc K2.
  - eexists. split; [pose proof (AT_call L t es m ec ds d cm k2 t2 [] nop K He Hd Hc K2 (AT_nil L)) as X; rewrite app_nil_r in X; exact X|apply alike_nil].
  - destruct (IH t es m ec ds d cm k2 t2 K He Hd Hc K2) as (rc' & A & B). eexists. split; [rewrite <- app_assoc; eapply AT_call; eassumption|apply alike_snoc; exact B].
  - destruct (IH t es m ec ds d cm k2 t2 K He Hd Hc K2) as (rc' & A & B). eexists. split; [cbn [app]; eapply AT_member; eassumption|apply alike_snoc; exact B].
  - destruct (IH t es m ec ds d cm k2 t2 K He Hd Hc K2) as (rc' & A & B). eexists. split; [rewrite <- app_assoc; eapply AT_index; eassumption|apply alike_snoc; exact B].
  - destruct (IH t es m ec ds d cm k2 t2 K He Hd Hc K2) as (rc' & A & B). eexists. split; [rewrite <- app_assoc; eapply AT_range; eassumption|apply alike_snoc; exact B].
Qed.
Lemma snoc_index : forall r rc, atoms_are L r rc -> forall t i ic t2, tkind t = LBRACK -> expr_is L i ic -> tkind t2 = RBRACK ->
  exists rc', atoms_are L (r ++ t :: i ++ [t2]) rc' /\ alike rc' (rc >> (ic >> count 1 >> count 0 >> count 0 >> (fun _ _ _ => blame [t2] (Index L)))).
Proof.
  intros r rc H. induction H as [|t0 es0 n0 ec0 ds0 d0 cm0 m0 t20 r rc K0 H0 Hd0 Hc0 K20 Hr IH|t0 t20 r rc K0 K20 Hr IH|t0 i0 ic0 t20 r rc K0 Hi K20 Hr IH|t0 i0 n0 ic0 t1 j m0 jc t20 r rc K0 Hi K1 Hj K20 Hr IH]; intros t i ic t2 K He K2.
  - eexists. split; [pose proof (AT_index L t i ic t2 [] nop K He K2 (AT_nil L)) as X; rewrite app_nil_r in X; exact X|apply alike_nil].
  - destruct (IH t i ic t2 K He K2) as (rc' & A & B). eexists. split; [rewrite <- app_assoc; eapply AT_call; eassumption|apply alike_snoc; exact B].
  - destruct (IH t i ic t2 K He K2) as (rc' & A & B). eexists. split; [cbn [app]; eapply AT_member; eassumption|apply alike_snoc; exact B].
  - destruct (IH t i ic t2 K He K2) as (rc' & A & B). eexists. split; [rewrite <- app_assoc; eapply AT_index; eassumption|apply alike_snoc; exact B].
  - destruct (IH t i ic t2 K He K2) as (rc' & A & B). eexists. split; [rewrite <- app_assoc; eapply AT_range; eassumption|apply alike_snoc; exact B].
Qed.
Lemma nop_alike : forall c : sem, alike (c >> nop) c.
Proof. intros c ev0 j p s. unfold seq, bind, nop, ret. destruct (c ev0 j p s) as [([], s1)|]; reflexivity. Qed.
Lemma xwritten_start : (forall e ts, xprim L e ts -> ts <> [] /\ plain_start ts) /\ (forall l e ts, xwritten L l e ts -> ts <> [] /\ plain_start ts) /\ (forall l ts, xargs L l ts -> True) /\ (forall l ts, xmore L l ts -> True).
Proof.
  assert (X : forall (t : token) l, tkind t <> LBRACE -> tkind t <> RETURN -> t :: l <> [] /\ plain_start (t :: l)) by (intros t l A B; split; [discriminate|]; split; cbn; congruence).
  assert (Y : forall ts l, ts <> [] /\ plain_start ts -> ts ++ l <> [] /\ plain_start (ts ++ l)) by (intros [|t ts] l (A & B); [contradiction|]; split; [discriminate|exact B]).
  apply (xwritten_all W L (fun _ ts => ts <> [] /\ plain_start ts) (fun _ _ ts => ts <> [] /\ plain_start ts) (fun _ _ => True) (fun _ _ => True)); auto; try (intros; apply X; congruence).
  - intros t K. apply X; rewrite K; discriminate.
  - intros t e ts t' K _ _ _. apply X; rewrite K; discriminate.
  - intros tf tl ns ps ds v tr t1 bs c t2 K _ _ _ _ _ _ _. apply X; rewrite K; discriminate.
  - intros tl l r cm m tr K _ _ _ _. apply X; rewrite K; discriminate.
  - intros t v H. apply X; destruct H as [? ? K|? ? K|? ? K|? ? ? ? K]; rewrite K; discriminate.
  - intros t t1 t2 K _ _. apply X; rewrite K; discriminate.
  - intros t e ts K _ _. apply X; rewrite K; discriminate.
  - intros t e ts K _ _. apply X; rewrite K; discriminate.
  - intros t e ts K _ _. apply X; rewrite K; discriminate.
Qed.
(** recover *)
Lemma pending_facts : forall p x h, (p < length (st_scopes h))%nat ->
  length (st_scopes (set_pending p x h)) = length (st_scopes h) /\ (forall i, up (set_pending p x h) i = up h i) /\ (st_made (set_pending p x h) = st_made h /\ st_caught (set_pending p x h) = st_caught h) /\
  (forall i n, own (set_pending p x h) i n = own h i n) /\ (forall i n, knows (set_pending p x h) i n = knows h i n) /\
  forall i, deferred (set_pending p x h) i = deferred h i /\ pending (set_pending p x h) i = if (i =? p)%nat then x else pending h i.
Proof.
  intros p x h Hp. unfold knows. destruct (nth_error (st_scopes h) p) as [c|] eqn:E; [|apply nth_error_None in E; lia].
  pose proof (set_at p (mkScope (sc_own c) (sc_up c) (sc_read c) (sc_deferred c) x) c (st_scopes h) E) as X.
  split; [unfold set_pending; rewrite E; apply set_nth_length|]. split; [intro i; unfold set_pending, up; rewrite E; cbn [st_scopes]; rewrite X; destruct (Nat.eqb_spec i p) as [->|]; [rewrite E|]; reflexivity|].
  split; [unfold set_pending; rewrite E; split; reflexivity|]. unfold set_pending, own, has_read, deferred, pending. rewrite E. cbn [st_scopes].
  split; [|split]; [intros i n|intros i n|intro i]; rewrite X; destruct (Nat.eqb_spec i p) as [->|]; try rewrite E; try split; reflexivity.
Qed.
Lemma store_pending : forall p p' q x y h (s s' : St), (q < length (st_scopes h))%nat -> recov_as x y ->
  (forall i, fr_vars (getf i s') = fr_vars (getf i s) /\ fr_defers (getf i s') = fr_defers (getf i s) /\ fr_recov (getf i s') = if (i =? q)%nat then y else fr_recov (getf i s)) -> (forall i, parent i s' = parent i s) ->
  nframes s' = nframes s -> r_ids (e_rest s') = r_ids (e_rest s) /\ r_excs (e_rest s') = r_excs (e_rest s) -> (p' < nframes s)%nat -> at_store p h s -> at_store p' (set_pending q x h) s'.
Proof.
  intros p p' q x y h s s' Hq Hl Hv0 Hp Hn (Hi & Hi') F (C & _ & N & P & V & ((I & I0) & I1 & I2) & T). pose proof (fun i => proj1 (Hv0 i)) as Hv. destruct (pending_facts q x h Hq) as (Q1 & Q2 & (Q3 & Q3') & Q4 & Q5 & Q6).
  split; [apply (coherent_like s); assumption|]. rewrite Hn, Q1. split; [exact F|]. split; [exact N|]. split; [intro i; rewrite Hp, Q2; apply P|].
  split; [intros i n v; rewrite Q4, <- V; unfold defines, var_of; rewrite Hv; reflexivity|]. split; [|intros i n; rewrite (entry_like s s' Hv), Q5; apply T].
  split; [rewrite Q3, Q3', Hi, Hi'; auto|]. split; intro i; destruct (Q6 i) as (-> & Q7); [|rewrite Q2; apply I2]. destruct (Hv0 i) as (_ & -> & ->). rewrite Q7. split; [apply I1|]. destruct (i =? q)%nat; [exact Hl|apply I1].
Qed.
Lemma store_caught : forall p h (s : St) q e, at_store p h s -> thrown q e -> at_store p (mkStore (st_scopes h) (st_made h) (st_caught h ++ [q])) (with_excs (r_excs (e_rest s) ++ [e]) s).
Proof.
  intros p h s q e (C & F & N & P & V & ((I & I0) & I1) & T) H. split; [apply (coherent_like s); [reflexivity|reflexivity|exact C]|]. split; [exact F|]. split; [exact N|]. split; [exact P|]. split; [exact V|]. split; [|exact T].
  split; [split; [exact I|apply Forall2_app; [exact I0|constructor; [exact H|constructor]]]|exact I1].
Qed.
Lemma Forall2_len : forall (l : list pvq) (l' : list panicq), Forall2 thrown l l' -> length l = length l'.
Proof. intros l l' H. induction H as [|x y l l' _ _ IH]; [reflexivity|]. cbn. rewrite IH. reflexivity. Qed.
Lemma exc_thrown : forall q e (s : St), thrown q e -> (forall v, q <> PvOther v) -> exc_value e s = inl (VExc (length (r_excs (e_rest s))), with_excs (r_excs (e_rest s) ++ [e]) s).
Proof. intros q e s (F & src & ->) O. destruct q; try destruct F; try reflexivity. exfalso. eapply O. reflexivity. Qed.
Lemma recover_gave : forall p h s, at_store p h s -> dgave true p (e_stk s) s (fst (recovered p h), Gives (snd (recovered p h))) (Recover p s).
Proof.
  intros p h s V. pose proof V as (C & F & N & P & _ & ((_ & I0) & I1 & _) & _). unfold Recover, recovered. unfold bind at 1, gets at 1. pose proof (P p) as Pp. unfold parent in Pp. rewrite Pp.
  destruct (up h p) as [q|] eqn:U; [|apply (push_gave true p h s (e_stk s) VNil V); intros ? ?; discriminate].
  assert (Hq : (q < p)%nat) by (apply (proj1 C); unfold parent; congruence). unfold bind at 1, gets at 1. unfold bind at 1, modify at 1. set (s1 := updf q (set_recov None) s). destruct (I1 q) as (_ & Rq).
  assert (G : forall i, getf i s1 = if (i =? q)%nat then set_recov None (getf q s) else getf i s).
  { intro i. unfold s1. rewrite getf_updf. destruct (Nat.ltb_spec q (nframes s)); [|lia]. rewrite Bool.andb_true_r. reflexivity. }
  assert (N1 : nframes s1 = nframes s) by apply nframes_updf.
  assert (V1 : at_store p (set_pending q None h) s1).
  { apply (store_pending p p q None None h s s1); [lia|exact Logic.I| | |exact N1|split; reflexivity|exact F|exact V].
    - intro i. rewrite G. destruct (Nat.eqb_spec i q) as [->|]; split; [|split| |split]; reflexivity.
    - intro i. unfold parent. rewrite G. destruct (Nat.eqb_spec i q) as [->|]; reflexivity. }
  assert (L1 : like s s1).
  { split; [|split; [rewrite N1; apply Nat.le_refl|repeat split]]. intros i _. rewrite G. destruct (Nat.eqb_spec i q) as [->|]; repeat split. }
  destruct (pending h q) as [e|] eqn:Pe; destruct (fr_recov (getf q s)) as [y|] eqn:Fr; try (exfalso; exact Rq).
  - assert (O : (exists v, e = PvOther v) \/ forall v, e <> PvOther v) by (destruct e; try (right; intros ? ?; discriminate); left; eexists; reflexivity). destruct O as [(v & ->)|O].
    { destruct Rq as (Fv & src & ->). cbn [fst snd wrap]. unfold bind. change (exc_value (PUser (PvOther v)) s1) with (@inl (value * St) (panicq * St) (v, s1)). cbn iota.
      apply (sgave_from true p (e_stk s) s s1); [exact L1|]. apply (push_gave true p _ s1 (e_stk s) v); [exact V1|]. intros ? ->. destruct Fv. }
    destruct e; try (exfalso; eapply O; reflexivity); (unfold bind; rewrite (exc_thrown _ y s1 Rq O); pose proof (store_caught p _ s1 _ y V1 Rq) as V2; change (r_excs (e_rest s1)) with (r_excs (e_rest s)) in *; rewrite <- (Forall2_len _ _ I0); cbn [fst snd];
      apply (sgave_from true p (e_stk s) s s1); [exact L1|]; eexists; split; [reflexivity|]; split; [intros ? ?; discriminate|]; split; [reflexivity|]; split; [apply store_stk; exact V2|]; split; [auto|]; split; [apply Nat.le_refl|]; repeat split).
  - cbn [fst snd]. apply (sgave_from true p (e_stk s) s s1); [exact L1|]. apply (push_gave true p h s1 (e_stk s) VNil); [|intros ? ?; discriminate].
    apply (store_like p p h s); [|intro i; unfold parent; rewrite G; destruct (Nat.eqb_spec i q) as [->|]; reflexivity|exact N1|split; reflexivity|exact F|exact V].
    intro i. rewrite G. destruct (Nat.eqb_spec i q) as [->|]; split; [|split| |split]; try reflexivity. cbn. congruence.
Qed.
Lemma recover_means : forall ts, emeans YRecover (fun _ _ p => blame ts (Recover p)).
Proof. intros ts p h o E. cbn [QFun.xval] in E. pose proof (recover_gave p h) as H. destruct (recovered p h) as (h1, v). injection E as <-. exists 0%nat. intros n s _ V. apply (sgave_blame _ true). apply H. exact V. Qed.
Theorem exprs_mean :
  (forall e ts, xprim L e ts -> exists bs bc rs rc, ts = bs ++ rs /\ base_is L bs bc /\ atoms_are L rs rc /\ emeans e (bc >> rc)) /\
  (forall l e ts, xwritten L l e ts -> exists c, level_is L l ts c /\ emeans e c) /\
  (forall l ts, xargs L l ts -> exists c, exprs_are L ts (how_many l) c /\ ameans l c) /\
  (forall l ts, xmore L l ts -> exists c, more_are L ts (how_many l) c /\ ameans l c).
Proof.
  apply (xwritten_all W L (fun e ts => exists bs bc rs rc, ts = bs ++ rs /\ base_is L bs bc /\ atoms_are L rs rc /\ emeans e (bc >> rc)) (fun l e ts => exists c, level_is L l ts c /\ emeans e c)
    (fun l ts => exists c, exprs_are L ts (how_many l) c /\ ameans l c) (fun l ts => exists c, more_are L ts (how_many l) c /\ ameans l c)).
  - intros t K. exists [t], (fun _ _ p => blame [t] (Ref L p (tlit t))), [], nop. split; [reflexivity|]. split; [apply B_name; exact K|]. split; [apply AT_nil|]. eapply emeans_alike; [apply nop_alike|apply ref_means].
  - intros t e ts t' K _ (c & A & M) K'. exists (t :: ts ++ [t']), c, [], nop. split; [rewrite app_nil_r; reflexivity|]. split; [apply B_paren; assumption|]. split; [apply AT_nil|]. eapply emeans_alike; [apply nop_alike|exact M].
  - intros tf tl ns ps ds v tr t1 bs bc t2 Kf Kl Hn Hd Kr K1 Ob K2. pose proof (FB L tl ns ps ds (Nat.b2n v) tr t1 bs bc t2 Kl Hn Hd Kr K1 Ob K2) as F.
    eexists _, _, [], nop. split; [rewrite app_nil_r; reflexivity|]. split; [apply B_fn; [exact Kf|exact F]|]. split; [apply AT_nil|]. eapply emeans_alike; [apply nop_alike|apply fn_means].
  - intros f fs tl l r ds v cm m tr _ (bs & bc & rs & rc & -> & B & A & M) Kl _ (ec & Ee & Ma) Hd Hc Kr. destruct (snoc_call rs rc A tl r (how_many l) ec ds (Nat.b2n v) cm m tr Kl Ee Hd Hc Kr) as (rc' & A' & X).
    exists bs, bc, (rs ++ tl :: r ++ ds ++ cm ++ [tr]), rc'. split; [rewrite <- app_assoc; reflexivity|]. split; [exact B|]. split; [exact A'|]. eapply emeans_alike; [apply alike_snoc; exact X|]. apply call_means; assumption.
  - intros tl l r cm m tr Kl _ (ec & Ee & Ma) Hc Kr. eexists _, _, [], nop. split; [rewrite app_nil_r; reflexivity|]. split; [eapply B_slice; eassumption|]. split; [apply AT_nil|]. eapply emeans_alike; [apply nop_alike|apply slice_means; exact Ma].
  - intros a us tl i r tr _ (bs & bc & rs & rc & -> & B & A & M) Kl _ (ic & Ei & Mi) Kr. destruct (snoc_index rs rc A tl r ic tr Kl Ei Kr) as (rc' & A' & X).
    exists bs, bc, (rs ++ tl :: r ++ [tr]), rc'. split; [rewrite <- app_assoc; reflexivity|]. split; [exact B|]. split; [exact A'|]. eapply emeans_alike; [apply alike_snoc; exact X|]. apply index_means; assumption.
  - intros t v H. apply lit_means. exact H.
  - intros e ts _ (bs & bc & rs & rc & -> & B & A & M). exists (bc >> rc). split; [apply F_base; assumption|exact M].
  - intros t t1 t2 K K1 K2. eexists. split; [apply F_recover; assumption|apply recover_means].
  - intros t e ts K _ (c & A & M). eexists. split; [apply F_not; [exact K|exact A]|apply un_means; [apply un_fine|exact M]].
  - intros t e ts K _ (c & A & M). eexists. split; [apply F_neg; [exact K|exact A]|apply un_means; [apply un_fine|exact M]].
  - intros t e ts K _ (c & A & M). eexists. split; [apply F_pos; [exact K|exact A]|exact M].
  - intros l t f a ts b ts' Ho _ (c & A & Ma) _ (c' & B & Mb). pose proof (op_fine _ _ _ Ho) as Hf.
    assert (X : exists m, match l with 0%nat => In (tkind t, m, f) level1 | 1%nat => In (tkind t, m, f) level2 | 2%nat => In (tkind t, m, f) (level3 L) | _ => False end).
    { remember (S l) as k0 eqn:Ek. remember (tkind t) as kd eqn:Ekd. clear -Ho Ek. destruct Ho; injection Ek as <-; eexists; cbn; eauto 10. }
    destruct X as (m & X). destruct l as [|[|[|l]]]; [..|destruct X]; cbn [level_is] in A, B; inversion A; subst; rewrite <- app_assoc.
    + destruct (snoc1 L _ _ H0 t m f ts' c' X B) as (rc' & R & E). eexists. split; [apply T1; [exact H|exact R]|]. eapply emeans_alike; [apply alike_snoc; exact E|]. apply bin_means; assumption.
    + destruct (snoc2 L _ _ H0 t m f ts' c' X B) as (rc' & R & E). eexists. split; [apply T2; [exact H|exact R]|]. eapply emeans_alike; [apply alike_snoc; exact E|]. apply bin_means; assumption.
    + destruct (snoc3 L _ _ H0 t m f ts' c' X B) as (rc' & R & E). eexists. split; [apply T3; [exact H|exact R]|]. eapply emeans_alike; [apply alike_snoc; exact E|]. apply bin_means; assumption.
  - intros t a ts b ts' K _ (c & A & Ma) _ (c' & B & Mb). cbn [level_is] in A, B. inversion A; subst. rewrite <- app_assoc.
    destruct (snoc4 L _ _ H0 t ts' c' K B) as (rc' & R & E). eexists. split; [apply T4; [exact H|exact R]|]. eapply emeans_alike; [apply alike_snoc; exact E|].
    apply (lazy_means false n_term3 m_and ts' _ a c' b ts' YAnd); [left; auto|exact Ma|right; right; right; left; split; [reflexivity|exact B]|exact Mb].
  - intros t a ts b ts' K _ (c & A & Ma) _ (c' & B & Mb). cbn [level_is] in A, B. inversion A; subst. rewrite <- app_assoc.
    destruct (snoc5 L _ _ H0 t ts' c' K B) as (rc' & R & E). eexists. split; [apply EX; [exact H|exact R]|]. eapply emeans_alike; [apply alike_snoc; exact E|].
    apply (lazy_means true n_term4 m_or ts' _ a c' b ts' YOr); [right; auto|exact Ma|right; right; right; right; split; [reflexivity|exact B]|exact Mb].
  - intros l e ts Hl _ (c & A & M). exists (c >> nop). split; [|eapply emeans_alike; [apply nop_alike|exact M]].
    rewrite <- (app_nil_r ts). destruct l as [|[|[|[|[|l]]]]]; [apply T1|apply T2|apply T3|apply T4|apply EX|lia]; try exact A; [apply O1_nil|apply O2_nil|apply O3_nil|apply O4_nil|apply O5_nil].
  - exists nop. split; [constructor|apply ameans_nil].
  - intros e ts l r _ (c & C & Mc) _ (rc & R & M). exists (c >> rc). split; [apply ES_some; assumption|apply ameans_cons; assumption].
  - exists nop. split; [constructor|apply ameans_nil].
  - intros t e ts l r K _ (c & C & Mc) _ (rc & R & M). exists (c >> rc). split; [apply M_cons; assumption|apply ameans_cons; assumption].
Qed.
Lemma expr_means : forall e ts, xwritten L 5 e ts -> exists c, expr_is L ts c /\ emeans e c.
Proof. apply exprs_mean. Qed.

(** ** Statements *)
Lemma put_facts : forall p x v h, (p < length (st_scopes h))%nat ->
  length (st_scopes (put_own p x v h)) = length (st_scopes h) /\ (forall i, up (put_own p x v h) i = up h i) /\ (st_made (put_own p x v h) = st_made h /\ st_caught (put_own p x v h) = st_caught h) /\ (forall i, deferred (put_own p x v h) i = deferred h i /\ pending (put_own p x v h) i = pending h i) /\
  (forall i n, own (put_own p x v h) i n = if (beq n x && (i =? p)%nat)%bool then Some v else own h i n) /\
  forall i n, knows (put_own p x v h) i n = (beq n x && (i =? p)%nat || knows h i n)%bool.
Proof.
  intros p x v h Hp. destruct (nth_error (st_scopes h) p) as [c|] eqn:E; [|apply nth_error_None in E; lia].
  pose proof (set_at p (mkScope (with_var x v (sc_own c)) (sc_up c) (sc_read c) (sc_deferred c) (sc_pending c)) c (st_scopes h) E) as X.
  assert (O : forall i n, own (put_own p x v h) i n = if (beq n x && (i =? p)%nat)%bool then Some v else own h i n).
  { intros i n. unfold put_own, own. rewrite E. cbn [st_scopes]. rewrite X. destruct (Nat.eqb_spec i p) as [->|]; [rewrite E; cbn [sc_own]; unfold with_var; rewrite Bool.andb_true_r; reflexivity|rewrite Bool.andb_false_r; reflexivity]. }
  assert (R : forall i n, has_read (put_own p x v h) i n = has_read h i n).
  { intros i n. unfold put_own, has_read. rewrite E. cbn [st_scopes]. rewrite X. destruct (Nat.eqb_spec i p) as [->|]; [rewrite E|]; reflexivity. }
  split; [unfold put_own; rewrite E; apply set_nth_length|]. split; [intro i; unfold put_own, up; rewrite E; cbn [st_scopes]; rewrite X; destruct (Nat.eqb_spec i p) as [->|]; [rewrite E; reflexivity|reflexivity]|]. split; [unfold put_own; rewrite E; split; reflexivity|].
  split; [intro i; unfold put_own, deferred, pending; rewrite E; cbn [st_scopes]; rewrite X; destruct (Nat.eqb_spec i p) as [->|]; try rewrite E; split; reflexivity|].
  split; [exact O|]. intros i n. unfold knows. rewrite O, R. destruct (_ && _)%bool; [reflexivity|]. destruct (own h i n); reflexivity.
Qed.
Lemma wrote_gave : forall d p q h x v stk (s s' : St), at_store p h s -> (q < length (st_scopes h))%nat -> plain v -> wrote q x v (v :: stk) s s' -> coherent s' -> (forall m i, has_entry s' m i <-> has_entry s m i \/ (m = x /\ i = q)) ->
  dgave d p stk s (put_own q x v h, Gives v) (inl (tt, s')).
Proof.
  intros d p q h x v stk s s' (C & F & N & P & V & I & T) Hq Pv (W1 & W2 & W3 & W4 & W5 & W6 & W7 & W8 & W9 & W10) C' En. destruct (put_facts q x v h Hq) as (Q1 & Q2 & Q3 & Q6 & Q4 & Q5). exists s'. split; [reflexivity|]. split; [exact Pv|]. split; [exact W1|]. cbn [fst]. split.
  - split; [exact C'|]. rewrite W4, Q1. split; [exact F|]. split; [exact N|]. split; [intro i; rewrite Q2, <- P; apply (W3 i)|]. split; [|split; [apply (kept_like h _ s); [exact I|exact Q3|exact Q2|exact Q6|split; [exact W8|exact W9]|intro i; split; apply (W3 i)]|]].
    + intros i n u. rewrite W2, Q4. destruct (_ && _)%bool; [split; congruence|apply V].
    + intros i m. rewrite En, Q5, T, Bool.orb_true_iff, Bool.andb_true_iff, Nat.eqb_eq. split; [intros [Y|(-> & ->)]; [right; exact Y|left; split; [apply beq_refl|reflexivity]]|intros [(Y & ->)|Y]; [right; apply beq_eq in Y; auto|left; exact Y]].
  - split; [intros i _; destruct (W3 i) as (a & b & c & d0 & e); auto|]. split; [lia|]. repeat split; assumption.
Qed.
Lemma assign_entries : forall p x (s : St) q v stk (s' : St), getVars p x s = inl (q, s) -> e_stk s = v :: stk -> (q < nframes s)%nat -> Assign p x s = inl (None, s') -> forall m i, has_entry s' m i <-> has_entry s m i \/ (m = x /\ i = q).
Proof.
  intros p x s q v stk s' G K Hq E. unfold Assign, bind in E. rewrite G in E. unfold pop in E. rewrite K in E. unfold set_var, modify, push, modify, ret in E. injection E as <-. exact (put_entries q x v _ s Hq).
Qed.
Lemma assign_gave : forall ts p x h v stk s, x <> [] -> plain v -> at_store p h s -> e_stk s = v :: stk -> sgave p stk s (fassigned p x v h) (blame ts (raise (Assign p x)) s).
Proof.
  intros ts p x h v stk s Nx Pv V K. apply (sgave_blame _ true). unfold raise, bind. pose proof V as (C & F & N & P & D & I & T). pose proof (whose_sees p h s x V) as X. unfold fassigned. destruct (whose h p x) as [q|] eqn:Hw.
  - destruct X as (u & _ & O & S). destruct (knows h p x) eqn:Kn.
    + assert (He : has_entry s x p) by (apply T; exact Kn). destruct (C57_assign p x s q u v stk C K Pv He S) as (s' & A & Wr & C').
      pose proof (frame_in _ _ _ _ (sees_def _ _ _ _ _ S)) as Hq. pose proof (assign_entries p x s q v stk s' (getVars_entry s x p q u C He S) K Hq A) as En. rewrite A. unfold ret. rewrite K in Wr. apply wrote_gave; try assumption. lia.
    + assert (He : ~ has_entry s x p) by (intro Y; apply T in Y; congruence). rewrite (C57_assign_extern p x s q u C Nx He S). apply (throws p [v] stk s h (msg m_extern [VStr x]) Logic.I V K).
  - destruct X as (_ & X). assert (He : ~ has_entry s x p) by (intro Y; destruct (entry_sees s x p C Y) as (q & u & S & _); exact (X _ _ S)).
    destruct (C57_assign_new p x s v stk C F Nx K Pv He X) as (s' & A & Wr & C'). destruct (getVars_new s x p C Nx He) as [(G & _)|(_ & q & u & Y)]; [|exfalso; exact (X _ _ Y)].
    pose proof (assign_entries p x s p v stk s' G K F A) as En. rewrite A. unfold ret. rewrite K in Wr. apply wrote_gave; try assumption. lia.
Qed.
Lemma smeans_alike : forall st c c', alike c c' -> smeans st c' -> smeans st c.
Proof. intros st c c' A H p h o E. destruct (H p h o E) as (N & M). exists N. intros n s Hn V. rewrite A. apply M; assumption. Qed.
Lemma set_means : forall x e ts0 c, x <> [] -> emeans e c -> smeans (FSet x e) (c >> (fun _ _ p => blame ts0 (raise (Assign p x)))).
Proof.
  intros x e ts0 c Nx H p h o E. apply (seq_gave0 false (xval e p h) (fun h1 v => Some (fassigned p x v h1)) p h o (fun n => c (ev n) n p) (fun _ => blame ts0 (raise (Assign p x))) E (H p h)).
  intros h1 v [= <-]. exists 0%nat. intros n s stk _ V Pv K. apply assign_gave; assumption.
Qed.
Lemma assign_one : forall p x v h s, x <> [] -> plain v -> at_store p h s ->
  match fassigned p x v h with
  | (h1, Gives _) => exists q, getVars p x s = inl (q, s) /\ at_store p h1 (put q x v s) /\ like s (put q x v s)
  | (h1, Panics e) => h1 = h /\ fine e /\ getVars p x s = inr (PUser e, s)
  | _ => False
  end.
Proof.
  intros p x v h s Nx Pv V. pose proof V as (C & F & N & P & D & I & T). pose proof (whose_sees p h s x V) as X.
  assert (G : forall q, (q < nframes s)%nat -> coherent (put q x v s) -> at_store p (put_own q x v h) (put q x v s) /\ like s (put q x v s)).
  { intros q Hq C'. assert (Hq' : (q < length (st_scopes h))%nat) by lia.
    pose proof (wrote_gave true p q h x v (e_stk s) s (set_stk (v :: e_stk s) (put q x v s)) V Hq' Pv (wrote_put q x v (v :: e_stk s) s Hq Pv) (coherent_stk _ _ C') (put_entries q x v (v :: e_stk s) s Hq)) as (s' & [= <-] & _ & _ & V' & L').
    cbn [fst] in V'. apply (store_stk _ _ _ (e_stk s)) in V'. split; [exact V'|exact L']. }
  unfold fassigned. destruct (whose h p x) as [q|] eqn:Hw.
  - destruct X as (u & _ & O & S). pose proof (frame_in _ _ _ _ (sees_def _ _ _ _ _ S)) as Hq. destruct (knows h p x) eqn:Kn.
    + assert (He : has_entry s x p) by (apply T; exact Kn). exists q. split; [exact (getVars_entry s x p q u C He S)|]. apply G; [exact Hq|]. apply coherent_write; [exact Hq|exact Pv|exact C|left; exists u; apply (sees_def _ _ _ _ _ S)].
    + assert (He : ~ has_entry s x p) by (intro Y; apply T in Y; congruence). split; [reflexivity|]. split; [exact Logic.I|]. destruct (getVars_new s x p C Nx He) as [(_ & Y)|(Y & _)]; [destruct (Y _ _ S)|exact Y].
  - destruct X as (_ & X). assert (He : ~ has_entry s x p) by (intro Y; destruct (entry_sees s x p C Y) as (q & u & S & _); exact (X _ _ S)).
    destruct (getVars_new s x p C Nx He) as [(Y & _)|(_ & q & u & Y)]; [|destruct (X _ _ Y)]. exists p. split; [exact Y|]. apply G; [exact F|].
    assert (Vn : var_of p x s = None) by (unfold has_entry in He; destruct (var_of p x s); [exfalso; apply He; discriminate|reflexivity]). apply coherent_write; [exact F|exact Pv|exact C|right; auto].
Qed.
Lemma assigns_gave : forall (xs : list bytes) l p h s, Forall (fun n => n <> []) xs -> Forall plain l -> at_store p h s ->
  match fassign_all p xs l h with
  | (h1, Gives _) => exists s', assign_all p (combine xs l) s = inl (tt, s') /\ e_stk s' = e_stk s /\ at_store p h1 s' /\ like s s'
  | (h1, Panics e) => exists s', assign_all p (combine xs l) s = inr (PUser e, s') /\ fine e /\ e_stk s' = e_stk s /\ at_store p h1 s' /\ like s s'
  | _ => False
  end.
Proof.
  induction xs as [|x xs IH]; intros [|v l] p h s Nx Pl V; cbn [fassign_all combine assign_all]; try (exists s; split; [reflexivity|]; split; [reflexivity|]; split; [exact V|apply like_refl]).
  inversion_clear Nx as [|? ? N1 N2]. inversion_clear Pl as [|? ? P1 P2]. pose proof (assign_one p x v h s N1 P1 V) as A. destruct (fassigned p x v h) as (h1, [w|e|w]); [| |destruct A].
  - destruct A as (q & G & V1 & L1). specialize (IH l p h1 (put q x v s) N2 P2 V1). assert (Y : (q <-- getVars p x ;; set_var q x v ;;; assign_all p (combine xs l)) s = assign_all p (combine xs l) (put q x v s)) by (rewrite (bind_inl _ _ _ _ _ _ _ G); reflexivity). rewrite Y.
    destruct (fassign_all p xs l h1) as (h2, [w2|e|w2]); [| |destruct IH].
    + destruct IH as (s' & E & K & V2 & L2). exists s'. split; [exact E|]. split; [exact K|]. split; [exact V2|]. eapply like_trans; eassumption.
    + destruct IH as (s' & E & Fe & K & V2 & L2). exists s'. split; [exact E|]. split; [exact Fe|]. split; [exact K|]. split; [exact V2|]. eapply like_trans; eassumption.
  - destruct A as (-> & Fe & G). exists s. unfold bind at 1. rewrite G. split; [reflexivity|]. split; [exact Fe|]. split; [reflexivity|]. split; [exact V|apply like_refl].
Qed.
Lemma sets_gave : forall (xs : list bytes) p h v o stk s, Forall (fun n => n <> []) xs -> xs <> [] -> plain v -> fsets p xs v h = Some o -> at_store p h s -> e_stk s = v :: VInt (Z.of_nat (length xs) - 1) :: rev (map VStr xs) ++ stk ->
  dgave true p stk s o (raise (MultiAssign p) s).
Proof.
  intros xs p h v o stk s Nx Nn Pv E V K. set (s0 := set_stk stk s). assert (Es : s = set_stk (v :: VInt (Z.of_nat (length xs) - 1) :: rev (map VStr xs) ++ stk) s0) by (rewrite <- K; destruct s; reflexivity).
  assert (No : fsets p xs v h = Some (h, Panics (PvErr e_notslice)) -> elems_of v = None -> dgave true p stk s o (raise (MultiAssign p) s)).
  { intros E' N. rewrite E' in E. injection E as <-. unfold raise, MultiAssign. rewrite Es at 2. unfold bind at 1. rewrite (bind_inl _ _ _ _ _ _ _ (pop_set _ _ _)), N. unfold ret, throw.
    apply (sgave_from _ _ _ s (set_stk (VInt (Z.of_nat (length xs) - 1) :: rev (map VStr xs) ++ stk) s0)); [eapply like_trans; apply like_stk|].
    apply (throws p (VInt (Z.of_nat (length xs) - 1) :: rev (map VStr xs))); [exact Logic.I|apply store_stk, store_stk; exact V|reflexivity]. }
  destruct v; try (apply No; reflexivity); try discriminate E; try (exfalso; exact (Pv _ eq_refl)).
  clear No. cbn [fsets] in E.
  assert (Len : Z.of_nat (length xs) - 1 + 1 = Z.of_nat (length xs)) by lia.
  assert (R : raise (MultiAssign p) s = if negb (length xs =? length l)%nat then inr (PUser (PvErr (e_massign (Z.of_nat (length l)) (Z.of_nat (length xs)))), set_stk (rev (map VStr xs) ++ stk) s0)
    else (assign_all p (combine xs l) ;;; push (VSlice t l)) s0).
  { unfold raise, MultiAssign. rewrite Es at 1. unfold bind at 1. rewrite (bind_inl _ _ _ _ _ _ _ (pop_set _ _ _)). cbn [elems_of]. rewrite (bind_inl _ _ _ _ _ _ _ (popArity_set _ _ _)). cbv zeta. rewrite Len.
    destruct (Nat.eqb_spec (length xs) (length l)) as [El|El].
    - rewrite El, Z.eqb_refl. cbn [negb]. rewrite <- El, (bind_inl _ _ _ _ _ _ _ (popFnArgs_set _ _ _)). change (set_stk stk s0) with s0. clear. generalize (@assign_all W p (combine xs l)). intro m. unfold bind. destruct (m s0) as [([], s1)|(e, s1)]; reflexivity.
    - destruct (Z.eqb_spec (Z.of_nat (length xs)) (Z.of_nat (length l))); [lia|]. reflexivity. }
  rewrite R. clear R. destruct (length xs =? length l)%nat; cbn [negb] in E |- *.
  - destruct (forallb _ l) eqn:Fl; [|discriminate E].
    assert (Pl : Forall plain l) by (apply Forall_forall; intros u Hu q ->; rewrite forallb_forall in Fl; discriminate (Fl _ Hu)).
    apply (sgave_from _ _ _ s s0); [apply like_stk|]. pose proof (assigns_gave xs l p h s0 Nx Pl (store_stk _ _ _ _ V)) as A. destruct (fassign_all p xs l h) as (h1, [w|e|w]); [| |destruct A]; injection E as <-.
    + destruct A as (s1 & A & K1 & V1 & L1). unfold bind. rewrite A. exists (pushed (VSlice t l) s1). split; [reflexivity|]. split; [exact Pv|]. split; [cbn; rewrite K1; reflexivity|]. split; [apply store_stk; exact V1|]. eapply like_trans; [exact L1|apply like_stk].
    + destruct A as (s1 & A & Fe & K1 & V1 & L1). unfold bind. rewrite A. apply (sgave_from _ _ _ s0 s1); [exact L1|]. apply (throws p []); [exact Fe|exact V1|exact K1].
  - injection E as <-. apply (sgave_from _ _ _ s (set_stk (rev (map VStr xs) ++ stk) s0)); [eapply like_trans; apply like_stk|]. apply (throws p (rev (map VStr xs))); [exact Logic.I|apply store_stk, store_stk; exact V|reflexivity].
Qed.
Lemma sets_means : forall (x : bytes) (xs : list bytes) e ts0 c, Forall (fun n => n <> []) (x :: xs) -> emeans e c ->
  smeans (FSets (x :: xs) e) (puts (VStr x) >> put_names xs >> count (length xs) >> c >> (fun _ _ p => blame ts0 (raise (MultiAssign p)))).
Proof.
  intros x xs e ts0 c Nx H p h o E.
  destruct (seq_gave false (VInt (Z.of_nat (length xs)) :: rev (map VStr (x :: xs))) (xval e p h) (fun h1 v => fsets p (x :: xs) v h1) p h o (fun n => c (ev n) n p) (fun _ => blame ts0 (raise (MultiAssign p))) E (H p h)) as (N & M).
  - intros h1 v Ef. exists 0%nat. intros n s stk _ V Pv K. apply (sgave_blame _ true). apply (sets_gave (x :: xs) p h1 v o stk s Nx); try assumption; [discriminate|].
    rewrite K. cbn [app length]. rewrite Nat2Z.inj_succ. do 3 f_equal. lia.
  - exists N. intros n s Hn V. unfold seq. unfold bind at 1. unfold puts at 1, push at 1, modify at 1. unfold bind at 1. destruct (names_run xs (ev n) n p (set_stk (VStr x :: e_stk s) s)) as (s0 & -> & ->). unfold bind at 1. unfold count, puts, push, modify. cbn [e_stk set_stk].
    match goal with |- dgave _ _ _ _ _ (_ ?y) => set (s1 := y) end. apply (sgave_from _ _ _ s s1); [apply (like_stk s)|]. apply M; [exact Hn|apply (store_stk p h s); exact V|].
    subst s1. cbn [e_stk set_stk rev map app]. rewrite <- app_assoc. reflexivity.
Qed.
Lemma incdec_fine : forall kd f, In (kd, f) incdec_ops -> forall v, good_val (f v).
Proof. intros kd f [[= _ <-]|[[= _ <-]|[]]] v; destruct v; try exact Logic.I; intros ? ?; discriminate. Qed.
Lemma assign_fine : forall kd f, In (kd, f) assign_ops -> forall v w, good_val (f v w).
Proof.
  intros kd f H v w. unfold assign_ops in H. cbn [In] in H. destruct H as [[= _ <-]|[[= _ <-]|[[= _ <-]|[[= _ <-]|[[= _ <-]|[]]]]]].
  - apply (op_fine 2 _ _ (op_add L)).
  - apply (op_fine 2 _ _ (op_sub L)).
  - apply (op_fine 1 _ _ (op_mul L)).
  - apply (op_fine 1 _ _ (op_quo L)).
  - apply (op_fine 1 _ _ (op_mod L)).
Qed.
Lemma known_put : forall p x w h q, whose h p x = Some q -> knows h p x = true -> fassigned p x w h = (put_own q x w h, Gives w).
Proof. intros p x w h q A B. unfold fassigned. rewrite A, B. reflexivity. Qed.
Lemma inc_means : forall kd f x ts0, In (kd, f) incdec_ops -> smeans (FInc f x) (fun _ _ p => blame ts0 (raise (IncDec f p x))).
Proof.
  intros kd f x ts0 Hf p h o [= <-]. exists 0%nat. intros n s _ V. apply (sgave_blame _ true). unfold raise, bind, fupdated. pose proof V as (C & F & N & P & D & I & T). destruct (knows h p x) eqn:Kn.
  - destruct (knows_sees p h s x V Kn) as (q & u & Hw & -> & He & S & Hq). pose proof (incdec_fine kd f Hf u) as Tf. destruct (f u) as [v|e] eqn:Ef.
    + rewrite (known_put p x v h q Hw Kn). destruct (C57_inc f p x s q u v C He S Ef Tf) as (s' & A & Wr & C'). rewrite A. unfold ret. apply wrote_gave; try assumption.
      unfold IncDec, bind in A. rewrite (getVar_entry s x p q u C He S) in A. cbn [snd fst] in A. rewrite Ef in A. unfold of_op, set_var, modify, push, modify, ret in A. injection A as <-. intros m i. apply (put_entries q x v (v :: e_stk s) s). lia.
    + unfold IncDec, bind. rewrite (getVar_entry s x p q u C He S). cbn [snd]. rewrite Ef. unfold of_op, throw. apply (throws p [] (e_stk s) s h e Tf V eq_refl).
  - assert (He : ~ has_entry s x p) by (intro Y; apply T in Y; congruence). rewrite (proj2 (C57_op_unknown p x s He)). apply (throws p [] (e_stk s) s h (no_variable x) Logic.I V eq_refl).
Qed.
Lemma op_means : forall kd f x e ts0 c, In (kd, f) assign_ops -> emeans e c -> smeans (FOp f x e) (c >> (fun _ _ p => blame ts0 (raise (OpAssign f p x)))).
Proof.
  intros kd f x e ts0 c Hf H p h o E. apply (seq_gave0 false (xval e p h) (fun h1 w => Some (fupdated p x (fun v => f v w) h1)) p h o (fun n => c (ev n) n p) (fun _ => blame ts0 (raise (OpAssign f p x))) E (H p h)).
  intros h1 w [= <-]. exists 0%nat. intros n s stk _ V Pw K. apply (sgave_blame _ true). unfold raise, bind, fupdated. pose proof V as (C & F & N & P & D & I & T). destruct (knows h1 p x) eqn:Kn.
  - destruct (knows_sees p h1 s x V Kn) as (q & u & Hw & -> & He & S & Hq). pose proof (assign_fine kd f Hf u w) as Tf. destruct (f u w) as [v|e0] eqn:Ef.
    + rewrite (known_put p x v h1 q Hw Kn). destruct (C57_op_assign f p x s q u w v stk C K He S Ef Tf) as (s' & A & Wr & C'). rewrite A. unfold ret. apply wrote_gave; try assumption.
      unfold OpAssign, bind in A. rewrite (getVar_entry s x p q u C He S) in A. unfold pop in A. rewrite K in A. cbn [snd fst] in A. rewrite Ef in A. unfold of_op, set_var, modify, push, modify, ret in A. injection A as <-. intros m i. apply (put_entries q x v (v :: stk) s). lia.
    + unfold OpAssign, bind. rewrite (getVar_entry s x p q u C He S). unfold pop. rewrite K. cbn [snd]. rewrite Ef. unfold of_op, throw.
      eapply sgave_from; [apply (like_stk s stk)|]. apply (throws p [] stk (set_stk stk s) h1 e0 Tf); [apply store_stk; exact V|reflexivity].
  - assert (He : ~ has_entry s x p) by (intro Y; apply T in Y; congruence). rewrite (proj1 (C57_op_unknown p x s He)). apply (throws p [w] stk s h1 (no_variable x) Logic.I V K).
Qed.

(** ** Conditions *)
Lemma popped : forall v stk (s : St) {A} (f : value -> @Q W A), e_stk s = v :: stk -> bind pop_any f s = f v (set_stk stk s).
Proof. intros v stk s A f K. unfold pop_any, bind, pop. rewrite K. reflexivity. Qed.
Lemma pop_seq : forall d (a : option foutcome) kf p h o (m : nat -> @Q W unit) (f : nat -> value -> @Q W unit), fthen a kf = Some o ->
  (forall o1, a = Some o1 -> exists N, forall n s, (N <= n)%nat -> at_store p h s -> dgave d p (e_stk s) s o1 (m n s)) ->
  (forall h1 v, kf h1 v = Some o -> exists N, forall n s, (N <= n)%nat -> at_store p h1 s -> dgave d p (e_stk s) s o (f n v s)) ->
  exists N, forall n s, (N <= n)%nat -> at_store p h s -> dgave d p (e_stk s) s o ((m n ;;; v <-- pop_any ;; f n v) s).
Proof.
  intros d a kf p h o m f E Ha Hf. apply (seq_gave0 d a kf p h o m (fun n => v <-- pop_any ;; f n v) E Ha). intros h1 v E1. destruct (Hf h1 v E1) as (N & M). exists N. intros n s stk Hn V _ K.
  rewrite (popped v stk) by exact K. eapply sgave_from; [apply (like_stk s stk)|]. apply (M n (set_stk stk s) Hn). apply store_stk. exact V.
Qed.
Lemma loosely_all : forall p h rule e ts, cmeans rule e ts -> forall o1, xval e p h = Some o1 -> exists N, forall n s, (N <= n)%nat -> at_store p h s -> dgave true p (e_stk s) s o1 (evalCode (ev n) p rule (VCode ts) s).
Proof. intros p h rule e ts H o1 E. destruct (H p h o1 E) as (N & M). exists N. intros n s Hn V. apply loosely. apply M; assumption. Qed.
Lemma throws0 : forall p s h q, fine q -> at_store p h s -> dgave true p (e_stk s) s (h, Panics q) (inr (PUser q, s)).
Proof. intros p s h q Fq V. apply (throws p [] (e_stk s) s h q Fq V eq_refl). Qed.
Lemma if_means : forall br l els eb, brmeans br l -> bodymeans eb els -> forall p h o, fifrun br (fbrun eb) p h = Some o ->
  exists N, forall n s, (N <= n)%nat -> at_store p h s -> dgave true p (e_stk s) s o (if_chain (ev n) p l els s).
Proof.
  induction br as [|c b br IH]; intros l els eb; destruct l as [|(cs, bs) l]; intros Hb He p h o E; try (destruct Hb; fail).
  - destruct (He p h o E) as (N & M). exists N. intros n s Hn V. apply loosely. apply M; assumption.
  - destruct Hb as (Hc & Hbd & Hbr).
    apply (pop_seq true (xval c p h) (fun h1 v => match v with VBool true => fbrun b p h1 | VBool false => fifrun br (fbrun eb) p h1 | _ => Some (h1, Panics (PvErr (EOther (VMsg m_ifcond [])))) end) p h o
      (fun n => evalCode (ev n) p n_expr (VCode cs)) (fun n v => match v with VBool true => run_body (ev n) p bs | VBool false => if_chain (ev n) p l els | _ => throw_err m_ifcond end) E (loosely_all p h _ c cs Hc)).
    intros h1 v E1. destruct v as [|b0| | | | | | | | | | | | | | | | | | | | | | | ]; try (injection E1 as <-; exists 0%nat; intros n1 s1 _ V1; apply throws0; [exact Logic.I|exact V1]). destruct b0.
    + destruct (Hbd p h1 o E1) as (N & M). exists N. intros n s Hn V. apply loosely. apply M; assumption.
    + apply (IH l els eb Hbr He p h1 o E1).
Qed.
Lemma case_means : forall v br l d db, brmeans br l -> bodymeans db d -> forall p h o, fcaserun v br (fbrun db) p h = Some o ->
  exists N, forall n s, (N <= n)%nat -> at_store p h s -> dgave true p (e_stk s) s o (cases L (ev n) p v l d s).
Proof.
  intros v. induction br as [|c b br IH]; intros l d db; destruct l as [|(cs, bs) l]; intros Hb He p h o E; try (destruct Hb; fail).
  - destruct (He p h o E) as (N & M). exists N. intros n s Hn V. apply loosely. apply M; assumption.
  - destruct Hb as (Hc & Hbd & Hbr).
    apply (pop_seq true (xval c p h) (fun h1 w => match EQ (l_same L) v w with inl (VBool true) => fbrun b p h1 | inl _ => fcaserun v br (fbrun db) p h1 | inr q => Some (h1, Panics q) end) p h o
      (fun n => evalCode (ev n) p n_expr (VCode cs)) (fun n w => e <-- of_op (EQ (l_same L) v w) ;; match e with VBool true => run_body (ev n) p bs | _ => cases L (ev n) p v l d end) E (loosely_all p h _ c cs Hc)).
    intros h1 w E1. pose proof (eq_fine v w) as T. unfold of_op. destruct (EQ (l_same L) v w) as [r|q].
    + destruct r; try (destruct T; fail). destruct b0.
      * destruct (Hbd p h1 o E1) as (N & M). exists N. intros n s Hn V. apply loosely. apply M; assumption.
      * apply (IH l d db Hbr He p h1 o E1).
    + injection E1 as <-. exists 0%nat. intros n s _ V. apply throws0; assumption.
Qed.
(** what the tokens of a switch between the keyword and the brace mean *)
Definition omeans (e : option fx) (ts : list token) : Prop := match e with None => ts = [] | Some e => ts <> [] /\ cmeans n_expr e ts end.
Lemma switch_means : forall x xs br l d db, omeans x xs -> brmeans br l -> bodymeans db d -> forall p h o, frun (FSwitch x br db) p h = Some o ->
  exists N, forall n s, (N <= n)%nat -> at_store p h s -> dgave true p (e_stk s) s o (switch_on L (ev n) p xs l d s).
Proof.
  intros x xs br l d db Hx Hb Hd p h o E. change (fthen (xoval x p h) (fun h1 v => fcaserun v br (fbrun db) p h1) = Some o) in E. destruct x as [e|]; cbn [QFun.xoval omeans] in *.
  - destruct Hx as (Nx & Hx). destruct xs as [|t xs]; [contradiction|].
    apply (pop_seq true (xval e p h) _ p h o (fun n => evalCode (ev n) p n_expr (VCode (t :: xs))) (fun n v => cases L (ev n) p v l d) E (loosely_all p h _ e _ Hx)).
    intros h1 v E1. apply (case_means v br l d db Hb Hd p h1 o E1).
  - subst xs. apply (case_means (VBool true) br l d db Hb Hd p h o E).
Qed.

(** ** Loops *)
Definition drop_means (run : nat -> store -> option foutcome) (rule : bytes) (ts : list token) : Prop :=
  forall p h o, run p h = Some o -> exists N, forall n s (f : @Q W unit) o', (N <= n)%nat -> at_store p h s ->
    match o with
    | (h1, Gives _) => forall s1, e_stk s1 = e_stk s -> at_store p h1 s1 -> like s s1 -> dgave true p (e_stk s) s1 o' (f s1)
    | _ => o' = o
    end -> dgave true p (e_stk s) s o' ((run_drop (ev n) p rule ts ;;; f) s).
Lemma drops : forall run rule ts, (forall p h o, run p h = Some o -> exists N, forall n s, (N <= n)%nat -> at_store p h s -> sgave p (e_stk s) s o (evalCode (ev n) p rule (VCode ts) s)) -> ts <> [] -> drop_means run rule ts.
Proof.
  intros run rule ts H Ht p h o E. destruct (H p h o E) as (N & M). exists N. intros n s f o' Hn V Hf. specialize (M n s Hn V). apply loosely in M. destruct ts as [|t ts]; [contradiction|]. unfold run_drop.
  destruct o as (h1, [v|q|v]).
  - destruct M as (s1 & E1 & _ & K1 & V1 & S1). cbn [fst snd] in *. unfold bind at 1 2. rewrite E1. unfold bind, pop. rewrite K1. cbn. apply (sgave_from true _ _ s s1); [exact S1|].
    eapply sgave_from; [apply (like_stk s1 (e_stk s))|]. apply Hf; [reflexivity|apply store_stk; exact V1|]. eapply like_trans; [exact S1|apply like_stk].
  - subst o'. destruct M as (e & s1 & E1 & M). exists e, s1. unfold bind. rewrite E1. split; [reflexivity|exact M].
  - subst o'. destruct M as (s1 & E1 & M). exists s1. unfold bind. rewrite E1. split; [reflexivity|exact M].
Qed.
Lemma no_drop : forall run rule, (forall p h, run p h = Some (h, Gives VNil)) -> drop_means run rule [].
Proof. intros run rule H p h o E. rewrite H in E. injection E as <-. exists 0%nat. intros n s f o' _ V Hf. unfold run_drop, bind, ret. apply Hf; [reflexivity|exact V|apply like_refl]. Qed.

Definition fmeans (e : option fx) (ts : list token) : Prop := match e with None => ts = [] | Some e => ts <> [] /\ cmeans n_s e ts end.
Lemma holds_gave : forall e ts, fmeans e ts -> forall p h o, xoval e p h = Some o -> exists N, forall n s (f : bool -> @Q W unit) o', (N <= n)%nat -> at_store p h s ->
  match o with
  | (h1, Gives (VBool b)) => forall s1, e_stk s1 = e_stk s -> at_store p h1 s1 -> like s s1 -> dgave true p (e_stk s) s1 o' (f b s1)
  | (h1, Gives _) => o' = (h1, Panics (msg m_forcond []))
  | _ => o' = o
  end -> dgave true p (e_stk s) s o' ((b <-- QText.holds (ev n) p ts ;; f b) s).
Proof.
  intros [e|] ts H p h o E; cbn [fmeans QFun.xoval] in *.
  - destruct H as (Ht & H). destruct (H p h o E) as (N & M). exists N. intros n s f o' Hn V Hf. specialize (M n s Hn V). apply loosely in M. destruct ts as [|t ts]; [contradiction|]. unfold QText.holds.
    destruct o as (h1, [v|q|v]).
    + destruct M as (s1 & E1 & _ & K1 & V1 & S1). cbn [fst snd] in *. unfold bind at 1 2. rewrite E1. unfold bind, pop. rewrite K1. apply (sgave_from true _ _ s s1); [exact S1|].
      eapply sgave_from; [apply (like_stk s1 (e_stk s))|].
      destruct v; try (rewrite Hf; apply (throws p []); [exact Logic.I|apply store_stk; exact V1|reflexivity]).
      apply Hf; [reflexivity|apply store_stk; exact V1|]. eapply like_trans; [exact S1|apply like_stk].
    + subst o'. destruct M as (e0 & s1 & E1 & M). exists e0, s1. unfold bind. rewrite E1. split; [reflexivity|exact M].
    + subst o'. destruct M as (s1 & E1 & M). exists s1. unfold bind. rewrite E1. split; [reflexivity|exact M].
  - subst ts. injection E as <-. exists 0%nat. intros n s f o' _ V Hf. unfold QText.holds, bind, ret. apply Hf; [reflexivity|exact V|apply like_refl].
Qed.
Lemma rounds_gave : forall c cs body bs step ss, fmeans c cs -> drop_means body n_docr bs -> drop_means step n_s ss -> forall p j h o, floop j (xoval c p) (body p) (step p) h = Some o ->
  exists N, forall n K s, (N <= n)%nat -> (N <= K)%nat -> at_store p h s -> dgave true p (e_stk s) s o ((rounds (ev n) K p cs bs ss ;;; push VNil) s).
Proof.
  intros c cs body bs step ss Hc Hb Hs p. induction j as [|j IH]; intros h o E; [discriminate E|]. cbn [floop] in E. destruct (xoval c p h) as [oc|] eqn:Ec; [|discriminate E]. destruct (holds_gave c cs Hc p h oc Ec) as (N & Hh).
  assert (X : exists N', forall h0 n K s stk b, (N' <= n)%nat -> (N' <= K)%nat -> oc = (h0, Gives (VBool b)) -> at_store p h0 s -> e_stk s = stk ->
    dgave true p stk s o (if b then (run_drop (ev n) p n_docr bs ;;; run_drop (ev n) p n_s ss ;;; rounds (ev n) K p cs bs ss ;;; push VNil) s else push VNil s)).
  { destruct oc as (h0, [v0|q|v0]); [|exists 0%nat; intros; discriminate|exists 0%nat; intros; discriminate]. destruct v0; try (exists 0%nat; intros; discriminate). cbn [fthen] in E. destruct b.
    - destruct (body p h0) as [(g1, [v1|q1|v1])|] eqn:E1; cbn [fthen] in E; [| | |discriminate E].
      + destruct (Hb p h0 _ E1) as (N1 & M1). destruct (step p g1) as [(g2, [v2|q2|v2])|] eqn:E2; cbn [fthen] in E; [| | |discriminate E].
        * destruct (Hs p g1 _ E2) as (N2 & M2). destruct (IH g2 o E) as (N3 & M3). exists (N1 + N2 + N3)%nat. intros h9 n K s stk b Hn HK Eb V <-. injection Eb as <- <-.
          apply M1; [lia|exact V|]. intros s1 K1 V1 S1. rewrite <- K1. apply M2; [lia|exact V1|]. intros s2 K2 V2 S2. rewrite <- K2. apply M3; [lia|lia|exact V2].
        * injection E as <-. destruct (Hs p g1 _ E2) as (N2 & M2). exists (N1 + N2)%nat. intros h9 n K s stk b Hn HK Eb V <-. injection Eb as <- <-.
          apply M1; [lia|exact V|]. intros s1 K1 V1 S1. rewrite <- K1. apply M2; [lia|exact V1|]. reflexivity.
        * injection E as <-. destruct (Hs p g1 _ E2) as (N2 & M2). exists (N1 + N2)%nat. intros h9 n K s stk b Hn HK Eb V <-. injection Eb as <- <-.
          apply M1; [lia|exact V|]. intros s1 K1 V1 S1. rewrite <- K1. apply M2; [lia|exact V1|]. reflexivity.
      + injection E as <-. destruct (Hb p h0 _ E1) as (N1 & M1). exists N1. intros h9 n K s stk b Hn HK Eb V <-. injection Eb as <- <-. apply M1; [lia|exact V|]. reflexivity.
      + injection E as <-. destruct (Hb p h0 _ E1) as (N1 & M1). exists N1. intros h9 n K s stk b Hn HK Eb V <-. injection Eb as <- <-. apply M1; [lia|exact V|]. reflexivity.
    - injection E as <-. exists 0%nat. intros h9 n K s stk b _ _ Eb V <-. injection Eb as <- <-. rewrite <- (stk_self s) at 3. apply push_gave; [exact V|intros ? ?; discriminate]. }
  destruct X as (N' & X). exists (S (N + N'))%nat. intros n K s Hn HK V. destruct K as [|K]; [lia|]. cbn [rounds].
  replace ((((h <-- QText.holds (ev n) p cs;; (if h then run_drop (ev n) p n_docr bs;;; run_drop (ev n) p n_s ss;;; rounds (ev n) K p cs bs ss else ret tt));;; push VNil)) s)
    with ((h <-- QText.holds (ev n) p cs;; (fun s => if h then (run_drop (ev n) p n_docr bs;;; run_drop (ev n) p n_s ss;;; rounds (ev n) K p cs bs ss ;;; push VNil) s else push VNil s)) s).
  - apply (Hh n s _ o); [lia|exact V|]. destruct oc as (h0, [v0|q|v0]); cbn [fthen] in E; [|injection E as <-; reflexivity|injection E as <-; reflexivity].
    destruct v0 as [|b0| | | | | | | | | | | | | | | | | | | | | | | ]; try (injection E as <-; reflexivity). intros s1 K1 V1 _. apply (X h0); [lia|lia|reflexivity|exact V1|exact K1].
  - unfold bind. destruct (QText.holds (ev n) p cs s) as [(hh, s1)|(e, s1)]; [|reflexivity]. destruct hh; [|reflexivity].
    destruct (run_drop (ev n) p n_docr bs s1) as [(u, s2)|(e, s2)]; [|reflexivity]. destruct (run_drop (ev n) p n_s ss s2) as [(u', s3)|(e, s3)]; [|reflexivity]. reflexivity.
Qed.
(** ** Blocks *)
Definition dmeans (s : fstmt) (b : fblock) (c : sem) : Prop :=
  forall p h o, fbrun (FCons s b) p h = Some o -> exists N, forall n st, (N <= n)%nat -> at_store p h st -> (fr_base (getf p st) <= length (e_stk st))%nat ->
    sgave p (match b with FNil => e_stk st | _ => cut_to (fr_base (getf p st)) (e_stk st) end) st o (c (ev n) n p st).
Lemma doc_means : forall s b c rc, smeans s c -> rmeans b rc -> dmeans s b (c >> rc).
Proof.
  intros s b c rc Hs Hr p h o E. rewrite brun_cons in E. unfold seq. destruct (frun s p h) as [(g1, r)|] eqn:E1; [|discriminate E].
  destruct (Hs p h _ E1) as (N1 & M1). assert (D : (exists v, r = Gives v) \/ stops r) by (destruct r; [left; eauto|right; exact Logic.I|right; exact Logic.I]). destruct D as [(v & ->)|D]; cbn [fthen] in E.
  - destruct (Hr p g1 v o E) as (N2 & M2). exists (N1 + N2)%nat. intros n st Hn V HB. destruct (M1 n st ltac:(lia) V) as (s1 & X1 & Pv & K1 & V1 & S1). unfold bind. rewrite X1. apply (sgave_from false _ _ st s1 _ _ S1).
    destruct S1 as (S1 & _). destruct (S1 p ltac:(apply V)) as (_ & _ & B1). rewrite <- B1. apply M2; [lia|exact V1|exact Pv|exact K1|rewrite B1; exact HB].
  - assert (o = (g1, r)) as -> by (destruct r; [destruct D| |]; injection E as <-; reflexivity). exists N1. intros n st Hn V HB. apply (sgave_stop _ _ _ _ g1 r _ _ (fun r => r) D); [|reflexivity]. specialize (M1 n st Hn V).
    destruct b; [exact M1|]. destruct (cut_app (fr_base (getf p st)) (e_stk st)) as (l & El). rewrite El in M1 at 1. apply (sgave_lower _ _ l); assumption.
Qed.
Lemma rest_means : forall ts s b c, dmeans s b c -> rmeans (FCons s b) ((fun _ _ p => blame ts (Clear p)) >> c).
Proof.
  intros ts s b c Hd p h v o E. destruct (Hd p h o E) as (N & M). exists N. intros n st stk Hn V _ K HB. unfold seq, bind, blame, Clear, gets, SetFrame. unfold bind at 1.
  assert (X : (fr_base (getf p st) <=? length (e_stk st))%nat = true) by (apply Nat.leb_le; rewrite K; cbn; lia). rewrite X. clear X.
  change (skipn (length (e_stk st) - fr_base (getf p st)) (e_stk st)) with (cut_to (fr_base (getf p st)) (e_stk st)). rewrite K, cut_cons by exact HB.
  set (s1 := set_stk (cut_to (fr_base (getf p st)) stk) st). eapply sgave_from; [apply (like_stk st (cut_to (fr_base (getf p st)) stk))|]. fold s1.
  assert (L1 : length (e_stk s1) = fr_base (getf p s1)) by (apply (cut_length (fr_base (getf p st)) stk HB)).
  specialize (M n s1 Hn (store_stk _ _ _ _ V) ltac:(lia)). change (cut_to (fr_base (getf p st)) stk) with (e_stk s1). destruct b; [exact M|]. rewrite <- L1, cut_self in M. exact M.
Qed.
Lemma rmeans_alike : forall b c c', alike c c' -> rmeans b c' -> rmeans b c.
Proof. intros b c c' A H p h v o E. destruct (H p h v o E) as (N & M). exists N. intros n s stk Hn V Pv K HB. rewrite A. apply M; assumption. Qed.
Lemma nop_means : rmeans FNil nop.
Proof. intros p h v o [= <-]. exists 0%nat. intros n s stk _ V Pv K _. exists s. split; [reflexivity|]. split; [exact Pv|]. split; [exact K|]. split; [exact V|apply like_refl]. Qed.
Lemma nil_gave : forall p h s, at_store p h s -> sgave p (e_stk s) s (h, Gives VNil) (push VNil s).
Proof. intros p h s V. exists (pushed VNil s). split; [reflexivity|]. split; [intros ? ?; discriminate|]. split; [reflexivity|]. split; [apply store_stk; exact V|apply like_stk]. Qed.
Lemma nil_means : smeans FNone (puts VNil).
Proof. intros p h o [= <-]. exists 0%nat. intros n s _ V. apply nil_gave. exact V. Qed.

(** what the tokens of a block mean *)
Definition block_means (b : fblock) (ts : list token) : Prop := match b with FNil => ts = [] | FCons s b' => ts <> [] /\ exists c, doc_is L ts c /\ dmeans s b' c end.
Lemma block_code : forall s b ts c, doc_is L ts c -> dmeans s b c -> forall p h o, fbrun (FCons s b) p h = Some o ->
  exists N, forall n st, (N <= n)%nat -> at_store p h st -> sgave p (e_stk st) st o (evalCode (ev n) p n_docr (VCode ts) st).
Proof.
  intros s b ts c Hd M p h o E. destruct (code_gave n_docr ts c (or_intror (or_introl (conj eq_refl Hd)))) as (N' & G). destruct (M p h o E) as (N & H).
  exists (S (N + N')). intros n st Hn V. apply (G N p h); [|exact Hn|exact V]. intros n1 s1 Hn1 V1 HB. specialize (H n1 s1 Hn1 V1 ltac:(lia)). destruct b; [exact H|]. rewrite HB, cut_self in H. exact H.
Qed.
Lemma block_body : forall b ts, block_means b ts -> (exists c, opt_doc L ts c) /\ bodymeans b ts /\ drop_means (fbrun b) n_docr ts.
Proof.
  intros [|s b] ts H.
  - cbn in H. subst ts. split; [exists nop; constructor|]. split; [|apply no_drop; reflexivity]. intros p h o [= <-]. exists 0%nat. intros n s _ V. apply nil_gave. exact V.
  - destruct H as (Ht & c & Hd & M). split; [exists c; apply OD_some; exact Hd|]. split; [|apply drops; [intros p h o; apply (block_code s b ts c Hd M)|exact Ht]].
    intros p h o E. destruct (block_code s b ts c Hd M p h o E) as (N & G). exists N. intros n st Hn V. destruct ts; [contradiction|]. apply G; assumption.
Qed.

(** ** Loops and their headers *)
Definition header_means (i : fstmt) (c : option fx) (st : fstmt) (header : list (list token)) : Prop :=
  exists is cs ss, drop_means (frun i) n_s is /\ fmeans c cs /\ drop_means (frun st) n_s ss /\
    forall n p b, for_stmt (ev n) n p header b = (run_drop (ev n) p n_s is ;;; rounds (ev n) n p cs b ss ;;; push VNil).
Lemma for_means : forall i c st header b bs ts, header_means i c st header -> drop_means (fbrun b) n_docr bs -> smeans (FFor i c st b) (fun ev0 k p => blame ts (for_stmt ev0 k p header bs)).
Proof.
  intros i c st header b bs ts (is & cs & ss & Hi & Hc & Hs & Hf) Hb p h o E. change (fthen (frun i p h) (fun h1 _ => floop k (xoval c p) (fbrun b p) (frun st p) h1) = Some o) in E.
  destruct (frun i p h) as [(g1, [v|q|v])|] eqn:E1; cbn [fthen] in E; [| | |discriminate E].
  - destruct (Hi p h _ E1) as (N1 & M1). destruct (rounds_gave c cs (fbrun b) bs (frun st) ss Hc Hb Hs p k g1 o E) as (N2 & M2). exists (N1 + N2)%nat. intros n s Hn V. apply (sgave_blame _ true). rewrite Hf.
    apply M1; [lia|exact V|]. intros s1 K1 V1 _. rewrite <- K1. apply M2; [lia|lia|exact V1].
  - injection E as <-. destruct (Hi p h _ E1) as (N1 & M1). exists N1. intros n s Hn V. apply (sgave_blame _ true). rewrite Hf. apply M1; [exact Hn|exact V|reflexivity].
  - injection E as <-. destruct (Hi p h _ E1) as (N1 & M1). exists N1. intros n s Hn V. apply (sgave_blame _ true). rewrite Hf. apply M1; [exact Hn|exact V|reflexivity].
Qed.
Lemma skip_means : forall rule, drop_means (frun FNone) rule [].
Proof. intro rule. apply no_drop. reflexivity. Qed.

(** ** Texts *)
Lemma cond_means : forall e ts, xwritten L 5 e ts -> ts <> [] /\ hd_error (map tkind ts) <> Some LBRACE /\ (exists c, expr_is L ts c) /\ cmeans n_expr e ts /\ (exists c, stmt_is L ts c) /\ plain_start ts /\ cmeans n_s e ts.
Proof.
  intros e ts H. destruct (proj1 (proj2 xwritten_start) _ _ _ H) as (A & B). destruct (expr_means e ts H) as (c & C & M). split; [exact A|]. split; [apply B|]. split; [exists c; exact C|].
  split; [apply (cmeans_of n_expr e ts c (or_introl (conj eq_refl C)) M)|]. split; [exists c; apply S_expr; exact C|]. split; [exact B|]. apply (cmeans_of n_s e ts c); [|exact M].
  right. right. left. split; [reflexivity|]. apply S_expr. exact C.
Qed.
Definition stmt_means (st : fstmt) (ts : list token) : Prop := ts <> [] /\ hd_error (map tkind ts) <> Some LBRACE /\ exists c, stmt_is L ts c /\ smeans st c.
Lemma stmt_code : forall st ts, stmt_means st ts -> drop_means (frun st) n_s ts.
Proof.
  intros st ts (Ht & _ & c & Hc & M). apply drops; [|exact Ht]. intros p h o E. destruct (M p h o E) as (N & H).
  destruct (code_gave n_s ts c) as (N' & G); [right; right; left; split; [reflexivity|exact Hc]|]. exists (S (N + N')). intros n s Hn V. apply (G N p h); [|exact Hn|exact V]. intros n1 s1 Hn1 V1 _. apply H; assumption.
Qed.
Lemma factor_means : forall st ts c, ts <> [] -> hd_error (map tkind ts) <> Some LBRACE -> factor_is L ts c -> smeans st c -> stmt_means st ts.
Proof.
  intros st ts c A B F M. split; [exact A|]. split; [exact B|]. destruct (factor_stmt L ts c F) as (c' & X & Y). exists c'. split; [apply S_expr; exact X|]. apply (smeans_alike st c' c Y M).
Qed.

(** return *)
Lemma return_run : forall ev0 p par o (s : St), parent p s = Some par -> (p < nframes s)%nat ->
  Return ev0 p (pushed_all (match o with Some v => [v; VInt 1] | None => [VInt 0] end) s) = inr (p_return, updf p (set_ret (match o with Some v => v | None => VNil end)) s).
Proof.
  intros ev0 p par o s P Hk.
  assert (G : forall v j, getf j (updf p (set_ret v) s) = if (j =? p)%nat then set_ret v (getf p s) else getf j s).
  { intros v j. rewrite getf_updf. destruct (Nat.ltb_spec p (nframes s)); [|lia]. rewrite Bool.andb_true_r. reflexivity. }
  unfold parent in P. unfold Return. destruct o as [v|]; unfold pushed_all; cbn [rev app].
  + rewrite (bind_inl _ _ _ _ _ _ _ (popArity_set _ _ _)). cbn [Z.eqb]. rewrite (bind_inl _ _ _ _ _ tt (updf p (set_ret v) s)).
    * unfold bind at 1, gets at 1. rewrite G, Nat.eqb_refl. cbn [fr_parent set_ret]. rewrite P. reflexivity.
    * rewrite (bind_inl _ _ _ _ _ _ _ (pop_set _ _ _)), set_same. reflexivity.
  + rewrite (bind_inl _ _ _ _ _ _ _ (popArity_set _ _ _)), set_same. cbn [Z.eqb]. rewrite (bind_inl _ _ _ _ _ tt (updf p (set_ret VNil) s)) by reflexivity.
    unfold bind at 1, gets at 1. rewrite G, Nat.eqb_refl. cbn [fr_parent set_ret]. rewrite P. reflexivity.
Qed.
Lemma ret_gave : forall ts ev0 p par h o s, at_store p h s -> up h p = Some par -> match o with Some v => plain v | None => True end ->
  sgave p (e_stk s) s (h, Returns (match o with Some v => v | None => VNil end)) (blame ts (Return ev0 p) (pushed_all (match o with Some v => [v; VInt 1] | None => [VInt 0] end) s)).
Proof.
  intros ts ev0 p par h o s V0 U Pv. pose proof V0 as (_ & F & _ & P & _). unfold blame. rewrite (return_run ev0 p par o s) by (rewrite ?P; assumption). set (v := match o with Some v => v | None => VNil end).
  assert (G : forall j, getf j (updf p (set_ret v) s) = if (j =? p)%nat then set_ret v (getf p s) else getf j s).
  { intro j. rewrite getf_updf. destruct (Nat.ltb_spec p (nframes s)); [|lia]. rewrite Bool.andb_true_r. reflexivity. }
  assert (Gv : forall j, fr_vars (getf j (updf p (set_ret v) s)) = fr_vars (getf j s)) by (intro j; rewrite G; destruct (Nat.eqb_spec j p) as [->|]; reflexivity).
  assert (Gp : forall j, parent j (updf p (set_ret v) s) = parent j s) by (intro j; unfold parent; rewrite G; destruct (Nat.eqb_spec j p) as [->|]; reflexivity).
  exists (updf p (set_ret v) s). split; [reflexivity|]. split; [split; [destruct o; [exact Pv|intros ? ?; discriminate]|cbn [fst]; rewrite U; discriminate]|]. split; [rewrite G, Nat.eqb_refl; reflexivity|]. split; [exists []; reflexivity|]. cbn [fst]. split.
  - apply (store_like p p h s); [intro j; rewrite G; destruct (Nat.eqb_spec j p) as [->|]; split; [|split| |split]; reflexivity|exact Gp|apply nframes_updf|split; reflexivity|exact F|exact V0].
  - split; [|split; [rewrite nframes_updf; lia|repeat split]]. intros i _. rewrite G. destruct (Nat.eqb_spec i p) as [->|X]; [|repeat split; auto]. split; [reflexivity|]. split; [intros [Y|Y]; [discriminate Y|contradiction]|left; reflexivity].
Qed.
Lemma return_means : forall e ts, xowritten L e ts -> exists n c, opt_value L ts n c /\ smeans (FReturn e) (c >> count n >> (fun ev _ p => blame ts (Return ev p))).
Proof.
  intros e ts H. destruct H as [|e ts H].
  - exists 0%nat, nop. split; [constructor|]. intros p h o E. cbn [QFun.frun fthen] in E. destruct (up h p) as [par|] eqn:U; [|discriminate E]. injection E as <-. exists 0%nat. intros n s _ V.
    exact (ret_gave [] (ev n) p par h None s V U Logic.I).
  - destruct (expr_means e ts H) as (c & C & M). exists 1%nat, c. split; [apply OV_some; exact C|]. intros p h o E. cbn [QFun.frun] in E.
    apply (seq_gave0 false (xval e p h) (fun h1 v => match up h1 p with None => None | Some _ => Some (h1, Returns v) end) p h o (fun n => c (ev n) n p) (fun n => (count 1 >> (fun ev _ p => blame ts (Return ev p))) (ev n) n p) E (M p h)).
    intros h1 v E1. destruct (up h1 p) as [par|] eqn:U; [|discriminate E1]. injection E1 as <-.
    exists 0%nat. intros n s stk _ V Pv K. pose proof (ret_gave ts (ev n) p par h1 (Some v) (set_stk stk s) (store_stk p h1 s stk V) U Pv) as R. unfold pushed_all in R. cbn [rev app e_stk set_stk] in R.
    apply (sgave_from _ _ _ s (set_stk stk s)); [apply like_stk|]. unfold seq, bind, count, puts, push, modify. rewrite K. exact R.
Qed.
Lemma deferred_facts : forall p l h, (p < length (st_scopes h))%nat ->
  length (st_scopes (set_deferred p l h)) = length (st_scopes h) /\ (forall i, up (set_deferred p l h) i = up h i) /\ (st_made (set_deferred p l h) = st_made h /\ st_caught (set_deferred p l h) = st_caught h) /\
  (forall i n, own (set_deferred p l h) i n = own h i n) /\ (forall i n, knows (set_deferred p l h) i n = knows h i n) /\
  forall i, deferred (set_deferred p l h) i = (if (i =? p)%nat then l else deferred h i) /\ pending (set_deferred p l h) i = pending h i.
Proof.
  intros p l h Hp. unfold knows. destruct (nth_error (st_scopes h) p) as [c|] eqn:E; [|apply nth_error_None in E; lia].
  pose proof (set_at p (mkScope (sc_own c) (sc_up c) (sc_read c) l (sc_pending c)) c (st_scopes h) E) as X.
  split; [unfold set_deferred; rewrite E; apply set_nth_length|]. split; [intro i; unfold set_deferred, up; rewrite E; cbn [st_scopes]; rewrite X; destruct (Nat.eqb_spec i p) as [->|]; [rewrite E|]; reflexivity|].
  split; [unfold set_deferred; rewrite E; split; reflexivity|]. unfold set_deferred, own, has_read, deferred, pending. rewrite E. cbn [st_scopes].
  split; [|split]; [intros i n|intros i n|intro i]; rewrite X; destruct (Nat.eqb_spec i p) as [->|]; try rewrite E; try split; reflexivity.
Qed.
(** the deferred expressions of [q] change, and nothing else does that counts *)
Lemma store_deferred : forall p p' q l h (s s' : St), (q < length (st_scopes h))%nat -> (up h q = None -> l = []) ->
  (forall i, fr_vars (getf i s') = fr_vars (getf i s) /\ fr_defers (getf i s') = (if (i =? q)%nat then map VCode l else fr_defers (getf i s)) /\ fr_recov (getf i s') = fr_recov (getf i s)) -> (forall i, parent i s' = parent i s) ->
  nframes s' = nframes s -> r_ids (e_rest s') = r_ids (e_rest s) /\ r_excs (e_rest s') = r_excs (e_rest s) -> (p' < nframes s)%nat -> at_store p h s -> at_store p' (set_deferred q l h) s'.
Proof.
  intros p p' q l h s s' Hq Hl Hv0 Hp Hn (Hi & Hi') F (C & _ & N & P & V & ((I & I0) & I1 & I2) & T). pose proof (fun i => proj1 (Hv0 i)) as Hv. destruct (deferred_facts q l h Hq) as (Q1 & Q2 & Q3 & Q4 & Q5 & Q6).
  split; [apply (coherent_like s); assumption|]. rewrite Hn, Q1. split; [exact F|]. split; [exact N|]. split; [intro i; rewrite Hp, Q2; apply P|].
  split; [intros i n v; rewrite Q4, <- V; unfold defines, var_of; rewrite Hv; reflexivity|]. split; [|intros i n; rewrite (entry_like s s' Hv), Q5; apply T].
  destruct Q3 as (Q3 & Q3'). split; [rewrite Q3, Q3', Hi, Hi'; auto|]. split; intro i; destruct (Q6 i) as (-> & Q7); [destruct (Hv0 i) as (_ & -> & ->); rewrite Q7; split; [|apply I1]|rewrite Q2]; destruct (Nat.eqb_spec i q) as [->|]; try reflexivity; [apply I1|exact Hl|apply I2].
Qed.
Lemma defer_means : forall ts, smeans (FDefer ts) (puts (VCode ts) >> (fun _ _ p => blame ts (Defer p))).
Proof.
  intros ts p h o E. cbn [QFun.frun] in E. destruct (up h p) as [par|] eqn:U; [|discriminate E]. injection E as <-. exists 0%nat. intros n s _ V. pose proof V as (_ & F & N & _ & _ & (_ & De & _) & _).
  apply (sgave_blame ts true p (e_stk s) s _ (puts (VCode ts) (ev n) n p ;;; Defer p)).
  set (s1 := updf p (fun f => set_defers (VCode ts :: fr_defers f) f) s).
  assert (G : forall j, getf j s1 = if (j =? p)%nat then set_defers (VCode ts :: fr_defers (getf p s)) (getf p s) else getf j s).
  { intro j. unfold s1. rewrite getf_updf. destruct (Nat.ltb_spec p (nframes s)); [|lia]. rewrite Bool.andb_true_r. reflexivity. }
  exists (set_stk (VNil :: e_stk s) s1). split; [destruct s; reflexivity|]. split; [intros ? ?; discriminate|]. split; [reflexivity|]. cbn [fst]. split.
  - apply store_stk. apply (store_deferred p p p _ h s s1); [lia|congruence| | |unfold s1; apply nframes_updf|split; reflexivity|exact F|exact V].
    + intro i. rewrite G. destruct (Nat.eqb_spec i p) as [->|]; [|split; [|split]; reflexivity]. split; [reflexivity|]. split; [cbn; rewrite (proj1 (De p)); reflexivity|reflexivity].
    + intro i. unfold parent. rewrite G. destruct (Nat.eqb_spec i p) as [->|]; reflexivity.
  - split; [|split; [change (nframes (set_stk (VNil :: e_stk s) s1)) with (nframes s1); unfold s1; rewrite nframes_updf; lia|repeat split]]. intros i _. change (getf i (set_stk (VNil :: e_stk s) s1)) with (getf i s1). rewrite G. destruct (Nat.eqb_spec i p) as [->|]; repeat split.
Qed.
Theorem texts_mean :
  (forall st ts, fwritten L st ts -> stmt_means st ts) /\ (forall b ts, fbwritten L b ts -> block_means b ts) /\
  (forall b ts, frwritten L b ts -> exists c, rest_is L ts c /\ rmeans b c) /\
  (forall br ts, felwritten L br ts -> exists l, elifs_are L ts l /\ brmeans br l) /\
  (forall b ts, fewritten L b ts -> exists bs, else_is L ts bs /\ bodymeans b bs) /\
  (forall br ts, fcwritten L br ts -> exists l, cases_are L ts l /\ brmeans br l) /\
  (forall b ts, fdwritten L b ts -> exists bs, default_is L ts bs /\ bodymeans b bs) /\
  (forall i c st ts, fhwritten L i c st ts -> exists header, header_is L ts header /\ header_means i c st header).
Proof.
  assert (OW : forall e ts, xowritten L e ts -> (exists c, opt_expr L ts c) /\ hd_error (map tkind ts) <> Some LBRACE /\ omeans e ts).
  { intros e ts H. destruct H as [|e ts H]; [split; [exists nop; constructor|]; split; [discriminate|reflexivity]|].
    destruct (cond_means e ts H) as (A & B & (c & C) & M & _). split; [exists c; apply OE_some; exact C|]. split; [exact B|]. split; [exact A|exact M]. }
  apply (fwritten_all W L (fun st ts => stmt_means st ts) (fun b ts => block_means b ts) (fun b ts => exists c, rest_is L ts c /\ rmeans b c)
    (fun br ts => exists l, elifs_are L ts l /\ brmeans br l) (fun b ts => exists bs, else_is L ts bs /\ bodymeans b bs)
    (fun br ts => exists l, cases_are L ts l /\ brmeans br l) (fun b ts => exists bs, default_is L ts bs /\ bodymeans b bs)
    (fun i c st ts => exists header, header_is L ts header /\ header_means i c st header)).
  (* statements *)
  - intros e ts H. destruct (proj1 (proj2 xwritten_start) _ _ _ H) as (A & B). split; [exact A|]. split; [apply B|]. destruct (expr_means e ts H) as (c & C & M). exists c. split; [apply S_expr; exact C|exact M].
  - intros t t1 e ts K N K1 H. split; [discriminate|]. split; [cbn; rewrite K; discriminate|]. destruct (expr_means e ts H) as (c & C & M).
    eexists. split; [apply S_assign; eassumption|]. eapply set_means; eassumption.
  - intros t t1 ns names t2 e ts K K1 Hn Nn K2 H. split; [discriminate|]. split; [cbn; rewrite K; discriminate|]. destruct (expr_means e ts H) as (c & C & M).
    eexists. split; [eapply S_massign; eassumption|]. apply sets_means; assumption.
  - intros t t1 f K K1. split; [discriminate|]. split; [cbn; rewrite K; discriminate|]. eexists. split; [apply S_incdec; eassumption|]. eapply inc_means; eassumption.
  - intros t t1 f e ts K K1 H. split; [discriminate|]. split; [cbn; rewrite K; discriminate|]. destruct (expr_means e ts H) as (c & C & M).
    eexists. split; [eapply S_opassign; eassumption|]. eapply op_means; eassumption.
  - intros t c cs t1 b bs t2 br brs els es K Hc K1 Hb IHb K2 Hbr IHbr He IHe. destruct (cond_means c cs Hc) as (_ & _ & (cc & X) & Mc & _). destruct (block_body b bs IHb) as ((bc & Ob) & Mb & _).
    destruct IHbr as (l & El & Ml). destruct IHe as (ec & Ee & Me).
    apply (factor_means _ _ (fun ev0 _ p => blame es (if_chain ev0 p ((cs, bs) :: l) ec))); [discriminate|cbn; rewrite K; discriminate| |].
    + eapply F_if; [exact K|exact X|apply BD; eassumption|exact El|exact Ee].
    + intros p h o E. destruct (if_means (GCons c b br) ((cs, bs) :: l) ec els (conj Mc (conj Mb Ml)) Me p h o E) as (N & M). exists N. intros n s Hn V. apply (sgave_blame _ true). apply M; assumption.
  - intros t x xs t1 br brs d ds t2 K Hx K1 Hbr IHbr Hd IHd K2. destruct (OW x xs Hx) as ((xc & X) & Xh & Mx). destruct IHbr as (l & El & Ml). destruct IHd as (dc & Ed & Md).
    apply (factor_means _ _ (fun ev0 _ p => blame [t2] (switch_on L ev0 p xs l dc))); [discriminate|cbn; rewrite K; discriminate| |].
    + eapply F_switch; eassumption.
    + intros p h o E. destruct (switch_means x xs br l dc d Mx Ml Md p h o E) as (N & M). exists N. intros n s Hn V. apply (sgave_blame _ true). apply M; assumption.
  - intros t i c st hs t1 b bs t2 K Hh IHh K1 Hb IHb K2. destruct IHh as (header & Eh & Mh). destruct (block_body b bs IHb) as ((bc & Ob) & _ & Mb).
    apply (factor_means _ _ (fun ev0 k p => blame [t2] (for_stmt ev0 k p header bs))); [discriminate|cbn; rewrite K; discriminate| |].
    + eapply F_for; eassumption.
    + apply for_means; assumption.
  - intros t e ts K H. destruct (return_means e ts H) as (n & c & O & M). split; [discriminate|]. split; [cbn; rewrite K; discriminate|]. eexists. split; [apply S_return; eassumption|exact M].
  - intros t e ts K H. split; [discriminate|]. split; [cbn; rewrite K; discriminate|]. destruct (expr_means e ts H) as (c & C & M). eexists. split; [eapply S_defer; eassumption|apply defer_means].
  (* blocks *)
  - reflexivity.
  - intros s ts b r Hs (A & B & c & C & M) Hr (rc & R & Mr). split; [destruct ts; [contradiction|discriminate]|]. exists (seq c rc). split; [apply D; assumption|apply doc_means; assumption].
  - exists nop. split; [constructor|apply nop_means].
  - intros t s ts b r K Hs (A & B & c & C & M) Hr (rc & R & Mr). eexists. split; [apply R_stmt; eassumption|]. eapply rmeans_alike; [apply alike_assoc|]. apply rest_means. apply doc_means; assumption.
  - intros t b r K Hd Hr (rc & R & Mr). eexists. split; [apply R_empty; eassumption|]. eapply rmeans_alike; [apply alike_assoc|]. apply rest_means. apply doc_means; [apply nil_means|exact Mr].
  (* branches *)
  - exists []. split; [constructor|exact Logic.I].
  - intros t c cs t1 b bs t2 br r K Hc K1 Hb IHb K2 Hr (l & El & Ml). destruct (cond_means c cs Hc) as (_ & _ & (cc & X) & Mc & _). destruct (block_body b bs IHb) as ((bc & Ob) & Mb & _).
    exists ((cs, bs) :: l). split; [eapply EL_cons; [exact K|exact X|apply BD; eassumption|exact El]|exact (conj Mc (conj Mb Ml))].
  - exists []. split; [constructor|]. apply (block_body FNil []). reflexivity.
  - intros t t1 b bs t2 K K1 Hb IHb K2. destruct (block_body b bs IHb) as ((bc & Ob) & Mb & _). exists bs. split; [eapply EE_some; [exact K|apply BD; eassumption]|exact Mb].
  - exists []. split; [constructor|exact Logic.I].
  - intros t c cs t1 b bs br r K Hc K1 Hb IHb Hr (l & El & Ml). destruct (cond_means c cs Hc) as (_ & _ & (cc & X) & Mc & _). destruct (block_body b bs IHb) as ((bc & Ob) & Mb & _).
    exists ((cs, bs) :: l). split; [eapply CS_cons; eassumption|exact (conj Mc (conj Mb Ml))].
  - exists []. split; [constructor|]. apply (block_body FNil []). reflexivity.
  - intros t t1 b bs K K1 Hb IHb. destruct (block_body b bs IHb) as ((bc & Ob) & Mb & _). exists bs. split; [eapply DF_some; eassumption|exact Mb].
  (* headers *)
  - exists []. split; [constructor|]. exists [], [], []. split; [apply skip_means|]. split; [reflexivity|]. split; [apply skip_means|]. reflexivity.
  - intros c cs H. destruct (cond_means c cs H) as (A & B & _ & _ & (sc & C) & P & M). exists [cs]. split; [pose proof (H_some L _ _ _ _ C P (MH_nil L)) as X; rewrite app_nil_r in X; exact X|].
    exists [], cs, []. split; [apply skip_means|]. split; [exact (conj A M)|]. split; [apply skip_means|]. reflexivity.
  - intros i is c cs st ss t1 t2 Hi IHi Ri K1 Hc K2 Hs IHs Rs. destruct (cond_means c cs Hc) as (A & B & _ & _ & (sc & C) & P & M). pose proof IHi as (Ai & Pi & ci & Ci & _). pose proof IHs as (As & Ps & cS & CS & _).
    exists [is; cs; ss]. split; [eapply H_some; [exact Ci|exact (conj Pi Ri)|]; eapply MH_cons; [exact K1|exact C|exact P|]; eapply MH_cons; [exact K2|exact CS|exact (conj Ps Rs)|constructor]|].
    exists is, cs, ss. split; [apply stmt_code; exact IHi|]. split; [exact (conj A M)|]. split; [apply stmt_code; exact IHs|]. reflexivity.
Qed.
End FunP.
