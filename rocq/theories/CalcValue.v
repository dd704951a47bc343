(** Running the actions of an expression leaves its value on the stack. *)
From Coq Require Import String.
From Verif Require Import Base Token Utf8 Scanner Tokenize Grammar Matcher PegSpec MatchProofs MatchProofs2 MatchProofs3 MatchProofs4 MatchObs Wf PegTools Compiler CompilerBack Interp Calc CalcSpec CalcProofs.

Section Value.
Variables leaves1 leaves2 muls : list (Z * bytes).
Context {X E U V : Type}.
Variable lit : bytes -> bytes -> option E.
Variable bin : bytes -> E -> E -> option E.
Variable neg : E -> option E.
Variable call : bytes -> list E -> option E.
Variable of_len : Z -> E.
Variable u : uclient bytes Empty_set (pv X) U V.
Variable push : E -> U -> U.
Variable good : U -> Prop.
(** the largest number of arguments *)
Variable N : nat.
Hypothesis good_push : forall v x, good x -> good (push v x).
(** a panic with a *RuntimeError *)
Definition fails_at {Y : Type} (r : Y + (pan bytes Empty_set (pv X) * U)) : Prop := exists e src x, r = inr (PUser (PvRuntime e src), x).
Definition acts (m : bytes) (ts : list token) (l : Z) (x : U) (o : option E) (x0 : U) : Prop :=
  match o with Some v => u_act u m ts l x = inl (push v x0) | None => fails_at (u_act u m ts l x) end.
Fixpoint pushes (vs : list E) (x : U) : U := match vs with [] => x | v :: vs' => pushes vs' (push v x) end.
Hypothesis A_lit : forall k m t l x, In (k, m) (leaves1 ++ leaves2) -> good x -> acts m [t] l x (lit m (tlit t)) x.
Hypothesis A_neg : forall ts l a x, good x -> acts m_neg ts l (push a x) (neg a) x.
Hypothesis A_bin : forall k m ts l a b x, In (k, m) (muls ++ adds) -> good x -> acts m ts l (push b (push a x)) (bin m a b) x.
Hypothesis A_arity : forall ts l x, 0 <= l <= Z.of_nat N -> good x -> u_act u m_ARITY ts l x = inl (push (of_len l) x).
Hypothesis A_call : forall t ts l vs x, (length vs <= N)%nat -> good x ->
  acts m_call (t :: ts) l (push (of_len (Z.of_nat (length vs))) (pushes vs x)) (call (tlit t) vs) x.

Notation tr := (list (@ev bytes Empty_set)).
Definition gives (y : tr) (x : U) (o : option E) (x0 : U) : Prop :=
  match o with Some v => forall vs, run u y vs x = inl (vs, push v x0) | None => forall vs, fails_at (run u y vs x) end.

Lemma run_app : forall (y z : tr) vs x, run u (y ++ z) vs x = match run u y vs x with inl (vs', x') => run u z vs' x' | inr p => inr p end.
Proof.
  induction y as [|e y IH]; intros z vs x; [reflexivity|]. cbn [app run]. destruct e.
  - destruct (u_act u a ts l x); [apply IH|reflexivity].
  - destruct (u_begin u t x). apply IH.
  - destruct vs; apply IH.
Qed.
Lemma gives_acts : forall m ts l x o x0, acts m ts l x o x0 -> gives [EvAct m ts l] x o x0.
Proof.
  intros m ts l x o x0 H. unfold acts, gives in *. destruct o as [v|].
  - intro vs. cbn [run]. rewrite H. reflexivity.
  - intro vs. cbn [run]. destruct H as (e & src & x' & ->). exists e, src, x'. reflexivity.
Qed.
Lemma fails_app : forall (y z : tr) x, (forall vs, fails_at (run u y vs x)) -> forall vs, fails_at (run u (y ++ z) vs x).
Proof. intros y z x H vs. destruct (H vs) as (e & src & x' & E1). exists e, src, x'. rewrite run_app, E1. reflexivity. Qed.
Lemma gives_app : forall y z x v x1 o x0, gives y x (Some v) x1 -> gives z (push v x1) o x0 -> gives (y ++ z) x o x0.
Proof.
  intros y z x v x1 o x0 H1 H2. unfold gives in *. destruct o as [w|]; intro vs.
  - rewrite run_app, H1. apply H2.
  - destruct (H2 vs) as (e & src & x' & E1). exists e, src, x'. rewrite run_app, H1. exact E1.
Qed.

Definition gives_all (y : tr) (x : U) (rs : list (option E)) : Prop :=
  match all_some rs with Some ws => forall vs, run u y vs x = inl (vs, pushes ws x) | None => forall vs, fails_at (run u y vs x) end.
Notation D_factor := (d_factor leaves1 leaves2 muls lit bin neg call).
Notation D_muls := (d_muls leaves1 leaves2 muls lit bin neg call).
Notation D_term := (d_term leaves1 leaves2 muls lit bin neg call).
Notation D_adds := (d_adds leaves1 leaves2 muls lit bin neg call).
Notation D_doc := (d_doc leaves1 leaves2 muls lit bin neg call).
Notation D_more := (d_more leaves1 leaves2 muls lit bin neg call).
Definition Vf ts (r : option E) y (_ : D_factor ts r y) : Prop := (length ts <= N)%nat -> forall x, good x -> gives y x r x.
Definition Vm a ts (r : option E) y (_ : D_muls a ts r y) : Prop := (length ts <= N)%nat ->
  match a with Some v => forall x, good x -> gives y (push v x) r x | None => r = None end.
Definition Vt ts (r : option E) y (_ : D_term ts r y) : Prop := (length ts <= N)%nat -> forall x, good x -> gives y x r x.
Definition Va a ts (r : option E) y (_ : D_adds a ts r y) : Prop := (length ts <= N)%nat ->
  match a with Some v => forall x, good x -> gives y (push v x) r x | None => r = None end.
Definition Vd ts (r : option E) y (_ : D_doc ts r y) : Prop := (1 <= length ts)%nat /\ ((length ts <= N)%nat -> forall x, good x -> gives y x r x).
Definition Vr ts (rs : list (option E)) y (_ : D_more ts rs y) : Prop := (length rs <= length ts)%nat /\ ((length ts <= N)%nat -> forall x, good x -> gives_all y x rs).

Lemma d_pos : (forall ts r y, D_factor ts r y -> (1 <= length ts)%nat) /\ (forall ts r y, D_term ts r y -> (1 <= length ts)%nat) /\ (forall ts r y, D_doc ts r y -> (1 <= length ts)%nat).
Proof.
  assert (F : forall ts r y, D_factor ts r y -> (1 <= length ts)%nat) by (intros ts r y H; destruct H; simpl; lia).
  assert (T : forall ts r y, D_term ts r y -> (1 <= length ts)%nat) by (intros ts r y H; destruct H as [? ? ? ? ? ? H _]; apply F in H; rewrite app_length; lia).
  split; [exact F|]. split; [exact T|]. intros ts r y H; destruct H as [? ? ? ? ? ? H _]; apply T in H; rewrite app_length; lia.
Qed.
Lemma all_some_len : forall (rs : list (option E)) ws, all_some rs = Some ws -> length ws = length rs.
Proof.
  induction rs as [|[a|] rs IH]; intros ws H; cbn [all_some] in H; [injection H as <-; reflexivity| |discriminate].
  destruct (all_some rs) as [xs|]; [|discriminate]. injection H as <-. cbn [length]. rewrite (IH xs eq_refl). reflexivity.
Qed.
(** the arguments, their number, the call *)
Lemma call_gives : forall t ts1 ts l rs y x, (length rs <= N)%nat -> good x -> gives_all y x rs ->
  gives (y ++ [EvAct m_ARITY ts1 (Z.of_nat (length rs)); EvAct m_call (t :: ts) l]) x (callv call (tlit t) rs) x.
Proof.
  intros t ts1 ts l rs y x Hl Hg H. unfold gives_all, callv in *. destruct (all_some rs) as [ws|] eqn:Ew.
  - apply all_some_len in Ew. rewrite <- Ew.
    assert (Hp : forall ws x, good x -> good (pushes ws x)) by (induction ws0 as [|w ws0 IH]; intros x0 Hx; [exact Hx|apply IH; apply good_push; exact Hx]).
    pose proof (A_call t ts l ws x ltac:(lia) Hg) as C. unfold gives, acts in *.
    destruct (call (tlit t) ws) as [v|]; intro vs.
    + rewrite run_app, H. cbn [run]. rewrite A_arity by (try lia; apply Hp; exact Hg). rewrite C. reflexivity.
    + destruct C as (e & src & x' & C). exists e, src, x'. rewrite run_app, H. cbn [run]. rewrite A_arity by (try lia; apply Hp; exact Hg). rewrite C. reflexivity.
  - unfold gives. apply fails_app. exact H.
Qed.

Lemma values : (forall ts r x d, Vf ts r x d) /\ (forall a ts r x d, Vm a ts r x d) /\ (forall ts r x d, Vt ts r x d) /\
  (forall a ts r x d, Va a ts r x d) /\ (forall ts r x d, Vd ts r x d) /\ (forall ts r x d, Vr ts r x d).
Proof.
  assert (Bin : forall m k a b ts (y z : tr) x o, In (k, m) (muls ++ adds) -> good x -> (forall x, good x -> gives y x b x) ->
    match opt2 (bin m) a b with Some v => forall x, good x -> gives z (push v x) o x | None => o = None end ->
    match a with Some v => gives ((y ++ [EvAct m ts (-1)]) ++ z) (push v x) o x | None => o = None end).
  { intros m k a b ts y z x o Hi Hg Hb Hz. destruct a as [va|]; [|exact Hz]. destruct b as [vb|]; cbn [opt2] in Hz.
    - pose proof (gives_app _ _ _ _ _ _ _ (Hb (push va x) (good_push _ _ Hg)) (gives_acts _ ts (-1) _ _ _ (A_bin k m ts (-1) va vb x Hi Hg))) as G.
      destruct (bin m va vb) as [v|].
      + eapply gives_app; [exact G|]. apply Hz. exact Hg.
      + subst o. unfold gives in *. apply fails_app. exact G.
    - subst o. unfold gives. apply fails_app. apply fails_app. apply (Hb (push va x) (good_push _ _ Hg)). }
  apply d_ind6.
  - intros k m t Hi Ht L x Hx. apply gives_acts. apply (A_lit k); assumption.
  - intros t ts a y Ht D0 IH L x Hx. cbn [length] in L. specialize (IH ltac:(lia) x Hx). destruct a as [v|]; cbn [opt1].
    + eapply gives_app; [exact IH|]. apply gives_acts. apply A_neg. exact Hx.
    + unfold gives in *. apply fails_app. exact IH.
  - intros t ts a y Ht D0 IH L x Hx. cbn [length] in L. apply IH; [lia|exact Hx].
  - intros t1 ts t2 a y H1 D0 IH H2 L x Hx. cbn [length] in L. rewrite app_length in L. apply (proj2 IH); [lia|exact Hx].
  - intros t t1 t2 Ht H1 H2 L x Hx. apply (call_gives t [] [t1; t2] 4 [] [] x); [simpl; lia|exact Hx|]. intro vs. reflexivity.
  - intros t t1 ts a y ts' rs z t2 Ht H1 D0 IH D1 IHr H2 L x Hx. cbn [length] in L. rewrite !app_length in L. cbn [length] in L.
    replace (Z.of_nat (length rs) + 1) with (Z.of_nat (length (a :: rs))) by (cbn [length]; lia).
    destruct IH as (L1 & IH). destruct IHr as (L2 & IHr). specialize (IH ltac:(lia)).
    apply call_gives; [cbn [length]; lia|exact Hx|].
    unfold gives_all. cbn [all_some]. destruct a as [va|].
    + specialize (IHr ltac:(lia) (push va x) (good_push _ _ Hx)). unfold gives_all in IHr. specialize (IH x Hx). unfold gives in IH. destruct (all_some rs) as [ws|]; intro vs.
      * rewrite run_app, IH. cbn [pushes]. apply IHr.
      * rewrite run_app, IH. apply IHr.
    + apply fails_app. apply (IH x Hx).
  - intros a L. destruct a as [v|]; [|reflexivity]. intros x Hx vs. reflexivity.
  - intros a t m ts b y ts' r z Hi D0 IH D1 IHm L. cbn [length] in L. rewrite app_length in L. specialize (IH ltac:(lia)). specialize (IHm ltac:(lia)).
    pose proof (fun x Hx => Bin m (tkind t) a b ts y z x r ltac:(apply in_app_iff; left; exact Hi) Hx IH IHm) as G. destruct a as [v|]; [exact G|].
    cbn [opt2] in IHm. exact IHm.
  - intros ts a y ts' r z D0 IH D1 IHm L x Hx. rewrite app_length in L. specialize (IH ltac:(lia) x Hx). specialize (IHm ltac:(lia)). destruct a as [v|].
    + eapply gives_app; [exact IH|]. apply IHm. exact Hx.
    + subst r. unfold gives in *. apply fails_app. exact IH.
  - intros a L. destruct a as [v|]; [|reflexivity]. intros x Hx vs. reflexivity.
  - intros a t m ts b y ts' r z Hi D0 IH D1 IHm L. cbn [length] in L. rewrite app_length in L. specialize (IH ltac:(lia)). specialize (IHm ltac:(lia)).
    pose proof (fun x Hx => Bin m (tkind t) a b ts y z x r ltac:(apply in_app_iff; right; exact Hi) Hx IH IHm) as G. destruct a as [v|]; [exact G|].
    cbn [opt2] in IHm. exact IHm.
  - intros ts a y ts' r z D0 IH D1 IHm. split; [apply (proj2 (proj2 d_pos) _ r (y ++ z)); econstructor; eassumption|]. intros L x Hx. rewrite app_length in L.
    specialize (IH ltac:(lia) x Hx). specialize (IHm ltac:(lia)). destruct a as [v|].
    + eapply gives_app; [exact IH|]. apply IHm. exact Hx.
    + subst r. unfold gives in *. apply fails_app. exact IH.
  - split; [reflexivity|]. intros L x Hx vs. reflexivity.
  - intros t ts a y ts' rs z Ht D0 IH D1 IHr. destruct IH as (L1 & IH). destruct IHr as (L2 & IHr). split; [cbn [length]; rewrite app_length; lia|].
    intros L x Hx. cbn [length] in L. rewrite app_length in L. specialize (IH ltac:(lia) x Hx). unfold gives_all. cbn [all_some]. destruct a as [va|].
    + specialize (IHr ltac:(lia) (push va x) (good_push _ _ Hx)). unfold gives_all in IHr. unfold gives in IH. destruct (all_some rs) as [ws|]; intro vs.
      * rewrite run_app, IH. cbn [pushes]. apply IHr.
      * rewrite run_app, IH. apply IHr.
    + unfold gives in IH. apply fails_app. exact IH.
Qed.
End Value.
