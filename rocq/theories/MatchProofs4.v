(** Laws of the operators, shape of traces, propagation of aborts. *)
From Verif Require Import Base Token Grammar PegSpec MatchProofs MatchProofs2 MatchProofs3 Wf.

(** * What a caller of Match observes. *)
Section Observe.
Context {A T P U V : Type}.
Variable env : bytes -> option (gr A T).
Variable c : client A T P U V.

(** Match returns (n, nil); returns (n, err); panics; each leaving the client's state [x]. *)
Inductive obs : Type :=
| Accept (n : nat) (x : U)
| Reject (n : nat) (e : merr A T) (x : U)
| Abort (p : pan A T P) (x : U).

Definition obs_of (r : res A T P U) : option obs :=
  match r with
  | Ret n None s => Some (Accept n (ust s))
  | Ret n (Some e) s => Some (Reject n e (ust s))
  | Panic p s => Some (Abort p (ust s))
  | OutOfFuel => None
  end.

Definition observes (g : gr A T) (src : list token) (s : st U) (o : obs) : Prop :=
  exists f, obs_of (gmatch env c f g src s) = Some o.

Lemma observes_fuel : forall g src s o f, obs_of (gmatch env c f g src s) = Some o ->
  forall f', (f <= f')%nat -> gmatch env c f' g src s = gmatch env c f g src s.
Proof.
  intros g src s o f H f' Hf. apply (gmatch_mono env c f f' Hf).
  intro E. rewrite E in H. discriminate.
Qed.

Lemma observes_det : forall g src s o o', observes g src s o -> observes g src s o' -> o = o'.
Proof.
  intros g src s o o' [f H] [f' H'].
  pose proof (observes_fuel _ _ _ _ _ H (f + f') ltac:(lia)) as E.
  pose proof (observes_fuel _ _ _ _ _ H' (f + f') ltac:(lia)) as E'.
  rewrite E in E'. rewrite <- E' in H'. congruence.
Qed.

(** Loop with other starting counters. *)
Lemma rep_loop_shift : forall k (m : matcher A T P U) g src cnt n s d e,
  rep_loop k m g src (d + cnt) (e + n) s =
  match rep_loop k m g src cnt n s with
  | LRet c' n' s' => LRet (d + c') (e + n') s'
  | r => r
  end.
Proof.
  induction k as [|k IH]; intros m g src cnt n s d e; [reflexivity|].
  simpl. destruct (m g src s) as [n1 [e1|] s1|q s1|]; try reflexivity.
  rewrite <- IH. f_equal; lia.
Qed.

Lemma rep_loop_k : forall k k' (m m' : matcher A T P U) g src cnt n s, mle m m' -> (k <= k')%nat ->
  rep_loop k m g src cnt n s <> LOutOfFuel ->
  rep_loop k' m' g src cnt n s = rep_loop k m g src cnt n s.
Proof. intros. apply rep_loop_mono; assumption. Qed.

(** +G is G *G *)
Lemma plus_law : forall id id' g, g <> GNil -> forall src s o,
  observes (GRep1 id g) src s o <-> observes (GAnd [g; GRep0 id' g]) src s o.
Proof.
  intros id id' g Hg src s o. split; intros [f H].
  - destruct f as [|f]; [discriminate|].
    exists (S (S f)).
    assert (E : gmatch env c (S (S f)) (GAnd [g; GRep0 id' g]) src s =
      match gmatch env c (S f) g src s with
      | Ret n1 None s1 =>
          match gmatch env c (S f) (GRep0 id' g) (skipn n1 src) s1 with
          | Ret n2 None s2 => Ret (n1 + n2) None s2
          | Ret n2 (Some e) s2 => Ret (n1 + n2) (Some e) s2
          | r => r
          end
      | Ret n1 (Some e) s1 => Ret n1 (Some e) s1
      | r => r
      end).
    { cbn [gmatch gstep]. destruct g; try congruence; reflexivity. }
    rewrite E. clear E. cbn [gmatch gstep] in H.
    assert (Hne : gmatch env c f g src s <> OutOfFuel) by (intro E; rewrite E in H; discriminate).
    rewrite (gmatch_mono env c f (S f) ltac:(lia) g src s Hne).
    destruct (gmatch env c f g src s) as [n1 [e1|] s1|q s1|]; try exact H.
    cbn [gmatch gstep].
    destruct (rep_loop f (gmatch env c f) g (skipn n1 src) 0 0 s1); exact H.
  - destruct f as [|f]; [discriminate|].
    exists (S f).
    assert (E : gmatch env c (S f) (GAnd [g; GRep0 id' g]) src s =
      match gmatch env c f g src s with
      | Ret n1 None s1 =>
          match gmatch env c f (GRep0 id' g) (skipn n1 src) s1 with
          | Ret n2 None s2 => Ret (n1 + n2) None s2
          | Ret n2 (Some e) s2 => Ret (n1 + n2) (Some e) s2
          | r => r
          end
      | Ret n1 (Some e) s1 => Ret n1 (Some e) s1
      | r => r
      end).
    { cbn [gmatch gstep]. destruct g; try congruence; reflexivity. }
    rewrite E in H. clear E. cbn [gmatch gstep].
    destruct (gmatch env c f g src s) as [n1 [e1|] s1|q s1|]; try exact H.
    destruct f as [|f]; [discriminate|]. cbn [gmatch gstep] in H.
    assert (Hne : rep_loop f (gmatch env c f) g (skipn n1 src) 0 0 s1 <> LOutOfFuel)
      by (intro E; rewrite E in H; discriminate).
    rewrite (rep_loop_k f (S f) _ (gmatch env c (S f)) _ _ _ _ _ (gmatch_mono env c f (S f) ltac:(lia))
      ltac:(lia) Hne).
    destruct (rep_loop f (gmatch env c f) g (skipn n1 src) 0 0 s1); exact H.
Qed.

(** G1 % G2 is G1 *(G2 G1) *)
Lemma list_law : forall id id' a b, a <> GNil -> forall src s o,
  observes (GList id a b false) src s o <-> observes (GAnd [a; GRep0 id' (GAnd [b; a])]) src s o.
Proof.
  intros id id' a b Ha src s o.
  assert (E : forall f, gmatch env c (S f) (GAnd [a; GRep0 id' (GAnd [b; a])]) src s =
      match gmatch env c f a src s with
      | Ret n1 None s1 =>
          match gmatch env c f (GRep0 id' (GAnd [b; a])) (skipn n1 src) s1 with
          | Ret n2 None s2 => Ret (n1 + n2) None s2
          | Ret n2 (Some e) s2 => Ret (n1 + n2) (Some e) s2
          | r => r
          end
      | Ret n1 (Some e) s1 => Ret n1 (Some e) s1
      | r => r
      end).
  { intro f. cbn [gmatch gstep]. destruct a; try congruence; reflexivity. }
  assert (E2 : forall k (m : matcher A T P U) n1 s1, rep_loop k m (GAnd [b; a]) (skipn n1 src) 1 n1 s1 =
    match rep_loop k m (GAnd [b; a]) (skipn n1 src) 0 0 s1 with
    | LRet c' n' s' => LRet (1 + c') (n1 + n') s'
    | r => r
    end).
  { intros. rewrite <- rep_loop_shift. f_equal; lia. }
  split; intros [f H].
  - destruct f as [|f]; [discriminate|].
    exists (S (S f)). rewrite E.
    change (gmatch env c (S f) (GList id a b false) src s) with
      (gstep env c f (gmatch env c f) (GList id a b false) src s) in H.
    cbn [gstep] in H.
    assert (Hne : gmatch env c f a src s <> OutOfFuel) by (intro X; rewrite X in H; discriminate).
    rewrite (gmatch_mono env c f (S f) ltac:(lia) a src s Hne).
    destruct (gmatch env c f a src s) as [n1 [e1|] s1|q s1|]; try exact H.
    rewrite E2 in H.
    change (gmatch env c (S f) (GRep0 id' (GAnd [b; a])) (skipn n1 src) s1) with
      (gstep env c f (gmatch env c f) (GRep0 id' (GAnd [b; a])) (skipn n1 src) s1).
    cbn [gstep].
    destruct (rep_loop f (gmatch env c f) (GAnd [b; a]) (skipn n1 src) 0 0 s1); exact H.
  - destruct f as [|f]; [discriminate|].
    exists (S f). rewrite E in H.
    change (gmatch env c (S f) (GList id a b false) src s) with
      (gstep env c f (gmatch env c f) (GList id a b false) src s).
    cbn [gstep].
    destruct (gmatch env c f a src s) as [n1 [e1|] s1|q s1|]; try exact H.
    destruct f as [|f]; [discriminate|].
    change (gmatch env c (S f) (GRep0 id' (GAnd [b; a])) (skipn n1 src) s1) with
      (gstep env c f (gmatch env c f) (GRep0 id' (GAnd [b; a])) (skipn n1 src) s1) in H.
    cbn [gstep] in H.
    assert (Hne : rep_loop f (gmatch env c f) (GAnd [b; a]) (skipn n1 src) 0 0 s1 <> LOutOfFuel)
      by (intro X; rewrite X in H; discriminate).
    rewrite E2.
    rewrite (rep_loop_k f (S f) _ (gmatch env c (S f)) _ _ _ _ _ (gmatch_mono env c f (S f) ltac:(lia))
      ltac:(lia) Hne).
    destruct (rep_loop f (gmatch env c f) (GAnd [b; a]) (skipn n1 src) 0 0 s1); exact H.
Qed.

(** G1 %= G2 is ?(G1 % G2) *)
Lemma list0_law : forall id id1 id2 a b src s o,
  observes (GList id a b true) src s o <-> observes (GRep01 id1 (GList id2 a b false)) src s o.
Proof.
  intros id id1 id2 a b src s o.
  assert (E : forall f,
    obs_of (gmatch env c (S (S f)) (GRep01 id1 (GList id2 a b false)) src s) =
    obs_of (gmatch env c (S f) (GList id a b true) src s)).
  { intro f.
    change (gmatch env c (S (S f)) (GRep01 id1 (GList id2 a b false)) src s) with
      (gstep env c (S f) (gmatch env c (S f)) (GRep01 id1 (GList id2 a b false)) src s).
    cbn [gstep].
    change (gmatch env c (S f) (GList id2 a b false) src s) with
      (gstep env c f (gmatch env c f) (GList id2 a b false) src s).
    change (gmatch env c (S f) (GList id a b true) src s) with
      (gstep env c f (gmatch env c f) (GList id a b true) src s).
    cbn [gstep].
    destruct (gmatch env c f a src s) as [n1 [e1|] s1|q s1|]; try reflexivity.
    destruct (rep_loop f (gmatch env c f) (GAnd [b; a]) (skipn n1 src) 1 n1 s1); reflexivity. }
  split; intros [f H].
  - destruct f as [|f]; [discriminate|]. exists (S (S f)). rewrite E. exact H.
  - destruct f as [|f]; [discriminate|]. destruct f as [|f]; [discriminate|].
    exists (S f). rewrite <- E. exact H.
Qed.

(** ?G: accepts what G accepts, otherwise nothing. *)
Lemma opt_law : forall id g src s n x,
  observes (GRep01 id g) src s (Accept n x) <->
  observes g src s (Accept n x) \/ (n = 0%nat /\ exists m e, observes g src s (Reject m e x)).
Proof.
  intros id g src s n x. split.
  - intros [f H]. destruct f as [|f]; [discriminate|]. simpl in H.
    destruct (gmatch env c f g src s) as [n1 [e1|] s1|q s1|] eqn:E; inversion H; subst.
    + right. split; [reflexivity|]. exists n1, e1, f. rewrite E. reflexivity.
    + left. exists f. rewrite E. reflexivity.
  - intros [[f H]|(-> & m & e & f & H)]; exists (S f); simpl;
      destruct (gmatch env c f g src s) as [n1 [e1|] s1|q s1|]; inversion H; subst; reflexivity.
Qed.

Lemma opt_never_rejects : forall id g src s n e x, ~ observes (GRep01 id g) src s (Reject n e x).
Proof.
  intros id g src s n e x [f H]. destruct f as [|f]; [discriminate|]. simpl in H.
  destruct (gmatch env c f g src s) as [n1 [e1|] s1|q s1|]; discriminate.
Qed.

Lemma peek_law : forall g src s n x,
  observes (GPeek g) src s (Accept n x) <-> n = 0%nat /\ exists m, observes g src s (Accept m x).
Proof.
  intros g src s n x. split.
  - intros [f H]. destruct f as [|f]; [discriminate|]. simpl in H.
    destruct (gmatch env c f g src s) as [n1 [e1|] s1|q s1|] eqn:E; inversion H; subst.
    split; [reflexivity|]. exists n1, f. rewrite E. reflexivity.
  - intros (-> & m & f & H). exists (S f). simpl.
    destruct (gmatch env c f g src s) as [n1 [e1|] s1|q s1|]; inversion H; subst; reflexivity.
Qed.

Lemma peek_reject : forall g src s n x,
  (exists e, observes (GPeek g) src s (Reject n e x)) <->
  n = 0%nat /\ exists m e, observes g src s (Reject m e x).
Proof.
  intros g src s n x. split.
  - intros [e [f H]]. destruct f as [|f]; [discriminate|]. simpl in H.
    destruct (gmatch env c f g src s) as [n1 [e1|] s1|q s1|] eqn:E; inversion H; subst.
    split; [reflexivity|]. exists n1, e1, f. rewrite E. reflexivity.
  - intros (-> & m & e & f & H). exists (MErr (GPeek g) src None 0). exists (S f). simpl.
    destruct (gmatch env c f g src s) as [n1 [e1|] s1|q s1|]; inversion H; subst; reflexivity.
Qed.

Lemma not_law : forall g src s n x,
  observes (GNot g) src s (Accept n x) <-> n = 0%nat /\ exists m e, observes g src s (Reject m e x).
Proof.
  intros g src s n x. split.
  - intros [f H]. destruct f as [|f]; [discriminate|]. simpl in H.
    destruct (gmatch env c f g src s) as [n1 [e1|] s1|q s1|] eqn:E; inversion H; subst.
    split; [reflexivity|]. exists n1, e1, f. rewrite E. reflexivity.
  - intros (-> & m & e & f & H). exists (S f). simpl.
    destruct (gmatch env c f g src s) as [n1 [e1|] s1|q s1|]; inversion H; subst; reflexivity.
Qed.

Lemma not_reject : forall g src s n x,
  (exists e, observes (GNot g) src s (Reject n e x)) <->
  n = 0%nat /\ exists m, observes g src s (Accept m x).
Proof.
  intros g src s n x. split.
  - intros [e [f H]]. destruct f as [|f]; [discriminate|]. simpl in H.
    destruct (gmatch env c f g src s) as [n1 [e1|] s1|q s1|] eqn:E; inversion H; subst.
    split; [reflexivity|]. exists n1, f. rewrite E. reflexivity.
  - intros (-> & m & f & H). exists (MErr (GNot g) src None 0). exists (S f). simpl.
    destruct (gmatch env c f g src s) as [n1 [e1|] s1|q s1|]; inversion H; subst; reflexivity.
Qed.
End Observe.

(** * Shape of traces. *)
Section Traces.
Context {A T : Type}.
Variable env : bytes -> option (gr A T).

(** Properly nested begin/end pairs. *)
Inductive balanced : list (ev (A := A) (T := T)) -> Prop :=
| B_nil : balanced []
| B_act : forall a ts l tr, balanced tr -> balanced (EvAct a ts l :: tr)
| B_trans : forall t ok tr1 tr2, balanced tr1 -> balanced tr2 ->
    balanced (EvBegin t :: tr1 ++ EvEnd t ok :: tr2).

Lemma balanced_app : forall tr1 tr2, balanced tr1 -> balanced tr2 -> balanced (tr1 ++ tr2).
Proof.
  intros tr1 tr2 H1 H2. induction H1; simpl; [exact H2|constructor; exact IHbalanced|].
  rewrite <- app_assoc. simpl. constructor; assumption.
Qed.

Definition not_stop (o : outcome (A := A) (T := T)) : Prop :=
  match o with OStop _ => False | _ => True end.

Lemma peg_balanced :
  (forall g src o tr, peg env g src o tr -> not_stop o -> balanced tr) /\
  (forall p src0 gs ff src o tr, peg_seq env p src0 gs ff src o tr -> not_stop o -> balanced tr) /\
  (forall gs src o tr, peg_alt env gs src o tr -> not_stop o -> balanced tr) /\
  (forall g src o tr, peg_rep env g src o tr -> match o with inl _ => balanced tr | inr _ => True end).
Proof.
  apply peg_ind4; intros; simpl in *; try exact I; try constructor; try tauto;
    try (apply balanced_app; tauto).
  - destruct o; simpl in *; tauto.
  - destruct o; simpl in *; tauto.
  - destruct o; simpl in *; tauto.
  - destruct o; simpl in *; tauto.
  - destruct o; simpl in *; tauto.
  - destruct o; simpl in *; tauto.
  - destruct o; simpl in *; tauto.
  - apply balanced_app; [tauto|]. repeat constructor.
  - destruct o; simpl in *; try tauto; constructor; try tauto; constructor.
  - apply balanced_app; [tauto|]. destruct o; simpl in *; tauto.
Qed.

(** Every action event stems from a success of its rule on exactly the tokens it is given, which are a
    contiguous part of the input. *)
Lemma act_events :
  (forall g src o tr, peg env g src o tr -> forall a ts l, In (EvAct a ts l) tr ->
     exists pre post g' tr', src = pre ++ ts ++ post /\ peg env g' (ts ++ post) (OOk (length ts) l) tr' /\
       peg env (GAct g' a) (ts ++ post) (OOk (length ts) l) (tr' ++ [EvAct a ts l])) /\
  (forall p src0 gs ff src o tr, peg_seq env p src0 gs ff src o tr -> forall a ts l, In (EvAct a ts l) tr ->
     exists pre post g' tr', src = pre ++ ts ++ post /\ peg env g' (ts ++ post) (OOk (length ts) l) tr' /\
       peg env (GAct g' a) (ts ++ post) (OOk (length ts) l) (tr' ++ [EvAct a ts l])) /\
  (forall gs src o tr, peg_alt env gs src o tr -> forall a ts l, In (EvAct a ts l) tr ->
     exists pre post g' tr', src = pre ++ ts ++ post /\ peg env g' (ts ++ post) (OOk (length ts) l) tr' /\
       peg env (GAct g' a) (ts ++ post) (OOk (length ts) l) (tr' ++ [EvAct a ts l])) /\
  (forall g src o tr, peg_rep env g src o tr -> forall a ts l, In (EvAct a ts l) tr ->
     exists pre post g' tr', src = pre ++ ts ++ post /\ peg env g' (ts ++ post) (OOk (length ts) l) tr' /\
       peg env (GAct g' a) (ts ++ post) (OOk (length ts) l) (tr' ++ [EvAct a ts l])).
Proof.
  assert (Hsk : forall (src : list token) n a ts l,
    (exists pre post g' tr', skipn n src = pre ++ ts ++ post /\ peg env g' (ts ++ post) (OOk (length ts) l) tr' /\
       peg env (GAct g' a) (ts ++ post) (OOk (length ts) l) (tr' ++ [EvAct a ts l])) ->
    (exists pre post g' tr', src = pre ++ ts ++ post /\ peg env g' (ts ++ post) (OOk (length ts) l) tr' /\
       peg env (GAct g' a) (ts ++ post) (OOk (length ts) l) (tr' ++ [EvAct a ts l]))).
  { intros src n a ts l (pre & post & g' & tr' & E & H1 & H2).
    exists (firstn n src ++ pre), post, g', tr'. split; [|auto].
    rewrite <- app_assoc, <- E, firstn_skipn. reflexivity. }
  apply peg_ind4; intros; simpl in *; try contradiction;
    try (match goal with H : In _ (_ ++ _) |- _ => apply in_app_or in H; destruct H as [H|H] end);
    eauto; try solve [eapply Hsk; eauto].
  - (* Act *)
    simpl in *. match goal with HI : EvAct _ _ _ = EvAct _ _ _ \/ False |- _ =>
      destruct HI as [HI|[]]; inversion HI; subst end.
    match goal with HP : peg env g src (OOk n _) tr |- _ =>
      pose proof (proj1 (peg_bound env) _ _ _ _ HP _ _ eq_refl) as Hb;
      exists [], (skipn n src), g, tr;
      rewrite firstn_skipn, firstn_length, Nat.min_l by exact Hb;
      split; [reflexivity|]; split; [exact HP|]; apply P_Act; exact HP end.
  - (* Trans *)
    match goal with HI : EvBegin _ = _ \/ _ |- _ => destruct HI as [HI|HI]; [discriminate|] end.
    match goal with H : In _ (_ ++ _) |- _ => apply in_app_or in H; destruct H as [H|H] end; eauto.
    destruct o; simpl in *; try contradiction;
      match goal with HI : _ \/ False |- _ => destruct HI as [HI|[]]; discriminate end.
Qed.
End Traces.

(** * Fail-fast aborts pass through every enclosing rule. *)
Section FailFast.
Context {A T : Type}.
Variable env : bytes -> option (gr A T).

(** [reaches g src g' src']: matching [g] at [src] comes to match [g'] at [src']. *)
Inductive reaches : gr A T -> list token -> gr A T -> list token -> Prop :=
| RC_refl : forall g src, reaches g src g src
| RC_peek : forall g src g' src', reaches g src g' src' -> reaches (GPeek g) src g' src'
| RC_not : forall g src g' src', reaches g src g' src' -> reaches (GNot g) src g' src'
| RC_and : forall pre g post src n l tr g' src',
    g <> GNil -> peg env (GAnd pre) src (OOk n l) tr -> reaches g (skipn n src) g' src' ->
    reaches (GAnd (pre ++ g :: post)) src g' src'
| RC_or : forall pre g post src tr g' src',
    peg env (GOr pre) src OFail tr -> reaches g src g' src' ->
    reaches (GOr (pre ++ g :: post)) src g' src'
| RC_rep0_first : forall id g src g' src', reaches g src g' src' -> reaches (GRep0 id g) src g' src'
| RC_rep0_next : forall id g src n l tr g' src',
    peg env g src (OOk n l) tr -> reaches (GRep0 id g) (skipn n src) g' src' ->
    reaches (GRep0 id g) src g' src'
| RC_rep1_first : forall id g src g' src', reaches g src g' src' -> reaches (GRep1 id g) src g' src'
| RC_rep1_next : forall id id' g src n l tr g' src',
    peg env g src (OOk n l) tr -> reaches (GRep0 id' g) (skipn n src) g' src' ->
    reaches (GRep1 id g) src g' src'
| RC_rep01 : forall id g src g' src', reaches g src g' src' -> reaches (GRep01 id g) src g' src'
| RC_list_first : forall id a b l0 src g' src', reaches a src g' src' -> reaches (GList id a b l0) src g' src'
| RC_list_next : forall id id' a b l0 src n l tr g' src',
    peg env a src (OOk n l) tr -> reaches (GRep0 id' (GAnd [b; a])) (skipn n src) g' src' ->
    reaches (GList id a b l0) src g' src'
| RC_var : forall v g src g' src', env v = Some g -> reaches g src g' src' -> reaches (GVar v) src g' src'
| RC_named : forall v g src g' src', reaches g src g' src' -> reaches (GNamed v g) src g' src'
| RC_act : forall g a src g' src', reaches g src g' src' -> reaches (GAct g a) src g' src'
| RC_trans : forall g t src g' src', reaches g src g' src' -> reaches (GTrans g t) src g' src'.

Lemma seq_app_stop : forall p src0 pre g post ff src n l tr1,
  peg_seq env p src0 pre ff src (OOk n l) tr1 ->
  g <> GNil -> forall k tr2, peg env g (skipn n src) (OStop k) tr2 ->
  exists tr, peg_seq env p src0 (pre ++ g :: post) ff src (OStop k) tr.
Proof.
  intros p src0 pre g post. induction pre as [|x pre IH]; intros ff src n l tr1 H Hg k tr2 H2.
  - inversion H; subst. simpl. eexists. eapply S_stop; eauto.
  - inversion H; subst.
    + match goal with HS : peg_seq env p src0 pre true _ _ _ |- _ =>
        destruct (IH _ _ _ _ _ HS Hg _ _ H2) as [tr Ht] end.
      eexists. simpl. apply S_bang; eauto.
    + destruct o as [m l'| |k']; simpl in *; try discriminate.
      match goal with HE : OOk _ _ = OOk _ _ |- _ => inversion HE; subst end.
      rewrite <- skipn_skipn' in H2.
      match goal with HS : peg_seq env p src0 pre ff _ _ _ |- _ =>
        destruct (IH _ _ _ _ _ HS Hg _ _ H2) as [tr Ht] end.
      eexists. change (OStop k) with (shift n0 (OStop (A := A) (T := T) k)). eapply S_ok; eauto.
Qed.

Lemma seq_whole : forall p src0 p' src0' gs ff src o tr,
  peg_seq env p src0 gs ff src o tr -> not_stop o -> peg_seq env p' src0' gs ff src o tr.
Proof.
  intros p src0 p' src0' gs ff src o tr H. induction H; intro Hn; simpl in *.
  - apply S_nil.
  - apply S_bang; auto.
  - eapply S_ok; eauto. apply IHpeg_seq. destruct o; simpl in *; tauto.
  - eapply S_fail; eauto.
  - contradiction.
  - contradiction.
Qed.

Lemma stop_reaches : forall g src g' src', reaches g src g' src' ->
  forall k tr', peg env g' src' (OStop k) tr' -> exists tr, peg env g src (OStop k) tr.
Proof.
  intros g src g' src' H. induction H; intros k tr' Hk; eauto.
  - destruct (IHreaches _ _ Hk) as [tr Ht]. eexists. apply (P_Peek env g src (OStop k)); eauto.
  - destruct (IHreaches _ _ Hk) as [tr Ht]. eexists. apply (P_Not env g src (OStop k)); eauto.
  - destruct (IHreaches _ _ Hk) as [tr2 Ht]. inversion H0; subst.
    destruct o as [m l'| |k']; simpl in *; try discriminate.
    match goal with HE : OOk _ _ = OOk _ _ |- _ => inversion HE; subst end.
    match goal with HS : peg_seq _ _ _ _ _ _ _ _ |- _ =>
      apply seq_whole with (p' := GAnd (pre ++ g :: post)) (src0' := src) in HS; [|exact I];
      destruct (seq_app_stop _ _ _ g post _ _ _ _ _ HS H _ _ Ht) as [tr3 Htr3] end.
    eexists. apply (P_And env _ src (OStop k)); eauto.
  - destruct (IHreaches _ _ Hk) as [tr2 Ht]. inversion H; subst.
    destruct o as [m l'| |k']; simpl in *; try discriminate.
    assert (Ha : exists tr, peg_alt env (pre ++ g :: post) src (OStop k) tr).
    { match goal with HA : peg_alt _ _ _ _ _ |- _ => clear - HA Ht; revert tr HA end.
      induction pre as [|x pre IH]; intros tr HA.
      - simpl. eexists. apply A_stop; eauto.
      - inversion HA; subst.
        match goal with HB : peg_alt env pre _ _ _ |- _ => destruct (IH _ HB) as [tr3 Htr3] end.
        eexists. simpl. eapply A_next; eauto. }
    destruct Ha as [tr3 Htr3]. eexists. apply (P_Or env _ src (OStop k)); eauto.
  - destruct (IHreaches _ _ Hk) as [tr Ht]. eexists. apply P_Rep0_stop. apply R_stop; eauto.
  - destruct (IHreaches _ _ Hk) as [tr2 Ht]. inversion Ht; subst.
    eexists. apply P_Rep0_stop. eapply R_more_stop; eauto.
  - destruct (IHreaches _ _ Hk) as [tr Ht]. eexists. eapply P_Rep1_no; eauto.
  - destruct (IHreaches _ _ Hk) as [tr2 Ht]. inversion Ht; subst.
    eexists. eapply P_Rep1_stop; eauto.
  - destruct (IHreaches _ _ Hk) as [tr Ht]. eexists. apply (P_Rep01 env _ g src (OStop k)); eauto.
  - destruct (IHreaches _ _ Hk) as [tr Ht]. eexists. eapply P_List_stop; eauto.
  - destruct (IHreaches _ _ Hk) as [tr2 Ht]. inversion Ht; subst.
    eexists. eapply P_List_stop2; eauto.
  - destruct (IHreaches _ _ Hk) as [tr Ht]. eexists. apply (P_Var env v g src (OStop k)); eauto.
  - destruct (IHreaches _ _ Hk) as [tr Ht]. eexists. apply (P_Named env v g src (OStop k)); eauto.
  - destruct (IHreaches _ _ Hk) as [tr Ht]. eexists. eapply P_Act_no; eauto.
  - destruct (IHreaches _ _ Hk) as [tr Ht]. eexists. apply (P_Trans env g t src (OStop k)); eauto.
Qed.


Lemma shift_stop : forall n (k : stop (A := A) (T := T)), shift n (OStop k) = OStop k.
Proof. reflexivity. Qed.

Lemma seq_ff_mid : forall p src0 x post tr2, x <> GNil -> forall mid srcx n l trx,
  peg_seq env p src0 mid true srcx (OOk n l) trx ->
  peg env x (skipn n srcx) OFail tr2 ->
  exists tr3, peg_seq env p src0 (mid ++ x :: post) true srcx (OStop (SFailFast p src0)) tr3.
Proof.
  intros p src0 x post tr2 Hx. induction mid as [|y mid IH]; intros srcx n l trx Hs Hf.
  - inversion Hs; subst. simpl. eexists. eapply S_failfast; eauto.
  - inversion Hs; subst.
    + match goal with HS : peg_seq _ _ _ mid _ _ _ _ |- _ => destruct (IH _ _ _ _ HS Hf) as [tr3 Htr3] end.
      eexists. simpl. apply S_bang; eauto.
    + destruct o as [m2 l2| |k2]; simpl in *; try discriminate.
      match goal with HE : OOk _ _ = OOk _ _ |- _ => inversion HE; subst end.
      rewrite <- skipn_skipn' in Hf.
      match goal with HS : peg_seq _ _ _ mid _ _ _ _ |- _ => destruct (IH _ _ _ _ HS Hf) as [tr3 Htr3] end.
      match goal with HP : peg env y srcx (OOk ?q _) ?trq |- _ =>
        exists (trq ++ tr3); rewrite <- (shift_stop q); eapply S_ok; eauto end.
Qed.

Lemma seq_ff_pre : forall p src0 mid x post tr2, x <> GNil -> forall pre ff srcx n l trx,
  peg_seq env p src0 (pre ++ GNil :: mid) ff srcx (OOk n l) trx ->
  peg env x (skipn n srcx) OFail tr2 ->
  exists tr3, peg_seq env p src0 (pre ++ GNil :: mid ++ x :: post) ff srcx (OStop (SFailFast p src0)) tr3.
Proof.
  intros p src0 mid x post tr2 Hx. induction pre as [|y pre IH]; intros ff srcx n l trx Hs Hf; simpl in *.
  - inversion Hs; subst; [|congruence].
    match goal with HS : peg_seq _ _ _ mid _ _ _ _ |- _ =>
      destruct (seq_ff_mid _ _ _ post _ Hx _ _ _ _ _ HS Hf) as [tr3 Htr3] end.
    eexists. apply S_bang; eauto.
  - inversion Hs; subst.
    + match goal with HS : peg_seq _ _ _ (pre ++ _) _ _ _ _ |- _ => destruct (IH _ _ _ _ _ HS Hf) as [tr3 Htr3] end.
      eexists. simpl. apply S_bang; eauto.
    + destruct o as [m2 l2| |k2]; simpl in *; try discriminate.
      match goal with HE : OOk _ _ = OOk _ _ |- _ => inversion HE; subst end.
      rewrite <- skipn_skipn' in Hf.
      match goal with HS : peg_seq _ _ _ (pre ++ _) _ _ _ _ |- _ => destruct (IH _ _ _ _ _ HS Hf) as [tr3 Htr3] end.
      match goal with HP : peg env y srcx (OOk ?q _) ?trq |- _ =>
        exists (trq ++ tr3); rewrite <- (shift_stop q); eapply S_ok; eauto end.
Qed.

(** A sequence whose element [x] fails after a [!] aborts. *)
Lemma failfast_here : forall pre mid x post src n l tr tr2,
  peg env (GAnd (pre ++ GNil :: mid)) src (OOk n l) tr ->
  x <> GNil -> peg env x (skipn n src) OFail tr2 ->
  exists tr3, peg env (GAnd (pre ++ GNil :: mid ++ x :: post)) src
    (OStop (SFailFast (GAnd (pre ++ GNil :: mid ++ x :: post)) src)) tr3.
Proof.
  intros pre mid x post src n l tr tr2 H Hx H2. inversion H; subst.
  destruct o as [m l'| |k']; simpl in *; try discriminate.
  match goal with HE : OOk _ _ = OOk _ _ |- _ => inversion HE; subst end.
  match goal with HS : peg_seq _ _ _ _ _ _ _ _ |- _ =>
    apply seq_whole with (p' := GAnd (pre ++ GNil :: mid ++ x :: post)) (src0' := src) in HS; [|exact I];
    destruct (seq_ff_pre _ _ _ _ post _ Hx _ _ _ _ _ _ HS H2) as [tr3 Htr3] end.
  exists tr3.
  match goal with |- peg env ?w _ _ _ => apply (P_And env (pre ++ GNil :: mid ++ x :: post) src (OStop (SFailFast w src))) end.
  exact Htr3.
Qed.

(** Conversely every fail-fast abort comes from such a sequence. *)
Definition ff_origin (p : gr A T) (src0 : list token) : Prop :=
  exists pre mid x post n l tr tr2, p = GAnd (pre ++ GNil :: mid ++ x :: post) /\ x <> GNil /\
    peg env (GAnd (pre ++ GNil :: mid)) src0 (OOk n l) tr /\ peg env x (skipn n src0) OFail tr2.

Lemma ff_sound :
  (forall g src o tr, peg env g src o tr -> forall p src0, o = OStop (SFailFast p src0) ->
     reaches g src p src0 /\ ff_origin p src0) /\
  (forall q srcq gs ff src o tr, peg_seq env q srcq gs ff src o tr ->
     forall p src0, o = OStop (SFailFast p src0) ->
     (exists pre x post n l tr1 tr2, gs = pre ++ x :: post /\ x <> GNil /\
       peg_seq env q srcq pre ff src (OOk n l) tr1 /\ peg env x (skipn n src) (OStop (SFailFast p src0)) tr2 /\
       reaches x (skipn n src) p src0 /\ ff_origin p src0) \/
     (p = q /\ src0 = srcq /\ exists pre x post n l tr1 tr2, gs = pre ++ x :: post /\ x <> GNil /\
       (ff = true \/ In GNil pre) /\
       peg_seq env q srcq pre ff src (OOk n l) tr1 /\ peg env x (skipn n src) OFail tr2)) /\
  (forall gs src o tr, peg_alt env gs src o tr -> forall p src0, o = OStop (SFailFast p src0) ->
     exists pre x post tr1, gs = pre ++ x :: post /\ peg_alt env pre src OFail tr1 /\
       reaches x src p src0 /\ ff_origin p src0) /\
  (forall g src o tr, peg_rep env g src o tr -> forall p src0 id, o = inr (SFailFast p src0) ->
     reaches (GRep0 id g) src p src0 /\ ff_origin p src0).
Proof.
  apply peg_ind4; intros; try discriminate.
  - destruct o; simpl in *; try discriminate. inversion H0; subst.
    destruct (H _ _ eq_refl) as [Hr Ho]. split; [constructor; exact Hr|exact Ho].
  - destruct o; simpl in *; try discriminate. inversion H0; subst.
    destruct (H _ _ eq_refl) as [Hr Ho]. split; [constructor; exact Hr|exact Ho].
  - (* And *)
    destruct o; simpl in *; try discriminate. inversion H0; subst.
    destruct (H _ _ eq_refl) as [(pre & x & post & n & l & tr1 & tr2 & -> & Hx & H1 & H2 & H3 & H4)|
      (-> & -> & pre & x & post & n & l & tr1 & tr2 & -> & Hx & Hin & H1 & H2)].
    + split; [|exact H4].
      apply seq_whole with (p' := GAnd pre) (src0' := src) in H1; [|exact I].
      eapply RC_and; [exact Hx| |exact H3]. apply (P_And env pre src (OOk n l)). exact H1.
    + split; [apply RC_refl|]. destruct Hin as [Hin|Hin]; [discriminate|].
      apply in_split in Hin. destruct Hin as (pre0 & mid & ->).
      apply seq_whole with (p' := GAnd (pre0 ++ GNil :: mid)) (src0' := src) in H1; [|exact I].
      exists pre0, mid, x, post, n, (Z.of_nat (length (pre0 ++ GNil :: mid))), tr1, tr2.
      rewrite <- app_assoc. split; [reflexivity|]. split; [exact Hx|]. split; [|exact H2].
      apply (P_And env _ src (OOk n l)). exact H1.
  - (* Or *)
    destruct o; simpl in *; try discriminate. inversion H0; subst.
    destruct (H _ _ eq_refl) as (pre & x & post & tr1 & -> & H1 & H2 & H3). split; [|exact H3].
    eapply RC_or; [|exact H2]. apply (P_Or env pre src OFail). exact H1.
  - inversion H0; subst. apply H. reflexivity.
  - inversion H1; subst. destruct (H0 _ _ id eq_refl) as [Hr Ho]. split; [|exact Ho].
    eapply RC_rep1_next; eauto.
  - subst. destruct (H _ _ eq_refl) as [Hr Ho]. split; [|exact Ho]. constructor; exact Hr.
  - destruct o; simpl in *; try discriminate. inversion H0; subst.
    destruct (H _ _ eq_refl) as [Hr Ho]. split; [constructor; exact Hr|exact Ho].
  - inversion H1; subst. destruct (H0 _ _ id eq_refl) as [Hr Ho]. split; [|exact Ho].
    eapply RC_list_next; eauto.
  - inversion H0; subst. destruct (H _ _ eq_refl) as [Hr Ho]. split; [|exact Ho]. constructor; exact Hr.
  - destruct o; simpl in *; try discriminate. inversion H0; subst.
    destruct (H _ _ eq_refl) as [Hr Ho]. split; [econstructor; eauto|exact Ho].
  - destruct o; simpl in *; try discriminate. inversion H0; subst.
    destruct (H _ _ eq_refl) as [Hr Ho]. split; [econstructor; eauto|exact Ho].
  - subst. destruct (H _ _ eq_refl) as [Hr Ho]. split; [constructor; exact Hr|exact Ho].
  - subst. destruct (H _ _ eq_refl) as [Hr Ho]. split; [constructor; exact Hr|exact Ho].
  - (* S_bang *) subst. destruct (H _ _ eq_refl) as [(pre & x & post & n & l & tr1 & tr2 & -> & Hx & H1 & H2 & H3 & H4)|
      (-> & -> & pre & x & post & n & l & tr1 & tr2 & -> & Hx & Hin & H1 & H2)].
    + left. exists (GNil :: pre), x, post, n, l, tr1, tr2. repeat (split; [reflexivity || assumption|]).
      split; [apply S_bang; exact H1|]. auto.
    + right. split; [reflexivity|]. split; [reflexivity|].
      exists (GNil :: pre), x, post, n, l, tr1, tr2. split; [reflexivity|]. split; [exact Hx|].
      split; [right; left; reflexivity|]. split; [apply S_bang; exact H1|exact H2].
  - (* S_ok *) destruct o as [m l'| |k']; simpl in *; try discriminate. inversion H1; subst.
    destruct (H0 _ _ eq_refl) as [(pre & x & post & n1 & l1 & t1 & t2 & -> & Hx & H3 & H4 & H5 & H6)|
      (-> & -> & pre & x & post & n1 & l1 & t1 & t2 & -> & Hx & Hin & H3 & H4)].
    + left. exists (g :: pre), x, post, (n + n1)%nat, l1, (tr1 ++ t1), t2.
      rewrite <- skipn_skipn'. split; [reflexivity|]. split; [exact Hx|]. split; [|auto].
      change (OOk (n + n1) l1) with (shift n (OOk (A := A) (T := T) n1 l1)). eapply S_ok; eauto.
    + right. split; [reflexivity|]. split; [reflexivity|].
      exists (g :: pre), x, post, (n + n1)%nat, l1, (tr1 ++ t1), t2.
      rewrite <- skipn_skipn'. split; [reflexivity|]. split; [exact Hx|].
      split; [destruct Hin; [left|right; right]; assumption|]. split; [|exact H4].
      change (OOk (n + n1) l1) with (shift n (OOk (A := A) (T := T) n1 l1)). eapply S_ok; eauto.
  - (* S_failfast *) inversion H0; subst. right. split; [reflexivity|]. split; [reflexivity|].
    exists [], g, gs, 0%nat, 0, [], tr. split; [reflexivity|]. split; [assumption|].
    split; [left; reflexivity|]. split; [apply S_nil|assumption].
  - (* S_stop *) inversion H0; subst. left. destruct (H _ _ eq_refl) as [Hr Ho].
    exists [], g, gs, 0%nat, 0, [], tr. split; [reflexivity|]. split; [assumption|].
    split; [apply S_nil|]. split; [assumption|]. split; [exact Hr|exact Ho].
  - (* A_next *) subst. destruct (H0 _ _ eq_refl) as (pre & x & post & t1 & -> & H1 & H2 & H3).
    exists (g :: pre), x, post, (tr1 ++ t1). split; [reflexivity|]. split; [eapply A_next; eauto|]. auto.
  - inversion H0; subst. destruct (H _ _ eq_refl) as [Hr Ho].
    exists [], g, gs, []. split; [reflexivity|]. split; [apply A_nil|]. auto.
  - inversion H1; subst. destruct (H0 _ _ id eq_refl) as [Hr Ho]. split; [|exact Ho].
    eapply RC_rep0_next; eauto.
  - inversion H0; subst. destruct (H _ _ eq_refl) as [Hr Ho]. split; [|exact Ho]. constructor; exact Hr.
Qed.
End FailFast.
