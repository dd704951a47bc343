(** Vocabulary for the properties of matching: what a caller of [g.Match(src, ctx)] can observe, and
    small independent notions used in statements. *)
From Verif Require Import Base Token Grammar PegSpec MatchProofs MatchProofs2 MatchProofs3 Wf MatchProofs4.

Section Obs.
Context {A T P U V : Type}.
Variable env : bytes -> option (gr A T).
Variable c : client A T P U V.

(** g.Match(src, ctx), called in state [s], returns (n, err) in state [s']. *)
Definition returns (g : gr A T) src (s : st U) n err s' : Prop :=
  exists f, gmatch env c f g src s = Ret n err s'.
(** ... panics with value [p]. *)
Definition panics (g : gr A T) src (s : st U) (p : pan A T P) s' : Prop :=
  exists f, gmatch env c f g src s = Panic p s'.
(** ... never returns. *)
Definition diverges (g : gr A T) src (s : st U) : Prop :=
  forall f, gmatch env c f g src s = OutOfFuel.
End Obs.

(** A client none of whose actions panics. *)
Notation quiet := MatchProofs2.quiet.

(** [repeats g src k n]: starting at [src], [g] matches exactly [k] times in a row, consuming [n] tokens
    in total, and then fails. *)
Section Repeats.
Context {A T : Type}.
Variable env : bytes -> option (gr A T).
Inductive repeats (g : gr A T) : list token -> nat -> nat -> Prop :=
| Rpt_end : forall src tr, peg env g src OFail tr -> repeats g src 0 0
| Rpt_more : forall src n l tr k m,
    peg env g src (OOk n l) tr -> repeats g (skipn n src) k m -> repeats g src (S k) (n + m).

Lemma rep_repeats : forall g src o tr, peg_rep env g src o tr -> forall c n, o = inl (c, n) ->
  exists k, c = Z.of_nat k /\ repeats g src k n.
Proof.
  intros g src o tr H. induction H; intros c' n' E; inversion E; subst.
  - exists 0%nat. split; [reflexivity|]. econstructor; eauto.
  - destruct (IHpeg_rep _ _ eq_refl) as (k & -> & Hk). exists (S k). split; [lia|].
    econstructor; eauto.
Qed.
End Repeats.

Section Helpers.
Context {A T P U V : Type}.
Variable env : bytes -> option (gr A T).
Variable u : uclient A T P U V.

Lemma returns_unique : forall (c : client A T P U V) g src s n err s' n' err' s'',
  returns env c g src s n err s' -> returns env c g src s n' err' s'' ->
  n = n' /\ err = err' /\ s' = s''.
Proof.
  intros c g src s n err s' n' err' s'' [f H] [f' H'].
  assert (E : gmatch env c f g src s = gmatch env c f' g src s) by (apply gmatch_det; congruence).
  rewrite H, H' in E. inversion E; auto.
Qed.

Lemma diverges_iff : forall (c : client A T P U V) g src s,
  diverges env c g src s <->
  (forall n err s', ~ returns env c g src s n err s') /\ (forall p s', ~ panics env c g src s p s').
Proof.
  intros c g src s. unfold diverges, returns, panics. split.
  - intro H. split; intros; intros [f E]; rewrite H in E; discriminate.
  - intros [H1 H2] f. destruct (gmatch env c f g src s) eqn:E; [|exfalso; eapply H2; eauto|reflexivity].
    exfalso. eapply H1; eauto.
Qed.

(** Matching agrees with the declarative semantics: with a quiet client, in both directions. *)
Lemma ok_iff : quiet u -> forall g src s n,
  (exists s', returns env (lift u) g src s n None s') <-> (exists l tr, peg env g src (OOk n l) tr).
Proof.
  intros Hq g src s n. split.
  - intros (s' & f & H). destruct (ret_sound env u _ _ _ _ _ _ _ H) as (tr & Hp & _). eauto.
  - intros (l & tr & H). destruct (proj1 (sim_all env u) _ _ _ _ H) as [F HF].
    destruct (HF F (Nat.le_refl _) s) as [(p & s' & _ & Hr)|(s' & Hr & _)].
    + destruct (quiet_run u Hq tr [] (ust s)) as (vs' & x' & E). rewrite (Hr []) in E. discriminate.
    + exists s', F. exact Hr.
Qed.

Lemma fail_iff : quiet u -> forall g src s,
  (exists n e s', returns env (lift u) g src s n (Some e) s') <-> (exists tr, peg env g src OFail tr).
Proof.
  intros Hq g src s. split.
  - intros (n & e & s' & f & H). destruct (ret_sound env u _ _ _ _ _ _ _ H) as (tr & Hp & _). eauto.
  - intros (tr & H). destruct (proj1 (sim_all env u) _ _ _ _ H) as [F HF].
    destruct (HF F (Nat.le_refl _) s) as [(p & s' & _ & Hr)|(n & e & s' & Hr & _)].
    + destruct (quiet_run u Hq tr [] (ust s)) as (vs' & x' & E). rewrite (Hr []) in E. discriminate.
    + exists n, e, s', F. exact Hr.
Qed.

Lemma stop_fwd : quiet u -> forall g src s k tr, peg env g src (OStop k) tr ->
  exists p s', panics env (lift u) g src s p s' /\ stop_pan k p.
Proof.
  intros Hq g src s k tr H. destruct (proj1 (sim_all env u) _ _ _ _ H) as [F HF].
  destruct (HF F (Nat.le_refl _) s) as [(p & s' & _ & Hr)|(p & s' & Hr & Hs & _)].
  - destruct (quiet_run u Hq tr [] (ust s)) as (vs' & x' & E). rewrite (Hr []) in E. discriminate.
  - exists p, s'. split; [exists F; exact Hr|exact Hs].
Qed.

Lemma stop_bwd : quiet u -> forall g src s p s', panics env (lift u) g src s p s' ->
  exists k tr, peg env g src (OStop k) tr /\ stop_pan k p.
Proof.
  intros Hq g src s p s' [f H].
  destruct (adq_all env u f g src s) as (o & tr & Hp).
  { rewrite H. exact Hq. }
  destruct (link_panic env u Hq _ _ _ _ _ _ _ _ Hp H) as (k & -> & Hk). eauto.
Qed.

Lemma stop_iff : quiet u -> forall g src s p,
  (exists s', panics env (lift u) g src s p s') -> exists k tr, peg env g src (OStop k) tr /\ stop_pan k p.
Proof. intros Hq g src s p [s' H]. eapply stop_bwd; eauto. Qed.

Lemma act_len : forall g a src s n s', returns env (lift u) (GAct g a) src s n None s' ->
  exists l tr s1, peg env g src (OOk n l) tr /\ returns env (lift u) g src s n None s1 /\
    u_act u a (firstn n src) l (ust s1) = inl (ust s').
Proof.
  intros g a src s n s' [f H]. destruct f as [|f]; [discriminate|]. simpl in H.
  destruct (gmatch env (lift u) f g src s) as [n1 [e1|] s1|q s1|] eqn:E; try discriminate.
  destruct (ret_sound env u _ _ _ _ _ _ _ E) as (tr & Hp & _).
  destruct (u_act u a (firstn n1 src) (glen s1 g) (ust s1)) as [x|[q x]] eqn:Ea; inversion H; subst.
  exists (glen s1 g), tr, s1. split; [exact Hp|]. split; [exists f; exact E|]. exact Ea.
Qed.

Lemma and_loop_fail : forall f p src gs ff n s m e s',
  and_loop (gmatch env (lift u) f) p src gs ff n s = Ret m (Some e) s' ->
  exists gs1 g gs2 k j s1, gs = gs1 ++ g :: gs2 /\ m = (k + j)%nat /\ (n <= k)%nat /\
    and_loop (gmatch env (lift u) f) p src gs1 ff n s = Ret k None s1 /\
    gmatch env (lift u) f g (skipn k src) s1 = Ret j (Some e) s'.
Proof.
  intros f p src gs. induction gs as [|g gs IH]; intros ff n s m e s' H; [discriminate|].
  assert (Hc : g = GNil \/ g <> GNil) by (destruct g; (left; reflexivity) || (right; discriminate)).
  destruct Hc as [->|Hg].
  - simpl in H. destruct (IH _ _ _ _ _ _ H) as (gs1 & x & gs2 & k & j & s1 & -> & Hm & Hk & H1 & H2).
    exists (GNil :: gs1), x, gs2, k, j, s1. auto.
  - assert (E : forall gs', and_loop (gmatch env (lift u) f) p src (g :: gs') ff n s =
      match gmatch env (lift u) f g (skipn n src) s with
      | Ret n1 None s1 => and_loop (gmatch env (lift u) f) p src gs' ff (n + n1) s1
      | Ret n1 (Some e) s1 =>
          if ff then Panic (PMatch (MErr p src (Some e) (n + n1))) s1
          else Ret (n + n1) (Some e) s1
      | r => r
      end) by (intro gs'; destruct g; try congruence; reflexivity).
    rewrite E in H.
    destruct (gmatch env (lift u) f g (skipn n src) s) as [n1 [e1|] s1|q s1|] eqn:Eg; try discriminate.
    + destruct ff; inversion H; subst. exists [], g, gs, n, n1, s. auto 10.
    + destruct (IH _ _ _ _ _ _ H) as (gs1 & x & gs2 & k & j & s2 & -> & Hm & Hk & H1 & H2).
      exists (g :: gs1), x, gs2, k, j, s2. split; [reflexivity|]. split; [exact Hm|]. split; [lia|].
      split; [rewrite E; exact H1|exact H2].
Qed.
End Helpers.

(** Trying alternatives one after the other, all failing with the given progress and error. *)
Section Tried.
Context {A T P U V : Type}.
Variable env : bytes -> option (gr A T).
Variable c : client A T P U V.
Inductive all_failed (src : list token) : list (gr A T) -> st U -> list (nat * merr A T) -> st U -> Prop :=
| ATF_nil : forall s, all_failed src [] s [] s
| ATF_cons : forall g gs s n e s1 es s2,
    returns env c g src s n (Some e) s1 -> all_failed src gs s1 es s2 ->
    all_failed src (g :: gs) s ((n, e) :: es) s2.

Lemma all_fail_failed : forall f src gs s es s', all_fail env c f src gs s es s' -> all_failed src gs s es s'.
Proof. intros f src gs s es s' H. induction H; econstructor; eauto. exists f. exact H. Qed.

Lemma or_ok : forall gs src s n s', returns env c (GOr gs) src s n None s' ->
  exists gs1 g gs2 es s1, gs = gs1 ++ g :: gs2 /\ all_failed src gs1 s es s1 /\
    returns env c g src s1 n None s'.
Proof.
  intros gs src s n s' [f H]. destruct f as [|f]; [discriminate|].
  destruct (or_success env c f gs src s n s' H) as (gs1 & g & gs2 & es & s1 & E & Ha & Hg).
  exists gs1, g, gs2, es, s1. split; [exact E|]. split; [eapply all_fail_failed; eauto|]. exists f; exact Hg.
Qed.

Lemma or_bad : forall gs src s n e s', returns env c (GOr gs) src s n (Some e) s' ->
  exists es, all_failed src gs s es s' /\ furthest (GOr gs) src es n e.
Proof.
  intros gs src s n e s' [f H]. destruct f as [|f]; [discriminate|].
  destruct (or_failure env c f gs src s n e s' H) as (es & Ha & Hf).
  exists es. split; [eapply all_fail_failed; eauto|exact Hf].
Qed.

(** and conversely *)
Lemma all_failed_fail : forall src gs s es s', all_failed src gs s es s' ->
  exists F, forall f, (F <= f)%nat -> all_fail env c f src gs s es s'.
Proof.
  intros src gs s es s' H. induction H.
  - exists 0%nat. constructor.
  - destruct H as [f0 H]. destruct IHall_failed as [F HF]. exists (f0 + F)%nat. intros f Hf.
    econstructor; [|apply HF; lia].
    rewrite (gmatch_mono env c f0 f); [exact H|lia|congruence].
Qed.

Lemma or_loop_skip : forall f p src gs1 g gs2 n s' , forall s es s1, all_fail env c f src gs1 s es s1 ->
  gmatch env c f g src s1 = Ret n None s' ->
  forall nm em me, or_loop (gmatch env c f) p src (gs1 ++ g :: gs2) nm em me s = Ret n None s'.
Proof.
  intros f p src gs1 g gs2 n s' s es s1 H Hg. induction H; intros nm em me; simpl.
  - rewrite Hg. reflexivity.
  - rewrite H. destruct (nm <=? n0)%nat; [destruct (n0 =? nm)%nat|]; apply IHall_fail; assumption.
Qed.

Lemma or_first : forall gs1 g gs2 src s es s1 n s', all_failed src gs1 s es s1 ->
  returns env c g src s1 n None s' -> returns env c (GOr (gs1 ++ g :: gs2)) src s n None s'.
Proof.
  intros gs1 g gs2 src s es s1 n s' Ha [f0 Hg].
  destruct (all_failed_fail _ _ _ _ _ Ha) as [F HF].
  exists (S (f0 + F)). simpl. eapply or_loop_skip; [apply HF; lia|].
  rewrite (gmatch_mono env c f0 (f0 + F)); [exact Hg|lia|congruence].
Qed.
End Tried.

Section Law.
Context {A T P U V : Type}.
Variable env : bytes -> option (gr A T).
Variable c : client A T P U V.

Lemma observes_accept : forall g src s n x, observes env c g src s (Accept n x) <->
  exists s', returns env c g src s n None s' /\ ust s' = x.
Proof.
  intros. split.
  - intros [f H]. destruct (gmatch env c f g src s) as [n1 [e1|] s1|q s1|] eqn:E; inversion H; subst.
    exists s1. split; [exists f; exact E|reflexivity].
  - intros (s' & [f H] & <-). exists f. rewrite H. reflexivity.
Qed.

Lemma peek_peek : forall g src s n x,
  observes env c (GPeek (GPeek g)) src s (Accept n x) <-> observes env c (GPeek g) src s (Accept n x).
Proof.
  intros. rewrite peek_law. split.
  - intros (-> & m & H). rewrite peek_law in H. destruct H as (-> & H). rewrite peek_law. eauto.
  - intro H. pose proof H as H0. rewrite peek_law in H0. destruct H0 as (-> & _). eauto.
Qed.

Lemma not_not : forall g src s n x,
  observes env c (GNot (GNot g)) src s (Accept n x) <-> observes env c (GPeek g) src s (Accept n x).
Proof.
  intros. rewrite not_law, peek_law. split; intros (-> & H); (split; [reflexivity|]).
  - destruct H as (m & e & H). destruct (proj1 (not_reject env c g src s m x)) as (_ & H'); eauto.
  - destruct H as (m & H).
    destruct (proj2 (not_reject env c g src s 0 x)) as (e & H'); eauto.
Qed.
End Law.
