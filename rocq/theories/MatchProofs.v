(** Proofs relating the matcher (Grammar.v) to the declarative semantics (PegSpec.v). *)
From Verif Require Import Base Token Grammar PegSpec.

Section GrInd.
Context {A T : Type}.
Variable Q : gr A T -> Prop.
Hypothesis H_nil : Q GNil.
Hypothesis H_tok : forall k, Q (GTok k).
Hypothesis H_true : Q GTrue.
Hypothesis H_peek : forall g, Q g -> Q (GPeek g).
Hypothesis H_not : forall g, Q g -> Q (GNot g).
Hypothesis H_eof : Q GEOF.
Hypothesis H_and : forall gs, Forall Q gs -> Q (GAnd gs).
Hypothesis H_or : forall gs, Forall Q gs -> Q (GOr gs).
Hypothesis H_rep0 : forall id g, Q g -> Q (GRep0 id g).
Hypothesis H_rep1 : forall id g, Q g -> Q (GRep1 id g).
Hypothesis H_rep01 : forall id g, Q g -> Q (GRep01 id g).
Hypothesis H_list : forall id a b l0, Q a -> Q b -> Q (GList id a b l0).
Hypothesis H_var : forall v, Q (GVar v).
Hypothesis H_named : forall v g, Q g -> Q (GNamed v g).
Hypothesis H_act : forall g a, Q g -> Q (GAct g a).
Hypothesis H_trans : forall g t, Q g -> Q (GTrans g t).

Fixpoint gr_ind' (g : gr A T) : Q g :=
  let fix go (gs : list (gr A T)) : Forall Q gs :=
    match gs with
    | [] => Forall_nil Q
    | x :: r => Forall_cons x (gr_ind' x) (go r)
    end in
  match g with
  | GNil => H_nil
  | GTok k => H_tok k
  | GTrue => H_true
  | GPeek g => H_peek g (gr_ind' g)
  | GNot g => H_not g (gr_ind' g)
  | GEOF => H_eof
  | GAnd gs => H_and gs (go gs)
  | GOr gs => H_or gs (go gs)
  | GRep0 id g => H_rep0 id g (gr_ind' g)
  | GRep1 id g => H_rep1 id g (gr_ind' g)
  | GRep01 id g => H_rep01 id g (gr_ind' g)
  | GList id a b l0 => H_list id a b l0 (gr_ind' a) (gr_ind' b)
  | GVar v => H_var v
  | GNamed v g => H_named v g (gr_ind' g)
  | GAct g a => H_act g a (gr_ind' g)
  | GTrans g t => H_trans g t (gr_ind' g)
  end.
End GrInd.

Section Mono.
Context {A T P U V : Type}.
Variable env : bytes -> option (gr A T).
Variable c : client A T P U V.
Notation matcher := (matcher A T P U).
Notation st := (st U).

Definition mle (m m' : matcher) : Prop :=
  forall g src s, m g src s <> OutOfFuel -> m' g src s = m g src s.

Lemma and_loop_mono : forall m m' p src gs ff n s, mle m m' ->
  and_loop m p src gs ff n s <> OutOfFuel ->
  and_loop m' p src gs ff n s = and_loop m p src gs ff n s.
Proof.
  intros m m' p src gs ff n s Hle. revert ff n s.
  induction gs as [|g gs IH]; intros ff n s Hn; [reflexivity|].
  destruct g; try (apply IH; exact Hn).
  all: cbn [and_loop] in *; rewrite Hle by (intro Hc; rewrite Hc in Hn; congruence);
    destruct (m _ _ _) as [n1 [e|] s1|p1 s1|]; try reflexivity; apply IH; exact Hn.
Qed.

Lemma or_loop_mono : forall m m' p src gs nm em me s, mle m m' ->
  or_loop m p src gs nm em me s <> OutOfFuel ->
  or_loop m' p src gs nm em me s = or_loop m p src gs nm em me s.
Proof.
  intros m m' p src gs nm em me s Hle. revert nm em me s.
  induction gs as [|g gs IH]; intros nm em me s Hn; [reflexivity|].
  cbn [or_loop] in *.
  rewrite Hle by (intro Hc; rewrite Hc in Hn; congruence).
  destruct (m g src s) as [n1 [e|] s1|p1 s1|]; try reflexivity.
  destruct (nm <=? n1)%nat; [destruct (n1 =? nm)%nat|]; apply IH; exact Hn.
Qed.

Lemma rep_loop_mono : forall m m' k k' g src cnt n s, mle m m' -> (k <= k')%nat ->
  rep_loop k m g src cnt n s <> LOutOfFuel ->
  rep_loop k' m' g src cnt n s = rep_loop k m g src cnt n s.
Proof.
  intros m m' k k' g src cnt n s Hle. revert k' src cnt n s.
  induction k as [|k IH]; intros k' src cnt n s Hk Hn; [simpl in Hn; congruence|].
  destruct k' as [|k']; [lia|]. simpl in *.
  rewrite Hle by (intro Hc; rewrite Hc in Hn; congruence).
  destruct (m g src s) as [n1 [e|] s1|p1 s1|]; try reflexivity.
  apply IH; [lia|exact Hn].
Qed.

Lemma gstep_mono : forall m m' k k' g src s, mle m m' -> (k <= k')%nat ->
  gstep env c k m g src s <> OutOfFuel ->
  gstep env c k' m' g src s = gstep env c k m g src s.
Proof.
  intros m m' k k' g src s Hle Hk Hn.
  destruct g; simpl in *; try reflexivity;
    try (apply and_loop_mono; assumption); try (apply or_loop_mono; assumption).
  - rewrite Hle by (intro Hc; rewrite Hc in Hn; congruence). reflexivity.
  - rewrite Hle by (intro Hc; rewrite Hc in Hn; congruence). reflexivity.
  - rewrite (rep_loop_mono m m' k k') by (try assumption; intro Hc; rewrite Hc in Hn; congruence).
    reflexivity.
  - rewrite Hle by (intro Hc; rewrite Hc in Hn; congruence).
    destruct (m g src s) as [n1 [e|] s1|p1 s1|]; try reflexivity.
    rewrite (rep_loop_mono m m' k k') by (try assumption; intro Hc; rewrite Hc in Hn; congruence).
    reflexivity.
  - rewrite Hle by (intro Hc; rewrite Hc in Hn; congruence). reflexivity.
  - rewrite Hle by (intro Hc; rewrite Hc in Hn; congruence).
    destruct (m g1 src s) as [n1 [e|] s1|p1 s1|]; try reflexivity.
    rewrite (rep_loop_mono m m' k k') by (try assumption; intro Hc; rewrite Hc in Hn; congruence).
    reflexivity.
  - destruct (env name); [|reflexivity].
    rewrite Hle by (intro Hc; rewrite Hc in Hn; congruence). reflexivity.
  - rewrite Hle by (intro Hc; rewrite Hc in Hn; congruence). reflexivity.
  - rewrite Hle by (intro Hc; rewrite Hc in Hn; congruence). reflexivity.
  - destruct (c_begin c t s) as [v s0].
    rewrite Hle by (intro Hc; rewrite Hc in Hn; congruence). reflexivity.
Qed.

Lemma gmatch_mono : forall f f', (f <= f')%nat -> mle (gmatch env c f) (gmatch env c f').
Proof.
  induction f as [|f IH]; intros f' Hf g src s Hn; [simpl in Hn; congruence|].
  destruct f' as [|f']; [lia|]. simpl in *.
  apply gstep_mono; [|lia|exact Hn].
  apply IH. lia.
Qed.

(** Two results of the same call that both returned are equal. *)
Lemma gmatch_det : forall f f' g src s,
  gmatch env c f g src s <> OutOfFuel -> gmatch env c f' g src s <> OutOfFuel ->
  gmatch env c f g src s = gmatch env c f' g src s.
Proof.
  intros f f' g src s H H'.
  rewrite <- (gmatch_mono f (Nat.max f f')) by (try lia; assumption).
  rewrite <- (gmatch_mono f' (Nat.max f f')) by (try lia; assumption).
  reflexivity.
Qed.
End Mono.

Section Sim.
Context {A T P U V : Type}.
Variable env : bytes -> option (gr A T).
Variable u : uclient A T P U V.
Notation c := (lift u).
Notation gm := (gmatch env c).
Notation st := (st U).


Lemma run_app : forall tr1 tr2 vs x,
  run u (tr1 ++ tr2) vs x =
  match run u tr1 vs x with
  | inl (vs1, x1) => run u tr2 vs1 x1
  | inr r => inr r
  end.
Proof.
  induction tr1 as [|e tr1 IH]; intros tr2 vs x; [reflexivity|].
  destruct e as [a ts l|t|t ok]; simpl.
  - destruct (u_act u a ts l x) as [x'|r]; [apply IH|reflexivity].
  - destruct (u_begin u t x) as [v x']. apply IH.
  - destruct vs as [|v vs]; apply IH.
Qed.

Definition run_ok (tr : list ev) (s s' : st) : Prop :=
  forall vs, run u tr vs (ust s) = inl (vs, ust s').
Definition run_panic (tr : list ev) (s : st) (p : pan A T P) (s' : st) : Prop :=
  forall vs, run u tr vs (ust s) = inr (p, ust s').
Definition run_open (tr : list ev) (s s' : st) : Prop :=
  exists ws, forall vs, run u tr vs (ust s) = inl (ws ++ vs, ust s').

Lemma run_ok_nil : forall s, run_ok [] s s.
Proof. intros s vs. reflexivity. Qed.
Lemma run_ok_ok : forall tr1 tr2 s1 s2 s3,
  run_ok tr1 s1 s2 -> run_ok tr2 s2 s3 -> run_ok (tr1 ++ tr2) s1 s3.
Proof. intros tr1 tr2 s1 s2 s3 H1 H2 vs. rewrite run_app, H1. apply H2. Qed.
Lemma run_ok_panic : forall tr1 tr2 s1 s2 p s3,
  run_ok tr1 s1 s2 -> run_panic tr2 s2 p s3 -> run_panic (tr1 ++ tr2) s1 p s3.
Proof. intros tr1 tr2 s1 s2 p s3 H1 H2 vs. rewrite run_app, H1. apply H2. Qed.
Lemma run_panic_app : forall tr1 tr2 s1 p s3,
  run_panic tr1 s1 p s3 -> run_panic (tr1 ++ tr2) s1 p s3.
Proof. intros tr1 tr2 s1 p s3 H1 vs. rewrite run_app, H1. reflexivity. Qed.
Lemma run_ok_open : forall tr1 tr2 s1 s2 s3,
  run_ok tr1 s1 s2 -> run_open tr2 s2 s3 -> run_open (tr1 ++ tr2) s1 s3.
Proof. intros tr1 tr2 s1 s2 s3 H1 [ws H2]. exists ws. intro vs. rewrite run_app, H1. apply H2. Qed.
Lemma run_ok_is_open : forall tr s s', run_ok tr s s' -> run_open tr s s'.
Proof. intros tr s s' H. exists []. exact H. Qed.

(** What the matcher must do when the declarative semantics says [o] with trace [tr]. *)
Definition stop_pan (k : stop (A := A) (T := T)) (p : pan A T P) : Prop :=
  match k with
  | SNilGrammar => p = PNilDeref
  | SFailFast g src0 => exists e n, p = PMatch (MErr g src0 (Some e) n)
  end.

Definition expect (o : outcome) (tr : list ev) (lenof : st -> Z) (s : st) (r : res A T P U) : Prop :=
  (exists p s', r = Panic p s' /\ run_panic tr s p s') \/
  match o with
  | OOk n l => exists s', r = Ret n None s' /\ lenof s' = l /\ run_ok tr s s'
  | OFail => exists n e s', r = Ret n (Some e) s' /\ run_ok tr s s'
  | OStop k => exists p s', r = Panic p s' /\ stop_pan k p /\ run_open tr s s'
  end.

Definition lexpect (o : (Z * nat) + stop (A := A) (T := T)) (tr : list ev) (cnt : Z) (n0 : nat) (s : st)
    (r : lres A T P U) : Prop :=
  (exists p s', r = LPanic p s' /\ run_panic tr s p s') \/
  match o with
  | inl (cc, n) => exists s', r = LRet (cnt + cc) (n0 + n) s' /\ run_ok tr s s'
  | inr k => exists p s', r = LPanic p s' /\ stop_pan k p /\ run_open tr s s'
  end.

Definition nolen (s : st) : Z := 0.

End Sim.

(** The fuel that a match needs does not depend on the client. *)
Section Uniform.
Context {A T P U V : Type}.
Variable env : bytes -> option (gr A T).
Notation gm u := (gmatch env (lift u)).
Notation st := (st U).
Implicit Types u : uclient A T P U V.

Definition Psim (g : gr A T) src o tr (_ : peg env g src o tr) : Prop :=
  exists F, forall u f, (F <= f)%nat -> forall s, expect u o tr (fun s => glen s g) s (gm u f g src s).
Definition Ssim p src0 (gs : list (gr A T)) ff src o tr (_ : peg_seq env p src0 gs ff src o tr) : Prop :=
  exists F, forall u f, (F <= f)%nat -> forall s n, skipn n src0 = src ->
    expect u (shift n (with_len 0 o)) tr nolen s (and_loop (gm u f) p src0 gs ff n s).
Definition Asim (gs : list (gr A T)) src o tr (_ : peg_alt env gs src o tr) : Prop :=
  exists F, forall u f, (F <= f)%nat -> forall s p nm em me, (me = false -> em <> None) ->
    expect u (with_len 0 o) tr nolen s (or_loop (gm u f) p src gs nm em me s).
Definition Rsim (g : gr A T) src o tr (_ : peg_rep env g src o tr) : Prop :=
  exists F, forall u f k, (F <= f)%nat -> (F <= k)%nat -> forall s cnt n0,
    lexpect u o tr cnt n0 s (rep_loop k (gm u f) g src cnt n0 s).

Ltac fuel f := destruct f as [|f]; [lia|]; cbn [gmatch gstep].

Lemma gmatch_mono' : forall u f f' g src s r, (f <= f')%nat -> gm u f g src s = r -> r <> OutOfFuel ->
  gm u f' g src s = r.
Proof. intros. subst r. apply gmatch_mono; assumption. Qed.

Lemma sim_uniform :
  (forall g src o tr (H : peg env g src o tr), Psim g src o tr H) /\
  (forall p src0 gs ff src o tr (H : peg_seq env p src0 gs ff src o tr), Ssim p src0 gs ff src o tr H) /\
  (forall gs src o tr (H : peg_alt env gs src o tr), Asim gs src o tr H) /\
  (forall g src o tr (H : peg_rep env g src o tr), Rsim g src o tr H).
Proof.
  apply peg_ind4; unfold Psim, Ssim, Asim, Rsim.
  - (* Nil *) intros src. exists 1%nat. intros u f Hf s. fuel f.
    right. exists PNilDeref, s. repeat split. apply run_ok_is_open, run_ok_nil.
  - (* Tok *) intros kind t src Hok. exists 1%nat. intros u f Hf s. fuel f.
    right. exists s. split; [|split; [reflexivity|apply run_ok_nil]].
    replace ((tkind t =? kind) || ((tkind t =? INT) && (kind =? FLOAT))) with true; [reflexivity|].
    symmetry. destruct Hok as [->|[-> ->]]; rewrite ?Z.eqb_refl; [reflexivity|].
    apply orb_true_r.
  - intros kind src Hno. exists 1%nat. intros u f Hf s. fuel f.
    right. destruct src as [|t src].
    + do 3 eexists. split; [reflexivity|apply run_ok_nil].
    + replace ((tkind t =? kind) || ((tkind t =? INT) && (kind =? FLOAT))) with false.
      * do 3 eexists. split; [reflexivity|apply run_ok_nil].
      * symmetry. apply not_true_is_false. intro Hc. apply (Hno t src eq_refl).
        apply orb_true_iff in Hc. destruct Hc as [Hc|Hc].
        -- left. apply Z.eqb_eq. exact Hc.
        -- right. apply andb_true_iff in Hc. rewrite !Z.eqb_eq in Hc. exact Hc.
  - intros src. exists 1%nat. intros u f Hf s. fuel f.
    right. exists s. repeat split.
  - (* Peek *) intros g src o tr _ [F IH]. exists (S F). intros u f Hf s. fuel f.
    destruct (IH u f ltac:(lia) s) as [(p & s' & -> & Hr)|H]; [left; eauto|].
    destruct o as [n l| |k]; simpl.
    + destruct H as (s' & -> & _ & Hr). right. exists s'. repeat split. exact Hr.
    + destruct H as (n & e & s' & -> & Hr). right. do 3 eexists. split; [reflexivity|exact Hr].
    + destruct H as (p & s' & -> & Hk & Hr). right. exists p, s'. auto.
  - (* Not *) intros g src o tr _ [F IH]. exists (S F). intros u f Hf s. fuel f.
    destruct (IH u f ltac:(lia) s) as [(p & s' & -> & Hr)|H]; [left; eauto|].
    destruct o as [n l| |k]; simpl.
    + destruct H as (s' & -> & _ & Hr). right. do 3 eexists. split; [reflexivity|exact Hr].
    + destruct H as (n & e & s' & -> & Hr). right. exists s'. repeat split. exact Hr.
    + destruct H as (p & s' & -> & Hk & Hr). right. exists p, s'. auto.
  - exists 1%nat. intros u f Hf s. fuel f. right. exists s. repeat split.
  - intros t src. exists 1%nat. intros u f Hf s. fuel f. right. do 3 eexists.
    split; [reflexivity|apply run_ok_nil].
  - (* And *) intros gs src o tr _ [F IH]. exists (S F). intros u f Hf s. fuel f.
    destruct (IH u f ltac:(lia) s 0%nat eq_refl) as [H|H]; [left; exact H|right].
    destruct o as [n l| |k]; simpl in *; [|exact H|exact H].
    destruct H as (s' & H & _ & Hr). exists s'. auto.
  - (* Or *) intros gs src o tr _ [F IH]. exists (S F). intros u f Hf s. fuel f.
    destruct (IH u f ltac:(lia) s (GOr gs) 0%nat None true ltac:(discriminate)) as [H|H];
      [left; exact H|right].
    destruct o as [n l| |k]; simpl in *; [|exact H|exact H].
    destruct H as (s' & H & _ & Hr). exists s'. auto.
  - (* Rep0 *) intros id g src cc n tr _ [F IH]. exists (S F). intros u f Hf s. fuel f.
    destruct (IH u f f ltac:(lia) ltac:(lia) s 0 0%nat) as [(p & s' & -> & Hr)|H]; [left; eauto|].
    destruct H as (s' & -> & Hr). right. exists (set_len id cc s'). simpl.
    rewrite Nat.eqb_refl. repeat split. exact Hr.
  - intros id g src k tr _ [F IH]. exists (S F). intros u f Hf s. fuel f.
    destruct (IH u f f ltac:(lia) ltac:(lia) s 0 0%nat) as [(p & s' & -> & Hr)|H]; [left; eauto|].
    destruct H as (p & s' & -> & Hk & Hr). right. exists p, s'. auto.
  - (* Rep1 *) intros id g src n l cc m tr1 tr2 _ [F1 IH1] _ [F2 IH2].
    exists (S (F1 + F2)). intros u f Hf s. fuel f.
    destruct (IH1 u f ltac:(lia) s) as [(p & s' & -> & Hr)|H].
    { left. do 2 eexists. split; [reflexivity|apply run_panic_app; exact Hr]. }
    destruct H as (s1 & -> & _ & Hr1).
    destruct (IH2 u f f ltac:(lia) ltac:(lia) s1 0 0%nat) as [(p & s' & -> & Hr)|H].
    { left. do 2 eexists. split; [reflexivity|eapply run_ok_panic; eauto]. }
    destruct H as (s2 & -> & Hr2). right. exists (set_len id (0 + cc + 1) s2).
    split; [reflexivity|]. split; [cbn [glen set_len lens]; rewrite Nat.eqb_refl; lia|].
    eapply run_ok_ok; [exact Hr1|exact Hr2].
  - intros id g src n l k tr1 tr2 _ [F1 IH1] _ [F2 IH2].
    exists (S (F1 + F2)). intros u f Hf s. fuel f.
    destruct (IH1 u f ltac:(lia) s) as [(p & s' & -> & Hr)|H].
    { left. do 2 eexists. split; [reflexivity|apply run_panic_app; exact Hr]. }
    destruct H as (s1 & -> & _ & Hr1).
    destruct (IH2 u f f ltac:(lia) ltac:(lia) s1 0 0%nat) as [(p & s' & -> & Hr)|H].
    { left. do 2 eexists. split; [reflexivity|eapply run_ok_panic; eauto]. }
    destruct H as (p & s2 & -> & Hk & Hr2). right. exists p, s2.
    split; [reflexivity|]. split; [exact Hk|]. eapply run_ok_open; eauto.
  - intros id g src o tr _ [F IH] Hno. exists (S F). intros u f Hf s. fuel f.
    destruct (IH u f ltac:(lia) s) as [(p & s' & -> & Hr)|H]; [left; eauto|].
    destruct o as [n l| |k]; simpl in Hno; [tauto| |].
    + destruct H as (n & e & s' & -> & Hr). right. do 3 eexists. split; [reflexivity|exact Hr].
    + destruct H as (p & s' & -> & Hk & Hr). right. exists p, s'. auto.
  - (* Rep01 *) intros id g src o tr _ [F IH]. exists (S F). intros u f Hf s. fuel f.
    destruct (IH u f ltac:(lia) s) as [(p & s' & -> & Hr)|H]; [left; eauto|].
    destruct o as [n l| |k]; simpl.
    + destruct H as (s' & -> & _ & Hr). right. exists (set_len id 1 s'). simpl.
      rewrite Nat.eqb_refl. repeat split. exact Hr.
    + destruct H as (n & e & s' & -> & Hr). right. exists (set_len id 0 s'). simpl.
      rewrite Nat.eqb_refl. repeat split. exact Hr.
    + destruct H as (p & s' & -> & Hk & Hr). right. exists p, s'. auto.
  - (* List *) intros id a b l0 src n l cc m tr1 tr2 _ [F1 IH1] _ [F2 IH2].
    exists (S (F1 + F2)). intros u f Hf s. fuel f.
    destruct (IH1 u f ltac:(lia) s) as [(p & s' & -> & Hr)|H].
    { left. do 2 eexists. split; [reflexivity|apply run_panic_app; exact Hr]. }
    destruct H as (s1 & -> & _ & Hr1).
    destruct (IH2 u f f ltac:(lia) ltac:(lia) s1 1 n) as [(p & s' & -> & Hr)|H].
    { left. do 2 eexists. split; [reflexivity|eapply run_ok_panic; eauto]. }
    destruct H as (s2 & -> & Hr2). right. exists (set_len id (1 + cc) s2).
    split; [reflexivity|]. split; [cbn [glen set_len lens]; rewrite Nat.eqb_refl; lia|].
    eapply run_ok_ok; [exact Hr1|exact Hr2].
  - intros id a b l0 src n l k tr1 tr2 _ [F1 IH1] _ [F2 IH2].
    exists (S (F1 + F2)). intros u f Hf s. fuel f.
    destruct (IH1 u f ltac:(lia) s) as [(p & s' & -> & Hr)|H].
    { left. do 2 eexists. split; [reflexivity|apply run_panic_app; exact Hr]. }
    destruct H as (s1 & -> & _ & Hr1).
    destruct (IH2 u f f ltac:(lia) ltac:(lia) s1 1 n) as [(p & s' & -> & Hr)|H].
    { left. do 2 eexists. split; [reflexivity|eapply run_ok_panic; eauto]. }
    destruct H as (p & s2 & -> & Hk & Hr2). right. exists p, s2.
    split; [reflexivity|]. split; [exact Hk|]. eapply run_ok_open; eauto.
  - intros id a b src tr _ [F IH]. exists (S F). intros u f Hf s. fuel f.
    destruct (IH u f ltac:(lia) s) as [(p & s' & -> & Hr)|H]; [left; eauto|].
    destruct H as (n & e & s' & -> & Hr). right. do 3 eexists. split; [reflexivity|exact Hr].
  - intros id a b src tr _ [F IH]. exists (S F). intros u f Hf s. fuel f.
    destruct (IH u f ltac:(lia) s) as [(p & s' & -> & Hr)|H]; [left; eauto|].
    destruct H as (n & e & s' & -> & Hr). right. exists (set_len id 0 s'). simpl.
    rewrite Nat.eqb_refl. repeat split. exact Hr.
  - intros id a b l0 src k tr _ [F IH]. exists (S F). intros u f Hf s. fuel f.
    destruct (IH u f ltac:(lia) s) as [(p & s' & -> & Hr)|H]; [left; eauto|].
    destruct H as (p & s' & -> & Hk & Hr). right. exists p, s'. auto.
  - (* Var *) intros v g src o tr He _ [F IH]. exists (S F). intros u f Hf s. fuel f. rewrite He.
    destruct (IH u f ltac:(lia) s) as [H|H]; [left; exact H|right].
    destruct o as [n l| |k]; simpl in *; [|exact H|exact H].
    destruct H as (s' & H & _ & Hr). exists s'. auto.
  - intros v src He. exists 1%nat. intros u f Hf s. fuel f. rewrite He.
    right. do 3 eexists. split; [reflexivity|apply run_ok_nil].
  - intros v g src o tr _ [F IH]. exists (S F). intros u f Hf s. fuel f.
    destruct (IH u f ltac:(lia) s) as [H|H]; [left; exact H|right].
    destruct o as [n l| |k]; simpl in *; [|exact H|exact H].
    destruct H as (s' & H & _ & Hr). exists s'. auto.
  - (* Act *) intros g a src n l tr _ [F IH]. exists (S F). intros u f Hf s. fuel f.
    destruct (IH u f ltac:(lia) s) as [(p & s' & -> & Hr)|H].
    { left. do 2 eexists. split; [reflexivity|apply run_panic_app; exact Hr]. }
    destruct H as (s1 & -> & Hl & Hr1). cbn [lift c_act]. rewrite Hl.
    destruct (u_act u a (firstn n src) l (ust s1)) as [x|[p x]] eqn:Ha.
    + right. exists (mkSt (lens s1) x). split; [reflexivity|]. split.
      * cbn [glen]. rewrite <- Hl.
        assert (Hg : forall g' : gr A T, glen (mkSt (lens s1) x) g' = glen s1 g').
        { induction g' using gr_ind'; simpl; congruence. }
        apply Hg.
      * eapply run_ok_ok; [exact Hr1|]. intro vs. simpl. rewrite Ha. reflexivity.
    + left. exists p, (mkSt (lens s1) x). split; [reflexivity|].
      eapply run_ok_panic; [exact Hr1|]. intro vs. simpl. rewrite Ha. reflexivity.
  - intros g a src o tr _ [F IH] Hno. exists (S F). intros u f Hf s. fuel f.
    destruct (IH u f ltac:(lia) s) as [(p & s' & -> & Hr)|H]; [left; eauto|].
    destruct o as [n l| |k]; simpl in Hno; [tauto| |].
    + destruct H as (n & e & s' & -> & Hr). right. do 3 eexists. split; [reflexivity|exact Hr].
    + destruct H as (p & s' & -> & Hk & Hr). right. exists p, s'. auto.
  - (* Trans *) intros g t src o tr _ [F IH]. exists (S F). intros u f Hf s. fuel f.
    cbn [lift c_begin c_end].
    destruct (u_begin u t (ust s)) as [v x0] eqn:Hb.
    assert (Hrun : forall tr' vs, run u (EvBegin t :: tr') vs (ust s) = run u tr' (v :: vs) x0)
      by (intros; simpl; rewrite Hb; reflexivity).
    destruct (IH u f ltac:(lia) (mkSt (lens s) x0)) as [(p & s' & -> & Hr)|H].
    { left. do 2 eexists. split; [reflexivity|]. intro vs. rewrite Hrun, run_app.
      specialize (Hr (v :: vs)). simpl in Hr. rewrite Hr. reflexivity. }
    right. destruct o as [n l| |k]; simpl.
    + destruct H as (s1 & -> & Hl & Hr). eexists. split; [reflexivity|]. split.
      * rewrite <- Hl.
        match goal with |- glen ?s2 g = _ =>
          assert (Hg : forall g' : gr A T, glen s2 g' = glen s1 g')
            by (induction g' using gr_ind'; simpl; congruence) end.
        apply Hg.
      * intro vs. rewrite Hrun, run_app. specialize (Hr (v :: vs)). simpl in Hr. rewrite Hr.
        reflexivity.
    + destruct H as (n & e & s1 & -> & Hr). do 3 eexists. split; [reflexivity|].
      intro vs. rewrite Hrun, run_app. specialize (Hr (v :: vs)). simpl in Hr. rewrite Hr.
      reflexivity.
    + destruct H as (p & s1 & -> & Hk & ws & Hr). exists p, s1. split; [reflexivity|].
      split; [exact Hk|]. exists (ws ++ [v]). intro vs. rewrite Hrun, app_nil_r.
      specialize (Hr (v :: vs)). simpl in Hr. rewrite Hr, <- app_assoc. reflexivity.
  - (* S_nil *) intros p src0 ff src. exists 0%nat. intros u f Hf s n Hs. right. exists s.
    simpl. rewrite Nat.add_0_r. repeat split.
  - intros p src0 gs ff src o tr _ [F IH]. exists F. intros u f Hf s n Hs. simpl.
    apply IH; assumption.
  - (* S_ok *) intros p src0 g gs ff src n l o tr1 tr2 Hg _ [F1 IH1] _ [F2 IH2].
    exists (F1 + F2)%nat. intros u f Hf s n0 Hs.
    assert (He : and_loop (gm u f) p src0 (g :: gs) ff n0 s =
      match gm u f g (skipn n0 src0) s with
      | Ret n1 None s1 => and_loop (gm u f) p src0 gs ff (n0 + n1) s1
      | Ret n1 (Some e) s1 =>
          if ff then Panic (PMatch (MErr p src0 (Some e) (n0 + n1))) s1
          else Ret (n0 + n1) (Some e) s1
      | r => r
      end) by (destruct g; try reflexivity; congruence).
    rewrite He, Hs.
    destruct (IH1 u f ltac:(lia) s) as [(q & s' & -> & Hr)|H].
    { left. do 2 eexists. split; [reflexivity|apply run_panic_app; exact Hr]. }
    destruct H as (s1 & -> & _ & Hr1).
    destruct (IH2 u f ltac:(lia) s1 (n0 + n)%nat) as [(q & s' & -> & Hr)|H].
    { rewrite <- skipn_skipn', Hs. reflexivity. }
    { left. do 2 eexists. split; [reflexivity|eapply run_ok_panic; eauto]. }
    right. destruct o as [m l'| |k]; simpl in *.
    + destruct H as (s2 & -> & _ & Hr2). exists s2.
      rewrite Nat.add_assoc. repeat split. eapply run_ok_ok; eauto.
    + destruct H as (m & e & s2 & -> & Hr2). do 3 eexists. split; [reflexivity|].
      eapply run_ok_ok; eauto.
    + destruct H as (q & s2 & -> & Hk & Hr2). do 2 eexists. split; [reflexivity|].
      split; [exact Hk|]. eapply run_ok_open; eauto.
  - (* S_fail *) intros p src0 g gs src tr Hg _ [F IH]. exists F. intros u f Hf s n0 Hs.
    assert (He : and_loop (gm u f) p src0 (g :: gs) false n0 s =
      match gm u f g (skipn n0 src0) s with
      | Ret n1 None s1 => and_loop (gm u f) p src0 gs false (n0 + n1) s1
      | Ret n1 (Some e) s1 => Ret (n0 + n1) (Some e) s1
      | r => r
      end) by (destruct g; try reflexivity; congruence).
    rewrite He, Hs.
    destruct (IH u f Hf s) as [(q & s' & -> & Hr)|H]; [left; eauto|].
    destruct H as (m & e & s2 & -> & Hr2). right. do 3 eexists. split; [reflexivity|exact Hr2].
  - (* S_failfast *) intros p src0 g gs src tr Hg _ [F IH]. exists F. intros u f Hf s n0 Hs.
    assert (He : and_loop (gm u f) p src0 (g :: gs) true n0 s =
      match gm u f g (skipn n0 src0) s with
      | Ret n1 None s1 => and_loop (gm u f) p src0 gs true (n0 + n1) s1
      | Ret n1 (Some e) s1 => Panic (PMatch (MErr p src0 (Some e) (n0 + n1))) s1
      | r => r
      end) by (destruct g; try reflexivity; congruence).
    rewrite He, Hs.
    destruct (IH u f Hf s) as [(q & s' & -> & Hr)|H]; [left; eauto|].
    destruct H as (m & e & s2 & -> & Hr2). right. do 2 eexists. split; [reflexivity|].
    split; [do 2 eexists; reflexivity|apply run_ok_is_open; exact Hr2].
  - (* S_stop *) intros p src0 g gs ff src k tr Hg _ [F IH]. exists F. intros u f Hf s n0 Hs.
    assert (He : and_loop (gm u f) p src0 (g :: gs) ff n0 s =
      match gm u f g (skipn n0 src0) s with
      | Ret n1 None s1 => and_loop (gm u f) p src0 gs ff (n0 + n1) s1
      | Ret n1 (Some e) s1 =>
          if ff then Panic (PMatch (MErr p src0 (Some e) (n0 + n1))) s1
          else Ret (n0 + n1) (Some e) s1
      | r => r
      end) by (destruct g; try reflexivity; congruence).
    rewrite He, Hs.
    destruct (IH u f Hf s) as [(q & s' & -> & Hr)|H]; [left; eauto|].
    destruct H as (q & s2 & -> & Hk & Hr2). right. do 2 eexists. split; [reflexivity|]. auto.
  - (* A_nil *) intros src. exists 0%nat. intros u f Hf s p nm em me Hme. simpl. right.
    destruct me.
    + do 3 eexists. split; [reflexivity|apply run_ok_nil].
    + destruct em as [e|]; [|exfalso; apply Hme; reflexivity].
      do 3 eexists. split; [reflexivity|apply run_ok_nil].
  - intros g gs src n l tr _ [F IH]. exists F. intros u f Hf s p nm em me Hme. simpl.
    destruct (IH u f Hf s) as [(q & s' & -> & Hr)|H]; [left; eauto|].
    destruct H as (s1 & -> & _ & Hr1). right. exists s1. repeat split. exact Hr1.
  - (* A_next *) intros g gs src o tr1 tr2 _ [F1 IH1] _ [F2 IH2].
    exists (F1 + F2)%nat. intros u f Hf s p nm em me Hme. simpl.
    destruct (IH1 u f ltac:(lia) s) as [(q & s' & -> & Hr)|H].
    { left. do 2 eexists. split; [reflexivity|apply run_panic_app; exact Hr]. }
    destruct H as (n1 & e & s1 & -> & Hr1).
    assert (Hx : forall nm' em' me', (me' = false -> em' <> None) ->
      expect u (with_len 0 o) (tr1 ++ tr2) nolen s (or_loop (gm u f) p src gs nm' em' me' s1)).
    { intros nm' em' me' Hme'.
      destruct (IH2 u f ltac:(lia) s1 p nm' em' me' Hme') as [(q & s' & -> & Hr)|H].
      { left. do 2 eexists. split; [reflexivity|eapply run_ok_panic; eauto]. }
      right. destruct o as [m l'| |k]; simpl in *.
      + destruct H as (s2 & -> & _ & Hr2). exists s2. repeat split. eapply run_ok_ok; eauto.
      + destruct H as (m & e' & s2 & -> & Hr2). do 3 eexists. split; [reflexivity|].
        eapply run_ok_ok; eauto.
      + destruct H as (q & s2 & -> & Hk & Hr2). do 2 eexists. split; [reflexivity|].
        split; [exact Hk|]. eapply run_ok_open; eauto. }
    destruct (nm <=? n1)%nat; [destruct (n1 =? nm)%nat|]; apply Hx; try discriminate; exact Hme.
  - intros g gs src k tr _ [F IH]. exists F. intros u f Hf s p nm em me Hme. simpl.
    destruct (IH u f Hf s) as [(q & s' & -> & Hr)|H]; [left; eauto|].
    destruct H as (q & s2 & -> & Hk & Hr2). right. do 2 eexists. split; [reflexivity|]. auto.
  - (* R_end *) intros g src tr _ [F IH]. exists (S F). intros u f k Hf Hk s cnt n0.
    destruct k as [|k]; [lia|]. simpl.
    destruct (IH u f ltac:(lia) s) as [(q & s' & -> & Hr)|H]; [left; eauto|].
    destruct H as (n1 & e & s1 & -> & Hr1). right. exists s1.
    rewrite Z.add_0_r, Nat.add_0_r. auto.
  - (* R_more *) intros g src n l cc m tr1 tr2 _ [F1 IH1] _ [F2 IH2].
    exists (S (F1 + F2)). intros u f k Hf Hk s cnt n0.
    destruct k as [|k]; [lia|]. simpl.
    destruct (IH1 u f ltac:(lia) s) as [(q & s' & -> & Hr)|H].
    { left. do 2 eexists. split; [reflexivity|apply run_panic_app; exact Hr]. }
    destruct H as (s1 & -> & _ & Hr1).
    destruct (IH2 u f k ltac:(lia) ltac:(lia) s1 (cnt + 1) (n0 + n)%nat) as [(q & s' & -> & Hr)|H].
    { left. do 2 eexists. split; [reflexivity|eapply run_ok_panic; eauto]. }
    destruct H as (s2 & -> & Hr2). right. exists s2. split.
    + f_equal; lia.
    + eapply run_ok_ok; eauto.
  - intros g src n l k tr1 tr2 _ [F1 IH1] _ [F2 IH2].
    exists (S (F1 + F2)). intros u f k' Hf Hk' s cnt n0.
    destruct k' as [|k']; [lia|]. simpl.
    destruct (IH1 u f ltac:(lia) s) as [(q & s' & -> & Hr)|H].
    { left. do 2 eexists. split; [reflexivity|apply run_panic_app; exact Hr]. }
    destruct H as (s1 & -> & _ & Hr1).
    destruct (IH2 u f k' ltac:(lia) ltac:(lia) s1 (cnt + 1) (n0 + n)%nat) as [(q & s' & -> & Hr)|H].
    { left. do 2 eexists. split; [reflexivity|eapply run_ok_panic; eauto]. }
    destruct H as (q & s2 & -> & Hk & Hr2). right. do 2 eexists. split; [reflexivity|].
    split; [exact Hk|]. eapply run_ok_open; eauto.
  - intros g src k tr _ [F IH]. exists (S F). intros u f k' Hf Hk' s cnt n0.
    destruct k' as [|k']; [lia|]. simpl.
    destruct (IH u f ltac:(lia) s) as [(q & s' & -> & Hr)|H]; [left; eauto|].
    destruct H as (q & s2 & -> & Hk & Hr2). right. do 2 eexists. split; [reflexivity|]. auto.
Qed.
Lemma sim_all : forall u,
  (forall g src o tr, peg env g src o tr -> exists F, forall f, (F <= f)%nat -> forall s, expect u o tr (fun s => glen s g) s (gm u f g src s)) /\
  (forall p src0 gs ff src o tr, peg_seq env p src0 gs ff src o tr -> exists F, forall f, (F <= f)%nat -> forall s n, skipn n src0 = src ->
    expect u (shift n (with_len 0 o)) tr nolen s (and_loop (gm u f) p src0 gs ff n s)) /\
  (forall gs src o tr, peg_alt env gs src o tr -> exists F, forall f, (F <= f)%nat -> forall s p nm em me, (me = false -> em <> None) ->
    expect u (with_len 0 o) tr nolen s (or_loop (gm u f) p src gs nm em me s)) /\
  (forall g src o tr, peg_rep env g src o tr -> exists F, forall f k, (F <= f)%nat -> (F <= k)%nat -> forall s cnt n0,
    lexpect u o tr cnt n0 s (rep_loop k (gm u f) g src cnt n0 s)).
Proof.
  intro u. destruct sim_uniform as (H1 & H2 & H3 & H4). repeat split.
  - intros g src o tr H. destruct (H1 g src o tr H) as (F & HF). exists F. apply HF.
  - intros p src0 gs ff src o tr H. destruct (H2 p src0 gs ff src o tr H) as (F & HF). exists F. apply HF.
  - intros gs src o tr H. destruct (H3 gs src o tr H) as (F & HF). exists F. apply HF.
  - intros g src o tr H. destruct (H4 g src o tr H) as (F & HF). exists F. apply HF.
Qed.
End Uniform.
