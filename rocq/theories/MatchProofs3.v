(** Bounds, independence from old lengths, ordered choice, non-termination, laws. *)
From Verif Require Import Base Token Grammar PegSpec MatchProofs MatchProofs2.

(** * Bounds, for every client (also one whose actions change grammar objects). *)
Section Bounds.
Context {A T P U V : Type}.
Variable env : bytes -> option (gr A T).
Variable c : client A T P U V.
Notation gm := (gmatch env c).

Lemma bounds : forall f g src s n err s',
  gm f g src s = Ret n err s' -> (n <= length src)%nat.
Proof.
  induction f as [|f IH]; intros g src s n err s' H; [discriminate|].
  assert (Hand : forall p src0 gs ff n0 s0, (n0 <= length src0)%nat ->
    and_loop (gm f) p src0 gs ff n0 s0 = Ret n err s' -> (n <= length src0)%nat).
  { intros p src0 gs. induction gs as [|g1 gs IHg]; intros ff n0 s0 Hn0 H0.
    - simpl in H0. inversion H0; subst. exact Hn0.
    - assert (Hd : g1 = GNil \/ g1 <> GNil) by (destruct g1; auto; right; discriminate).
      destruct Hd as [->|Hd]; [eapply IHg; [exact Hn0|exact H0]|].
      assert (He : and_loop (gm f) p src0 (g1 :: gs) ff n0 s0 =
        match gm f g1 (skipn n0 src0) s0 with
        | Ret n1 None s1 => and_loop (gm f) p src0 gs ff (n0 + n1) s1
        | Ret n1 (Some e) s1 =>
            if ff then Panic (PMatch (MErr p src0 (Some e) (n0 + n1))) s1
            else Ret (n0 + n1) (Some e) s1
        | r => r
        end) by (destruct g1; try reflexivity; congruence).
      rewrite He in H0. clear He.
      destruct (gm f g1 (skipn n0 src0) s0) as [n1 [e|] s1|q s1|] eqn:E; try discriminate.
      + apply IH in E. rewrite skipn_length in E.
        destruct ff; [discriminate|]. inversion H0; subst. lia.
      + apply IH in E. rewrite skipn_length in E. eapply IHg; [|exact H0]. lia. }
  assert (Hor : forall p gs nm em me s0, (nm <= length src)%nat ->
    or_loop (gm f) p src gs nm em me s0 = Ret n err s' -> (n <= length src)%nat).
  { intros p gs. induction gs as [|g1 gs IHg]; intros nm em me s0 Hnm H0; simpl in H0.
    - inversion H0; subst. exact Hnm.
    - destruct (gm f g1 src s0) as [n1 [e|] s1|q s1|] eqn:E; try discriminate.
      + apply IH in E.
        destruct (nm <=? n1)%nat; [destruct (n1 =? nm)%nat|]; eapply IHg; try exact H0; assumption.
      + inversion H0; subst. eapply IH; eauto. }
  assert (Hrep : forall k g1 src1 cnt n0 s0 cnt' m s1,
    rep_loop k (gm f) g1 src1 cnt n0 s0 = LRet cnt' m s1 -> (m <= n0 + length src1)%nat).
  { induction k as [|k IHk]; intros g1 src1 cnt n0 s0 cnt' m s1 H0; [discriminate|].
    simpl in H0. destruct (gm f g1 src1 s0) as [n1 [e|] s2|q s2|] eqn:E; try discriminate.
    - inversion H0; subst. lia.
    - apply IH in E. apply IHk in H0. rewrite skipn_length in H0. lia. }
  simpl in H. destruct g; simpl in H.
  - discriminate.
  - destruct src as [|t src]; [inversion H; lia|].
    destruct (_ || _); inversion H; simpl; lia.
  - inversion H; lia.
  - destruct (gm f g src s) as [n1 [e|] s1|q s1|] eqn:E; inversion H; lia.
  - destruct (gm f g src s) as [n1 [e|] s1|q s1|] eqn:E; inversion H; lia.
  - destruct src; inversion H; lia.
  - eapply Hand; [|exact H]. lia.
  - eapply Hor; [|exact H]. lia.
  - destruct (rep_loop f (gm f) g src 0 0 s) eqn:E; inversion H; subst.
    apply Hrep in E. lia.
  - destruct (gm f g src s) as [n1 [e|] s1|q s1|] eqn:E; try discriminate.
    + inversion H; subst. eapply IH; eauto.
    + destruct (rep_loop f (gm f) g (skipn n1 src) 0 0 s1) eqn:E2; inversion H; subst.
      apply Hrep in E2. apply IH in E. rewrite skipn_length in E2. lia.
  - destruct (gm f g src s) as [n1 [e|] s1|q s1|] eqn:E; inversion H; subst; try lia.
    eapply IH; eauto.
  - destruct (gm f g1 src s) as [n1 [e|] s1|q s1|] eqn:E; try discriminate.
    + destruct list0; inversion H; subst; [lia|]. eapply IH; eauto.
    + destruct (rep_loop f (gm f) (GAnd [g2; g1]) (skipn n1 src) 1 n1 s1) eqn:E2; inversion H; subst.
      apply Hrep in E2. apply IH in E. rewrite skipn_length in E2. lia.
  - destruct (env name); [eapply IH; eauto|]. inversion H; lia.
  - eapply IH; eauto.
  - destruct (gm f g src s) as [n1 [e|] s1|q s1|] eqn:E; try discriminate.
    + inversion H; subst. eapply IH; eauto.
    + destruct (c_act c a (firstn n1 src) (glen s1 g) s1); inversion H; subst. eapply IH; eauto.
  - destruct (c_begin c t s) as [v s0].
    destruct (gm f g src s0) as [n1 err1 s1|q s1|] eqn:E; inversion H; subst. eapply IH; eauto.
Qed.
End Bounds.

(** * Results do not depend on the lengths left by earlier matches. *)
Section Indep.
Context {A T P U V : Type}.
Variable env : bytes -> option (gr A T).
Variable u : uclient A T P U V.
Notation gm := (gmatch env (lift u)).

(** Equal up to the stored lengths; after a success the matched grammar's own Len agrees too. *)
Definition same (g : gr A T) (r r' : res A T P U) : Prop :=
  match r, r' with
  | Ret n err s, Ret n' err' s' =>
      n = n' /\ err = err' /\ ust s = ust s' /\ (err = None -> glen s g = glen s' g)
  | Panic p s, Panic p' s' => p = p' /\ ust s = ust s'
  | OutOfFuel, OutOfFuel => True
  | _, _ => False
  end.
Definition samel (r r' : lres A T P U) : Prop :=
  match r, r' with
  | LRet c n s, LRet c' n' s' => c = c' /\ n = n' /\ ust s = ust s'
  | LPanic p s, LPanic p' s' => p = p' /\ ust s = ust s'
  | LOutOfFuel, LOutOfFuel => True
  | _, _ => False
  end.
(** [same] without the length clause. *)
Definition sameu (r r' : res A T P U) : Prop :=
  match r, r' with
  | Ret n err s, Ret n' err' s' => n = n' /\ err = err' /\ ust s = ust s'
  | Panic p s, Panic p' s' => p = p' /\ ust s = ust s'
  | OutOfFuel, OutOfFuel => True
  | _, _ => False
  end.

Lemma glen_set : forall (g : gr A T) ls (x y : U), glen (mkSt ls x) g = glen (mkSt ls y) g.
Proof. induction g using gr_ind'; intros; simpl; auto. Qed.

Lemma glen_lens : forall (g : gr A T) (s : st U) (x : U), glen (mkSt (lens s) x) g = glen s g.
Proof. induction g using gr_ind'; intros; simpl; auto. Qed.

Lemma indep : forall f g src s s', ust s = ust s' -> same g (gm f g src s) (gm f g src s').
Proof.
  induction f as [|f IH]; intros g src s s' Hs; [exact I|].
  assert (Hand : forall p src0 gs ff n0 s1 s2, ust s1 = ust s2 ->
    sameu (and_loop (gm f) p src0 gs ff n0 s1) (and_loop (gm f) p src0 gs ff n0 s2)).
  { intros p src0 gs. induction gs as [|g1 gs IHg]; intros ff n0 s1 s2 H12; [simpl; auto|].
    assert (Hd : g1 = GNil \/ g1 <> GNil) by (destruct g1; auto; right; discriminate).
    destruct Hd as [->|Hd]; [apply IHg; exact H12|].
    assert (He : forall s0, and_loop (gm f) p src0 (g1 :: gs) ff n0 s0 =
      match gm f g1 (skipn n0 src0) s0 with
      | Ret n1 None s1 => and_loop (gm f) p src0 gs ff (n0 + n1) s1
      | Ret n1 (Some e) s1 =>
          if ff then Panic (PMatch (MErr p src0 (Some e) (n0 + n1))) s1
          else Ret (n0 + n1) (Some e) s1
      | r => r
      end) by (intro; destruct g1; try reflexivity; congruence).
    rewrite !He. pose proof (IH g1 (skipn n0 src0) s1 s2 H12) as Hsm.
    destruct (gm f g1 (skipn n0 src0) s1) as [n1 [e1|] t1|q1 t1|],
             (gm f g1 (skipn n0 src0) s2) as [n2 [e2|] t2|q2 t2|]; simpl in Hsm;
      try (exfalso; tauto); try (exfalso; destruct Hsm as (_ & Hx & _); discriminate).
    - destruct Hsm as (-> & Hx & Hu & _). inversion Hx; subst. destruct ff; simpl; auto.
    - destruct Hsm as (-> & _ & Hu & _). apply IHg. exact Hu.
    - exact Hsm.
    - exact I. }
  assert (Hor : forall p gs nm em me s1 s2, ust s1 = ust s2 ->
    sameu (or_loop (gm f) p src gs nm em me s1) (or_loop (gm f) p src gs nm em me s2)).
  { intros p gs. induction gs as [|g1 gs IHg]; intros nm em me s1 s2 H12; [simpl; auto|].
    simpl. pose proof (IH g1 src s1 s2 H12) as Hsm.
    destruct (gm f g1 src s1) as [n1 [e1|] t1|q1 t1|],
             (gm f g1 src s2) as [n2 [e2|] t2|q2 t2|]; simpl in Hsm;
      try (exfalso; tauto); try (exfalso; destruct Hsm as (_ & Hx & _); discriminate).
    - destruct Hsm as (-> & Hx & Hu & _). inversion Hx; subst.
      destruct (nm <=? n2)%nat; [destruct (n2 =? nm)%nat|]; apply IHg; exact Hu.
    - destruct Hsm as (-> & _ & Hu & _). simpl. auto.
    - exact Hsm.
    - exact I. }
  assert (Hrep : forall k g1 src1 cnt n0 s1 s2, ust s1 = ust s2 ->
    samel (rep_loop k (gm f) g1 src1 cnt n0 s1) (rep_loop k (gm f) g1 src1 cnt n0 s2)).
  { induction k as [|k IHk]; intros g1 src1 cnt n0 s1 s2 H12; [exact I|].
    simpl. pose proof (IH g1 src1 s1 s2 H12) as Hsm.
    destruct (gm f g1 src1 s1) as [n1 [e1|] t1|q1 t1|],
             (gm f g1 src1 s2) as [n2 [e2|] t2|q2 t2|]; simpl in Hsm;
      try (exfalso; tauto); try (exfalso; destruct Hsm as (_ & Hx & _); discriminate).
    - destruct Hsm as (-> & Hx & Hu & _). simpl. auto.
    - destruct Hsm as (-> & _ & Hu & _). apply IHk. exact Hu.
    - exact Hsm.
    - exact I. }
  assert (Hsub : forall g1 src1 s1 s2, ust s1 = ust s2 ->
    (exists n t1 t2, gm f g1 src1 s1 = Ret n None t1 /\ gm f g1 src1 s2 = Ret n None t2 /\
       ust t1 = ust t2 /\ glen t1 g1 = glen t2 g1) \/
    (exists n e t1 t2, gm f g1 src1 s1 = Ret n (Some e) t1 /\ gm f g1 src1 s2 = Ret n (Some e) t2 /\
       ust t1 = ust t2) \/
    (exists p t1 t2, gm f g1 src1 s1 = Panic p t1 /\ gm f g1 src1 s2 = Panic p t2 /\
       ust t1 = ust t2) \/
    (gm f g1 src1 s1 = OutOfFuel /\ gm f g1 src1 s2 = OutOfFuel)).
  { intros g1 src1 s1 s2 H12. pose proof (IH g1 src1 s1 s2 H12) as Hsm.
    destruct (gm f g1 src1 s1) as [n1 [e1|] t1|q1 t1|],
             (gm f g1 src1 s2) as [n2 [e2|] t2|q2 t2|]; simpl in Hsm;
      try (exfalso; tauto); try (exfalso; destruct Hsm as (_ & Hx & _); discriminate).
    - destruct Hsm as (-> & Hx & Hu & _). inversion Hx; subst. right; left. do 4 eexists; eauto.
    - destruct Hsm as (-> & _ & Hu & Hg). left. do 3 eexists; eauto.
    - destruct Hsm as (-> & Hu). right; right; left. do 3 eexists; eauto.
    - right; right; right; auto. }
  simpl. destruct g; simpl.
  - auto.
  - destruct src as [|t src]; [simpl; auto|].
    destruct (_ || _); simpl; auto.
  - auto.
  - destruct (Hsub g src s s' Hs) as [(n & t1 & t2 & -> & -> & Hu & Hg)|
      [(n & e & t1 & t2 & -> & -> & Hu)|[(p & t1 & t2 & -> & -> & Hu)|[-> ->]]]]; simpl; auto.
  - destruct (Hsub g src s s' Hs) as [(n & t1 & t2 & -> & -> & Hu & Hg)|
      [(n & e & t1 & t2 & -> & -> & Hu)|[(p & t1 & t2 & -> & -> & Hu)|[-> ->]]]]; simpl; auto.
  - destruct src; simpl; auto.
  - pose proof (Hand (GAnd gs) src gs false 0%nat s s' Hs) as H.
    destruct (and_loop _ _ _ _ _ _ s) as [n err s1|p s1|],
             (and_loop _ _ _ _ _ _ s') as [n' err' s1'|p' s1'|]; simpl in *; try tauto.
  - pose proof (Hor (GOr gs) gs 0%nat None true s s' Hs) as H.
    destruct (or_loop _ _ _ _ _ _ _ s) as [n err s1|p s1|],
             (or_loop _ _ _ _ _ _ _ s') as [n' err' s1'|p' s1'|]; simpl in *; try tauto.
  - pose proof (Hrep f g src 0 0%nat s s' Hs) as H.
    destruct (rep_loop _ _ _ _ _ _ s) as [c1 n1 s1|p1 s1|],
             (rep_loop _ _ _ _ _ _ s') as [c2 n2 s2|p2 s2|]; simpl in *; try tauto.
    destruct H as (-> & -> & Hu). rewrite Nat.eqb_refl. auto.
  - destruct (Hsub g src s s' Hs) as [(n & t1 & t2 & -> & -> & Hu & Hg)|
      [(n & e & t1 & t2 & -> & -> & Hu)|[(p & t1 & t2 & -> & -> & Hu)|[-> ->]]]]; simpl; auto.
    + pose proof (Hrep f g (skipn n src) 0 0%nat t1 t2 Hu) as H.
      destruct (rep_loop _ _ _ _ _ _ t1) as [c1 n1 s1|p1 s1|],
               (rep_loop _ _ _ _ _ _ t2) as [c2 n2 s2|p2 s2|]; simpl in *; try tauto.
      destruct H as (-> & -> & Hu'). rewrite Nat.eqb_refl. auto.
    + rewrite Nat.eqb_refl. auto.
  - destruct (Hsub g src s s' Hs) as [(n & t1 & t2 & -> & -> & Hu & Hg)|
      [(n & e & t1 & t2 & -> & -> & Hu)|[(p & t1 & t2 & -> & -> & Hu)|[-> ->]]]]; simpl; auto;
      rewrite Nat.eqb_refl; auto.
  - destruct (Hsub g1 src s s' Hs) as [(n & t1 & t2 & -> & -> & Hu & Hg)|
      [(n & e & t1 & t2 & -> & -> & Hu)|[(p & t1 & t2 & -> & -> & Hu)|[-> ->]]]]; simpl; auto.
    + pose proof (Hrep f (GAnd [g2; g1]) (skipn n src) 1 n t1 t2 Hu) as H.
      destruct (rep_loop _ _ _ _ _ _ t1) as [c1 n1 s1|p1 s1|],
               (rep_loop _ _ _ _ _ _ t2) as [c2 n2 s2|p2 s2|]; simpl in *; try tauto.
      destruct H as (-> & -> & Hu'). rewrite Nat.eqb_refl. auto.
    + destruct list0; simpl; rewrite Nat.eqb_refl; auto.
  - destruct (env name) as [g1|]; [|simpl; auto].
    destruct (Hsub g1 src s s' Hs) as [(n & t1 & t2 & -> & -> & Hu & Hg)|
      [(n & e & t1 & t2 & -> & -> & Hu)|[(p & t1 & t2 & -> & -> & Hu)|[-> ->]]]]; simpl; auto.
  - destruct (Hsub g src s s' Hs) as [(n & t1 & t2 & -> & -> & Hu & Hg)|
      [(n & e & t1 & t2 & -> & -> & Hu)|[(p & t1 & t2 & -> & -> & Hu)|[-> ->]]]]; simpl; auto.
  - destruct (Hsub g src s s' Hs) as [(n & t1 & t2 & -> & -> & Hu & Hg)|
      [(n & e & t1 & t2 & -> & -> & Hu)|[(p & t1 & t2 & -> & -> & Hu)|[-> ->]]]]; simpl; auto.
    + rewrite <- Hu, <- Hg.
      destruct (u_act u a (firstn n src) (glen t1 g) (ust t1)) as [x|[p x]]; simpl; auto.
      rewrite !glen_lens. auto.
    + repeat split; auto. discriminate.
  - rewrite <- Hs. destruct (u_begin u t (ust s)) as [v x].
    destruct (Hsub g src (mkSt (lens s) x) (mkSt (lens s') x) eq_refl)
      as [(n & t1 & t2 & -> & -> & Hu & Hg)|
      [(n & e & t1 & t2 & -> & -> & Hu)|[(p & t1 & t2 & -> & -> & Hu)|[-> ->]]]]; simpl; auto.
    + rewrite !glen_lens, <- Hu. auto.
    + rewrite <- Hu. repeat split; auto. discriminate.
Qed.
End Indep.

(** * Ordered choice: first success, furthest failure (for every client). *)
Section Or.
Context {A T P U V : Type}.
Variable env : bytes -> option (gr A T).
Variable c : client A T P U V.
Notation gm := (gmatch env c).

(** Alternatives [gs] all fail on [src], starting in state [s], with the given progress and errors,
    ending in state [s']. *)
Inductive all_fail (f : nat) (src : list token) : list (gr A T) -> st U -> list (nat * merr A T) -> st U -> Prop :=
| AF_nil : forall s, all_fail f src [] s [] s
| AF_cons : forall g gs s n e s1 es s2,
    gm f g src s = Ret n (Some e) s1 -> all_fail f src gs s1 es s2 ->
    all_fail f src (g :: gs) s ((n, e) :: es) s2.

(** Specification of the failure report of a choice: the largest progress, and the error of the
    alternative that alone made it, if that progress is positive. *)
Definition max_n (es : list (nat * merr A T)) : nat := fold_right Nat.max 0%nat (map fst es).

Definition furthest (p : gr A T) (src : list token) (es : list (nat * merr A T)) (n : nat) (e : merr A T) : Prop :=
  n = max_n es /\
  ((exists es1 es2, es = es1 ++ (n, e) :: es2 /\ (0 < n)%nat /\
      (forall x, In x (es1 ++ es2) -> (fst x < n)%nat))
   \/
   (e = MErr p src None 0%nat /\
     (n = 0%nat \/ exists es1 es2 es3 e1 e2, es = es1 ++ (n, e1) :: es2 ++ (n, e2) :: es3))).

Lemma or_loop_ok : forall f p src gs nm em me s n s',
  or_loop (gm f) p src gs nm em me s = Ret n None s' ->
  (me = false -> em <> None) ->
  exists gs1 g gs2 es s1, gs = gs1 ++ g :: gs2 /\ all_fail f src gs1 s es s1 /\
    gm f g src s1 = Ret n None s'.
Proof.
  intros f p src gs. induction gs as [|g gs IH]; intros nm em me s n s' H Hme; simpl in H.
  - exfalso. destruct me; [discriminate|]. inversion H; subst. apply Hme; reflexivity.
  - destruct (gm f g src s) as [n1 [e|] s1|q s1|] eqn:E; try discriminate.
    + assert (Hx : exists nm' em' me', (me' = false -> em' <> None) /\
        or_loop (gm f) p src gs nm' em' me' s1 = Ret n None s').
      { destruct (nm <=? n1)%nat; [destruct (n1 =? nm)%nat|]; do 3 eexists; (split; [|exact H]);
          try discriminate; exact Hme. }
      destruct Hx as (nm' & em' & me' & Hme' & H').
      destruct (IH _ _ _ _ _ _ H' Hme') as (gs1 & g1 & gs2 & es & s2 & -> & Haf & Hm).
      exists (g :: gs1), g1, gs2, ((n1, e) :: es), s2. split; [reflexivity|]. split; [|exact Hm].
      econstructor; eauto.
    + inversion H; subst. exists [], g, gs, [], s. split; [reflexivity|]. split; [constructor|exact E].
Qed.

(** State of the failure bookkeeping after seeing [es]. *)
Definition bk (p : gr A T) (src : list token) (es : list (nat * merr A T)) (nm : nat) (em : option (merr A T)) (me : bool) : Prop :=
  nm = max_n es /\
  (if me then nm = 0%nat \/ exists es1 es2 es3 e1 e2, es = es1 ++ (nm, e1) :: es2 ++ (nm, e2) :: es3
   else exists e es1 es2, em = Some e /\ es = es1 ++ (nm, e) :: es2 /\ (0 < nm)%nat /\
      (forall x, In x (es1 ++ es2) -> (fst x < nm)%nat)).

Lemma max_n_app : forall es es', max_n (es ++ es') = Nat.max (max_n es) (max_n es').
Proof.
  unfold max_n. induction es as [|x es IH]; intros es'; simpl; [lia|]. rewrite IH. lia.
Qed.

Lemma max_n_in : forall es x, In x es -> (fst x <= max_n es)%nat.
Proof.
  unfold max_n. induction es as [|y es IH]; intros x H; [destruct H|]; destruct H as [H|H]; simpl.
  - subst. lia.
  - apply IH in H. lia.
Qed.

Lemma max_n_ex : forall es, (0 < max_n es)%nat -> exists es1 e es2, es = es1 ++ (max_n es, e) :: es2.
Proof.
  induction es as [|[n e] es IH]; intros H; [unfold max_n in H; simpl in H; lia|].
  change (max_n ((n, e) :: es)) with (Nat.max n (max_n es)) in *.
  destruct (Nat.max_spec n (max_n es)) as [[Hlt ->]|[Hge ->]].
  - destruct IH as (es1 & e' & es2 & E); [lia|]. exists ((n, e) :: es1), e', es2.
    simpl. rewrite <- E. reflexivity.
  - exists [], e, es. reflexivity.
Qed.

Lemma or_loop_fail : forall f p src gs done nm em me s n e s',
  or_loop (gm f) p src gs nm em me s = Ret n (Some e) s' ->
  bk p src done nm em me ->
  exists es, all_fail f src gs s es s' /\ furthest p src (done ++ es) n e.
Proof.
  intros f p src gs. induction gs as [|g gs IH]; intros done nm em me s n e s' H Hbk; simpl in H.
  - exists []. rewrite app_nil_r. destruct Hbk as [Hm Hbk]. inversion H; subst. split; [constructor|].
    split; [reflexivity|]. destruct me.
    + right. inversion H2; subst. auto.
    + left. destruct Hbk as (e0 & es1 & es2 & -> & Hd & Hpos & Hall). inversion H2; subst. eauto.
  - destruct (gm f g src s) as [n1 [e1|] s1|q s1|] eqn:E; try discriminate.
    assert (Hx : exists nm' em' me', bk p src (done ++ [(n1, e1)]) nm' em' me' /\
        or_loop (gm f) p src gs nm' em' me' s1 = Ret n (Some e) s').
    { destruct Hbk as [Hm Hbk].
      assert (Hmax : max_n (done ++ [(n1, e1)]) = Nat.max nm n1).
      { rewrite max_n_app, <- Hm. unfold max_n. simpl. lia. }
      destruct (nm <=? n1)%nat eqn:E1; [destruct (n1 =? nm)%nat eqn:E2|].
      - apply Nat.leb_le in E1. apply Nat.eqb_eq in E2. subst n1.
        exists nm, em, true. split; [|exact H]. split; [lia|].
        destruct (Nat.eq_dec nm 0) as [|Hz]; [left; assumption|right].
        destruct me.
        + destruct Hbk as [Hz'|(a & b & d & x & y & Hd)]; [lia|].
          exists a, b, (d ++ [(nm, e1)]), x, y. rewrite Hd. rewrite <- !app_assoc. simpl.
          rewrite <- app_assoc. reflexivity.
        + destruct Hbk as (e0 & a & b & _ & Hd & _). exists a, b, [], e0, e1. rewrite Hd.
          rewrite <- app_assoc. reflexivity.
      - apply Nat.leb_le in E1. apply Nat.eqb_neq in E2.
        exists n1, (Some e1), false. split; [|exact H]. split; [lia|].
        exists e1, done, []. split; [reflexivity|]. split; [reflexivity|]. split; [lia|].
        intros x Hin. rewrite app_nil_r in Hin. apply max_n_in in Hin. lia.
      - apply Nat.leb_gt in E1.
        exists nm, em, me. split; [|exact H]. split; [lia|].
        destruct me.
        + destruct Hbk as [Hz'|(a & b & d & x & y & Hd)]; [left; lia|right].
          exists a, b, (d ++ [(n1, e1)]), x, y. rewrite Hd. rewrite <- !app_assoc. simpl.
          rewrite <- app_assoc. reflexivity.
        + destruct Hbk as (e0 & a & b & Hem & Hd & Hpos & Hall).
          exists e0, a, (b ++ [(n1, e1)]). split; [exact Hem|]. split.
          * rewrite Hd. rewrite <- app_assoc. reflexivity.
          * split; [exact Hpos|]. intros x Hin. rewrite app_assoc in Hin.
            apply in_app_or in Hin. destruct Hin as [Hin|[<-|[]]]; [apply Hall; exact Hin|simpl; lia]. }
    destruct Hx as (nm' & em' & me' & Hbk' & H').
    destruct (IH _ _ _ _ _ _ _ _ H' Hbk') as (es & Haf & Hfu).
    exists ((n1, e1) :: es). split; [econstructor; eauto|].
    rewrite <- app_assoc in Hfu. exact Hfu.
Qed.

Lemma or_success : forall f gs src s n s',
  gm (S f) (GOr gs) src s = Ret n None s' ->
  exists gs1 g gs2 es s1, gs = gs1 ++ g :: gs2 /\ all_fail f src gs1 s es s1 /\
    gm f g src s1 = Ret n None s'.
Proof. intros. eapply or_loop_ok; [exact H|discriminate]. Qed.

Lemma or_failure : forall f gs src s n e s',
  gm (S f) (GOr gs) src s = Ret n (Some e) s' ->
  exists es, all_fail f src gs s es s' /\ furthest (GOr gs) src es n e.
Proof.
  intros f gs src s n e s' H. simpl in H.
  destruct (or_loop_fail f (GOr gs) src gs [] 0%nat None true s n e s' H) as (es & H1 & H2); eauto.
  split; [reflexivity|left; reflexivity].
Qed.
End Or.

(** * Non-termination. *)
Section Nonterm.
Context {A T : Type}.
Variable env : bytes -> option (gr A T).

Lemma rep_empty_none : forall g src l tr0, peg env g src (OOk 0 l) tr0 ->
  forall o tr, ~ peg_rep env g src o tr.
Proof.
  intros g src l tr0 H0.
  assert (Hgen : forall g' src' o tr, peg_rep env g' src' o tr -> g' = g -> src' = src -> False).
  { intros g' src' o tr H. induction H; intros; subst.
    - destruct (peg_det env _ _ _ _ _ _ H0 H) as [E _]. discriminate.
    - destruct (peg_det env _ _ _ _ _ _ H0 H) as [E _]. inversion E; subst. auto.
    - destruct (peg_det env _ _ _ _ _ _ H0 H) as [E _]. inversion E; subst. auto.
    - destruct (peg_det env _ _ _ _ _ _ H0 H) as [E _]. discriminate. }
  intros o tr H. eapply Hgen; eauto.
Qed.

Context {P U V : Type}.

(** [lcall g g']: the first thing matching [g] does is to match [g'] at the same place. *)
Inductive lcall : gr A T -> gr A T -> Prop :=
| LC_peek : forall g, lcall (GPeek g) g
| LC_not : forall g, lcall (GNot g) g
| LC_and : forall g gs, g <> GNil -> lcall (GAnd (g :: gs)) g
| LC_or : forall g gs, lcall (GOr (g :: gs)) g
| LC_rep0 : forall id g, lcall (GRep0 id g) g
| LC_rep1 : forall id g, lcall (GRep1 id g) g
| LC_rep01 : forall id g, lcall (GRep01 id g) g
| LC_list : forall id a b l0, lcall (GList id a b l0) a
| LC_var : forall v g, env v = Some g -> lcall (GVar v) g
| LC_named : forall v g, lcall (GNamed v g) g
| LC_act : forall g a, lcall (GAct g a) g
| LC_trans : forall g t, lcall (GTrans g t) g.

Lemma left_rec : forall (c : client A T P U V) (C : gr A T -> Prop),
  (forall g, C g -> exists g', lcall g g' /\ C g') ->
  forall f g src s, C g -> gmatch env c f g src s = OutOfFuel.
Proof.
  intros c C HC f. induction f as [|f IH]; intros g src s Hg; [reflexivity|].
  destruct (HC g Hg) as (g' & Hl & Hg'). simpl.
  destruct Hl; simpl; try (rewrite IH by assumption; reflexivity).
  - destruct g; try congruence; simpl; rewrite IH by assumption; reflexivity.
  - destruct f as [|f]; [reflexivity|].
    cbn [rep_loop]. rewrite IH by assumption. reflexivity.
  - rewrite H. apply IH. exact Hg'.
  - destruct (c_begin c t s) as [v s0]. rewrite IH by assumption. reflexivity.
Qed.
End Nonterm.
