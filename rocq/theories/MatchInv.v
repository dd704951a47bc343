(** An induction principle for matching: what every client action preserves, matching preserves. *)
From Verif Require Import Base Token Grammar.

Section Inv.
Context {A T P U V : Type}.
Variable env : bytes -> option (gr A T).
Variable c : client A T P U V.
Variable Inv : st U -> Prop.
Variable PQ : pan A T P -> st U -> Prop.
Definition rinv (r : res A T P U) : Prop := match r with Ret _ _ s' => Inv s' | Panic p s' => PQ p s' | OutOfFuel => True end.
Definition linv (r : lres A T P U) : Prop := match r with LRet _ _ s' => Inv s' | LPanic p s' => PQ p s' | LOutOfFuel => True end.
Hypothesis Hlen : forall id v s, Inv s -> Inv (set_len id v s).
Hypothesis Hact : forall a ts l s, Inv s -> match c_act c a ts l s with AOk s' => Inv s' | APanic p s' => PQ p s' | AOutOfFuel => True end.
Hypothesis Hbegin : forall t s, Inv s -> Inv (snd (c_begin c t s)).
Hypothesis Hend : forall t v ok s, Inv s -> Inv (c_end c t v ok s).
Hypothesis Hnil : forall s, Inv s -> PQ PNilDeref s.
Hypothesis Hmatch : forall e s, Inv s -> PQ (PMatch e) s.

Lemma gm_inv : forall f g src s, Inv s -> rinv (gmatch env c f g src s).
Proof.
  induction f as [|f IH]; intros g src s Hs; [exact I|]. cbn [gmatch].
  assert (Hrep : forall k g src cnt n s, Inv s -> linv (rep_loop k (gmatch env c f) g src cnt n s)).
  { induction k as [|k IHk]; intros g0 src0 cnt n s0 H0; [exact I|]. cbn [rep_loop]. pose proof (IH g0 src0 s0 H0) as Q.
    destruct (gmatch env c f g0 src0 s0) as [n1 [e|] s1|p s1|]; cbn in Q |- *; auto. }
  assert (Hand : forall gs p src ff n s, Inv s -> rinv (and_loop (gmatch env c f) p src gs ff n s)).
  { induction gs as [|g0 gs IHg]; intros p0 src0 ff n s0 H0; [exact H0|].
    assert (Hd : g0 = GNil \/ and_loop (gmatch env c f) p0 src0 (g0 :: gs) ff n s0 =
        match gmatch env c f g0 (skipn n src0) s0 with
        | Ret n1 None s1 => and_loop (gmatch env c f) p0 src0 gs ff (n + n1) s1
        | Ret n1 (Some e) s1 => if ff then Panic (PMatch (MErr p0 src0 (Some e) (n + n1))) s1 else Ret (n + n1) (Some e) s1
        | r => r
        end) by (destruct g0; auto).
    destruct Hd as [-> | ->]; [cbn [and_loop]; apply IHg; exact H0|]. pose proof (IH g0 (skipn n src0) s0 H0) as Q.
    destruct (gmatch env c f g0 (skipn n src0) s0) as [n1 [e|] s1|p s1|]; cbn in Q |- *; auto. destruct ff; cbn; auto. }
  assert (Hor : forall gs p src nm em me s, Inv s -> rinv (or_loop (gmatch env c f) p src gs nm em me s)).
  { induction gs as [|g0 gs IHg]; intros p0 src0 nm em me s0 H0; [exact H0|]. cbn [or_loop]. pose proof (IH g0 src0 s0 H0) as Q.
    destruct (gmatch env c f g0 src0 s0) as [n1 [e|] s1|p s1|]; cbn in Q |- *; auto.
    destruct (nm <=? n1)%nat; [destruct (n1 =? nm)%nat|]; apply IHg; exact Q. }
  destruct g; cbn [gstep]; auto.
  - cbn. auto.
  - destruct src as [|t src]; [exact Hs|]. destruct ((tkind t =? kind) || ((tkind t =? INT) && (kind =? FLOAT))); exact Hs.
  - pose proof (IH g src s Hs) as Q. destruct (gmatch env c f g src s) as [n1 [e|] s1|p s1|]; exact Q.
  - pose proof (IH g src s Hs) as Q. destruct (gmatch env c f g src s) as [n1 [e|] s1|p s1|]; exact Q.
  - destruct src; exact Hs.
  - pose proof (Hrep f g src 0 0%nat s Hs) as Q. destruct (rep_loop f (gmatch env c f) g src 0 0 s); cbn in Q |- *; auto.
  - pose proof (IH g src s Hs) as Q. destruct (gmatch env c f g src s) as [n1 [e|] s1|p s1|]; cbn in Q |- *; auto.
    pose proof (Hrep f g (skipn n1 src) 0 0%nat s1 Q) as Q'. destruct (rep_loop f (gmatch env c f) g (skipn n1 src) 0 0 s1); cbn in Q' |- *; auto.
  - pose proof (IH g src s Hs) as Q. destruct (gmatch env c f g src s) as [n1 [e|] s1|p s1|]; cbn in Q |- *; auto.
  - pose proof (IH g1 src s Hs) as Q. destruct (gmatch env c f g1 src s) as [n1 [e|] s1|p s1|]; cbn in Q |- *; auto.
    + destruct list0; cbn; auto.
    + pose proof (Hrep f (GAnd [g2; g1]) (skipn n1 src) 1 n1 s1 Q) as Q'. destruct (rep_loop f (gmatch env c f) (GAnd [g2; g1]) (skipn n1 src) 1 n1 s1); cbn in Q' |- *; auto.
  - destruct (env name); [auto|exact Hs].
  - pose proof (IH g src s Hs) as Q. destruct (gmatch env c f g src s) as [n1 [e|] s1|p s1|]; cbn in Q |- *; auto.
    pose proof (Hact a (firstn n1 src) (glen s1 g) s1 Q) as Q'. destruct (c_act c a (firstn n1 src) (glen s1 g) s1); cbn in Q' |- *; auto.
  - pose proof (Hbegin t s Hs) as H0. destruct (c_begin c t s) as [v s0]. cbn in H0. pose proof (IH g src s0 H0) as Q.
    destruct (gmatch env c f g src s0) as [n1 [e|] s1|p s1|]; cbn in Q |- *; auto.
Qed.
End Inv.

(** Two clients (or one in two states) whose actions end alike make matching end alike. *)
Section Rel.
Context {A T P U1 U2 V1 V2 : Type}.
Variable env : bytes -> option (gr A T).
Variable c1 : client A T P U1 V1.
Variable c2 : client A T P U2 V2.
Definition alike (r1 : res A T P U1) (r2 : res A T P U2) : Prop :=
  match r1, r2 with Ret n1 e1 _, Ret n2 e2 _ => n1 = n2 /\ e1 = e2 | Panic p1 _, Panic p2 _ => p1 = p2 | OutOfFuel, OutOfFuel => True | _, _ => False end.
Definition lalike (r1 : lres A T P U1) (r2 : lres A T P U2) : Prop :=
  match r1, r2 with LRet k1 n1 _, LRet k2 n2 _ => k1 = k2 /\ n1 = n2 | LPanic p1 _, LPanic p2 _ => p1 = p2 | LOutOfFuel, LOutOfFuel => True | _, _ => False end.
Hypothesis Hact : forall a ts l1 l2 s1 s2, match c_act c1 a ts l1 s1, c_act c2 a ts l2 s2 with
  | AOk _, AOk _ => True | APanic p1 _, APanic p2 _ => p1 = p2 | AOutOfFuel, AOutOfFuel => True | _, _ => False end.

Lemma gm_alike : forall f g src s1 s2, alike (gmatch env c1 f g src s1) (gmatch env c2 f g src s2).
Proof.
  induction f as [|f IH]; intros g src s1 s2; [exact I|]. cbn [gmatch].
  assert (Hrep : forall k g src cnt n s1 s2, lalike (rep_loop k (gmatch env c1 f) g src cnt n s1) (rep_loop k (gmatch env c2 f) g src cnt n s2)).
  { induction k as [|k IHk]; intros g0 src0 cnt n x1 x2; [exact I|]. cbn [rep_loop]. pose proof (IH g0 src0 x1 x2) as Q.
    destruct (gmatch env c1 f g0 src0 x1) as [n1 [e1|] y1|p1 y1|], (gmatch env c2 f g0 src0 x2) as [n2 [e2|] y2|p2 y2|]; cbn in Q |- *; try contradiction; try (destruct Q as (-> & Q); try discriminate Q); auto. }
  assert (Hand : forall gs p src ff n s1 s2, alike (and_loop (gmatch env c1 f) p src gs ff n s1) (and_loop (gmatch env c2 f) p src gs ff n s2)).
  { induction gs as [|g0 gs IHg]; intros p0 src0 ff n x1 x2; [cbn; auto|].
    assert (Hd : g0 = GNil \/ forall (U V : Type) (c : client A T P U V) x, and_loop (gmatch env c f) p0 src0 (g0 :: gs) ff n x =
        match gmatch env c f g0 (skipn n src0) x with
        | Ret n1 None s1 => and_loop (gmatch env c f) p0 src0 gs ff (n + n1) s1
        | Ret n1 (Some e) s1 => if ff then Panic (PMatch (MErr p0 src0 (Some e) (n + n1))) s1 else Ret (n + n1) (Some e) s1
        | r => r
        end) by (destruct g0; auto).
    destruct Hd as [-> | Hd]; [cbn [and_loop]; apply IHg|]. rewrite !Hd. pose proof (IH g0 (skipn n src0) x1 x2) as Q.
    destruct (gmatch env c1 f g0 (skipn n src0) x1) as [n1 [e1|] y1|p1 y1|], (gmatch env c2 f g0 (skipn n src0) x2) as [n2 [e2|] y2|p2 y2|]; cbn in Q |- *; try contradiction; try (destruct Q as (-> & Q); try discriminate Q; try injection Q as ->); auto.
    destruct ff; cbn; auto. }
  assert (Hor : forall gs p src nm em me s1 s2, alike (or_loop (gmatch env c1 f) p src gs nm em me s1) (or_loop (gmatch env c2 f) p src gs nm em me s2)).
  { induction gs as [|g0 gs IHg]; intros p0 src0 nm em me x1 x2; [cbn; auto|]. cbn [or_loop]. pose proof (IH g0 src0 x1 x2) as Q.
    destruct (gmatch env c1 f g0 src0 x1) as [n1 [e1|] y1|p1 y1|], (gmatch env c2 f g0 src0 x2) as [n2 [e2|] y2|p2 y2|]; cbn in Q |- *; try contradiction; try (destruct Q as (-> & Q); try discriminate Q; try injection Q as ->); auto.
    destruct (nm <=? n2)%nat; [destruct (n2 =? nm)%nat|]; apply IHg. }
  Ltac both IH g src s1 s2 := pose proof (IH g src s1 s2) as Q;
    destruct (gmatch _ _ _ g src s1) as [n1 [e1|] y1|p1 y1|], (gmatch _ _ _ g src s2) as [n2 [e2|] y2|p2 y2|]; cbn in Q |- *; try contradiction; try (destruct Q as (-> & Q); try discriminate Q; try injection Q as ->); auto.
  destruct g; cbn [gstep].
  - reflexivity.
  - destruct src as [|t src]; [cbn; auto|]. destruct ((tkind t =? kind) || ((tkind t =? INT) && (kind =? FLOAT))); cbn; auto.
  - cbn; auto.
  - both IH g src s1 s2.
  - both IH g src s1 s2.
  - destruct src; cbn; auto.
  - apply Hand.
  - apply Hor.
  - pose proof (Hrep f g src 0 0%nat s1 s2) as Q. destruct (rep_loop f (gmatch env c1 f) g src 0 0 s1), (rep_loop f (gmatch env c2 f) g src 0 0 s2); cbn in Q |- *; try contradiction; auto. destruct Q as (-> & ->). auto.
  - both IH g src s1 s2. pose proof (Hrep f g (skipn n2 src) 0 0%nat y1 y2) as Q'.
    destruct (rep_loop f (gmatch env c1 f) g (skipn n2 src) 0 0 y1), (rep_loop f (gmatch env c2 f) g (skipn n2 src) 0 0 y2); cbn in Q' |- *; try contradiction; auto. destruct Q' as (-> & ->). auto.
  - both IH g src s1 s2.
  - both IH g1 src s1 s2.
    + destruct list0; cbn; auto.
    + pose proof (Hrep f (GAnd [g2; g1]) (skipn n2 src) 1 n2 y1 y2) as Q'.
      destruct (rep_loop f (gmatch env c1 f) (GAnd [g2; g1]) (skipn n2 src) 1 n2 y1), (rep_loop f (gmatch env c2 f) (GAnd [g2; g1]) (skipn n2 src) 1 n2 y2); cbn in Q' |- *; try contradiction; auto. destruct Q' as (-> & ->). auto.
  - destruct (env name); [apply IH|cbn; auto].
  - apply IH.
  - both IH g src s1 s2. pose proof (Hact a (firstn n2 src) (glen y1 g) (glen y2 g) y1 y2) as Q'.
    destruct (c_act c1 a (firstn n2 src) (glen y1 g) y1), (c_act c2 a (firstn n2 src) (glen y2 g) y2); cbn in Q' |- *; try contradiction; auto.
  - destruct (c_begin c1 t s1) as [v1 x1], (c_begin c2 t s2) as [v2 x2]. both IH g src x1 x2.
Qed.
End Rel.
