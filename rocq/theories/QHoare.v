(** A program logic for the matching of the compiled qlang grammar: what a grammar does to the stack, from the tokens it
    is matched against; and that nothing but the mute counter changes once a muted part has failed. *)
From Coq Require Import String SpecFloat.
From Verif Require Import Base Token Grammar Compiler Interp QValue Qlang QlangSpec QlangTop PropVars.
Local Open Scope Z_scope.

(** ** Tokens a grammar cannot start with *)
Notation G := (gr bytes Empty_set).
Definition tok_is (t : token) (k : Z) : bool := (tkind t =? k) || ((tkind t =? INT) && (k =? FLOAT)).
(** can [g] start with [src]?  [fv]: can a variable? *)
Fixpoint starts (fv : bool) (g : G) (src : list token) : bool :=
  match g with
  | GTok k => match src with t :: _ => tok_is t k | [] => false end
  | GAnd (GNil :: _) | GAnd [] => true
  | GAnd (g1 :: _) => starts fv g1 src
  | GOr gs => existsb (fun g1 => starts fv g1 src) gs
  | GAct g1 _ | GNamed _ g1 => starts fv g1 src
  | GList _ a _ false => starts fv a src
  | GVar _ => fv
  | _ => true
  end.

Section Start.
Context {P U V : Type}.
Variable env : bytes -> option G.
Variable c : client bytes Empty_set P U V.
Definition stays (r : res bytes Empty_set P U) (s : st U) : Prop :=
  match r with Ret _ (Some _) s' => ust s' = ust s | OutOfFuel => True | _ => False end.
Lemma or_stays : forall m p src gs nm em me s, (me = true \/ em <> None) -> (forall g s, In g gs -> stays (m g src s) s) -> stays (or_loop (P := P) m p src gs nm em me s) s.
Proof.
  intros m p src. induction gs as [|g gs IH]; intros nm em me s He H.
  - cbn. destruct me; [reflexivity|]. destruct em; [reflexivity|]. destruct He; congruence.
  - cbn [or_loop]. pose proof (H g s (or_introl eq_refl)) as Q. destruct (m g src s) as [n [e|] s1|q s1|]; cbn in Q; try contradiction; [|exact Logic.I].
    assert (X : forall nm' em' me', me' = true \/ em' <> None -> stays (or_loop m p src gs nm' em' me' s1) s).
    { intros nm' em' me' He'. pose proof (IH nm' em' me' s1 He' (fun g' s' Hg => H g' s' (or_intror Hg))) as Y.
      destruct (or_loop m p src gs nm' em' me' s1) as [n' [e'|] s'|q' s'|]; cbn in Y |- *; try contradiction; [congruence|exact Logic.I]. }
    destruct (nm <=? n)%nat; [destruct (n =? nm)%nat|]; apply X; auto. right. discriminate.
Qed.
Lemma no_start : forall fv src, (forall v g, env v = Some g -> fv = false -> starts true g src = false) ->
  forall f g s, starts fv g src = false -> stays (gmatch env c f g src s) s.
Proof.
  intros fv src He. 
  assert (D : forall b, (b = true \/ b = fv) -> forall f g s, starts b g src = false -> stays (gmatch env c f g src s) s); [|intros f g s; apply D; auto].
  intros b Hb f. revert b Hb. induction f as [|f IH]; intros b Hb g s H; [exact Logic.I|]. cbn [gmatch].
  destruct g; cbn [starts] in H; try discriminate H; cbn [gstep].
  - destruct src as [|t src]; [reflexivity|]. unfold tok_is in H. rewrite H. reflexivity.
  - destruct gs as [|g gs]; [discriminate H|]. 
    assert (X : g <> GNil /\ starts b g src = false) by (destruct g; (split; [discriminate|exact H]) || discriminate H). destruct X as (Hn & Hs).
    assert (E : and_loop (gmatch env c f) (GAnd (g :: gs)) src (g :: gs) false 0 s =
        match gmatch env c f g (skipn 0 src) s with
        | Ret n1 None s1 => and_loop (gmatch env c f) (GAnd (g :: gs)) src gs false (0 + n1) s1
        | Ret n1 (Some e) s1 => Ret (0 + n1) (Some e) s1
        | r => r
        end) by (destruct g; try reflexivity; congruence). rewrite E. cbn [skipn].
    pose proof (IH b Hb g s Hs) as Q. destruct (gmatch env c f g src s) as [n1 [e|] s1|q s1|]; cbn in Q |- *; try contradiction; auto.
  - apply or_stays; [auto|]. intros g s' Hg. apply (IH b Hb). apply not_true_iff_false. intro X. apply not_true_iff_false in H. apply H. apply existsb_exists. eauto.
  - destruct list0; [discriminate H|]. pose proof (IH b Hb g1 s H) as Q. destruct (gmatch env c f g1 src s) as [n1 [e|] s1|q s1|]; cbn in Q |- *; try contradiction; auto.
  - destruct (env name) as [g|] eqn:E; [|reflexivity]. destruct Hb as [-> | ->]; [discriminate H|]. apply (IH true (or_introl eq_refl)). apply (He _ _ E H).
  - apply (IH b Hb _ _ H).
  - pose proof (IH b Hb g s H) as Q. destruct (gmatch env c f g src s) as [n1 [e|] s1|q s1|]; cbn in Q |- *; try contradiction; auto.
Qed.
End Start.

(** ** Levels of muting *)
Definition dlev (a : bytes) : Z := if beq a m_mute then 1 else if beq a m_unmute then -1 else 0.
Definition under (a : bytes) : bool := match a with ch :: _ => ch =? 95 | [] => false end.
Fixpoint md (g : G) : Z :=
  match g with
  | GAct g1 a => md g1 + dlev a
  | GAnd gs => fold_right (fun g1 z => md g1 + z) 0 gs
  | GNamed _ g1 => md g1
  | _ => 0
  end.
(** at level [lv] of muting, [g] mutes and unmutes in pairs; codes and counts are only pushed in muted parts *)
Fixpoint qchk (g : G) (lv : Z) : bool :=
  match g with
  | GAct g1 a => qchk g1 lv && (if under a && (dlev a =? 0) then 1 <=? lv + md g1 else true) && (0 <=? lv + md g1) && (0 <=? lv + md g1 + dlev a)
  | GAnd gs =>
      (fix seq (gs : list G) (z : Z) : bool :=
         match gs with
         | [] => lv <=? z
         | GNil :: gs' => seq gs' z
         | g1 :: gs' => (lv <=? z) && qchk g1 z && seq gs' (z + md g1)
         end) gs lv
  | GOr gs => forallb (fun g1 => qchk g1 lv && (md g1 =? 0)) gs
  | GRep0 _ g1 | GRep1 _ g1 | GRep01 _ g1 | GNot g1 | GPeek g1 => qchk g1 lv && (md g1 =? 0)
  | GList _ a b _ => qchk a lv && qchk b lv && (md a =? 0) && (md b =? 0)
  | GNamed _ g1 => qchk g1 lv
  | GTrans _ _ => false
  | _ => true
  end.
Fixpoint qseq (lv : Z) (gs : list G) (z : Z) : bool :=
  match gs with
  | [] => lv <=? z
  | GNil :: gs' => qseq lv gs' z
  | g1 :: gs' => (lv <=? z) && qchk g1 z && qseq lv gs' (z + md g1)
  end.
Lemma qchk_and : forall gs lv, qchk (GAnd gs) lv = qseq lv gs lv.
Proof.
  intros gs lv. cbn [qchk]. 
  assert (X : forall z, (fix seq (gs : list G) (z : Z) : bool :=
         match gs with
         | [] => lv <=? z
         | GNil :: gs' => seq gs' z
         | g1 :: gs' => (lv <=? z) && qchk g1 z && seq gs' (z + md g1)
         end) gs z = qseq lv gs z); [|apply X].
  induction gs as [|g gs IH]; intro z; [reflexivity|]. cbn [qseq]. destruct g; rewrite ?IH; reflexivity.
Qed.
Definition mds (gs : list G) : Z := fold_right (fun g z => md g + z) 0 gs.

Section Hoare.
Context {W : Type}.
Variable L : qlib W.
Variable ev : nat -> bytes -> value -> @Q W (option panicq).
Variable k : nat.
Notation St := (est nat value (@rest W)).
Notation cl := (lift (q_client L ev k)).
Notation env := (cenv q_dst).
Notation run_g := (gmatch env cl).
Notation act := (qact L ev k).

Lemma env_iff : forall v g, env v = Some g -> g = d_factor.
Proof.
  intros v g H. unfold cenv in H. cbn [d_vars q_dst find fst snd] in H.
  match type of H with context [if ?b then _ else _] => destruct b end; [|discriminate H]. injection H as <-. reflexivity.
Qed.
Lemma factor_quiet : qchk d_factor 0 = true /\ md d_factor = 0.
Proof. split; reflexivity. Qed.

(** ** Actions while muted *)
Lemma no_mute_fn : fntable L ev k (36 :: m_mute) = None /\ fntable L ev k (36 :: m_unmute) = None.
Proof. split; reflexivity. Qed.
Lemma act_mute : forall ts len x, act m_mute ts len x = inl (set_mute (e_mute x + 1) x).
Proof. reflexivity. Qed.
Lemma act_unmute : forall ts len x, act m_unmute ts len x = inl (set_mute (e_mute x - 1) x).
Proof. reflexivity. Qed.
Lemma set_mute_same : forall x : St, set_mute (e_mute x) x = x.
Proof. intros []. reflexivity. Qed.
Lemma act_quiet : forall a ts len x, 1 <= e_mute x -> (under a = true -> dlev a = 0 -> 2 <= e_mute x) -> act a ts len x = inl (set_mute (e_mute x + dlev a) x).
Proof.
  intros a ts len x H1 H2. unfold dlev in *. destruct (beq a m_mute) eqn:E1; [apply beq_eq in E1; subst a; apply act_mute|].
  destruct (beq a m_unmute) eqn:E2; [apply beq_eq in E2; subst a; apply act_unmute|].
  rewrite Z.add_0_r, set_mute_same. unfold qact, iact. rewrite E1, E2. destruct (fn_of _ a); [|reflexivity].
  unfold silenced. fold (under a). destruct (Z.ltb_spec 0 (e_mute x)); [|lia]. destruct (under a) eqn:U; [|reflexivity].
  specialize (H2 eq_refl eq_refl). destruct (Z.ltb_spec 1 (e_mute x)); [reflexivity|lia].
Qed.

(** nothing has changed but the mute counter, which is at least [lo] *)
Definition hush (lo : Z) (x x' : St) : Prop := exists m, x' = set_mute m x /\ lo <= m.
Definition hushed (x x' : St) : Prop := exists m, x' = set_mute m x.
Definition rquiet (d : Z) (x : St) (r : res bytes Empty_set (pv value) St) : Prop :=
  match r with
  | Ret _ None s' => hush (e_mute x + d) x (ust s')
  | Ret _ (Some _) s' => hush (e_mute x) x (ust s')
  | Panic _ s' => hushed x (ust s')
  | OutOfFuel => True
  end.
Definition lquiet (x : St) (r : lres bytes Empty_set (pv value) St) : Prop :=
  match r with
  | LRet _ _ s' => hush (e_mute x) x (ust s')
  | LPanic _ s' => hushed x (ust s')
  | LOutOfFuel => True
  end.
Lemma hush_refl : forall lo x, lo <= e_mute x -> hush lo x x.
Proof. intros lo x H. exists (e_mute x). rewrite set_mute_same. auto. Qed.
Lemma hush_trans : forall lo lo' x y z, hush lo x y -> hush lo' y z -> hush lo' x z.
Proof. intros lo lo' x y z (m & -> & H) (m' & -> & H'). exists m'. auto. Qed.
Lemma hush_weak : forall lo lo' x y, hush lo x y -> lo' <= lo -> hush lo' x y.
Proof. intros lo lo' x y (m & E & H) Hl. exists m. split; [exact E|lia]. Qed.
Lemma hush_hushed : forall lo x y, hush lo x y -> hushed x y.
Proof. intros lo x y (m & E & H). exists m. exact E. Qed.
Lemma hush_mute : forall lo x y, hush lo x y -> lo <= e_mute y.
Proof. intros lo x y (m & -> & H). exact H. Qed.
Lemma hushed_trans : forall lo x y z, hush lo x y -> hushed y z -> hushed x z.
Proof. intros lo x y z (m & -> & H) (m' & ->). exists m'. reflexivity. Qed.
Lemma rquiet_after : forall lo d x y r, hush lo x y -> e_mute x <= lo -> rquiet d y r -> rquiet (lo + d - e_mute x) x r.
Proof.
  intros lo d x y r H Hl Q. pose proof (hush_mute _ _ _ H) as Hm. destruct r as [n [e|] s|p s|]; cbn in *; [| | |exact Logic.I].
  - eapply hush_weak; [eapply hush_trans; eassumption|lia].
  - eapply hush_weak; [eapply hush_trans; eassumption|lia].
  - eapply hushed_trans; eassumption.
Qed.
Lemma lquiet_after : forall lo x y r, hush lo x y -> e_mute x <= lo -> lquiet y r -> lquiet x r.
Proof.
  intros lo x y r H Hl Q. pose proof (hush_mute _ _ _ H) as Hm. destruct r as [cnt n s|p s|]; cbn in *; [| |exact Logic.I].
  - eapply hush_weak; [eapply hush_trans; eassumption|lia].
  - eapply hushed_trans; eassumption.
Qed.
Lemma rquiet_ok : forall d d' x n s, rquiet d x (Ret n None s) -> d' = d -> hush (e_mute x + d') x (ust s).
Proof. intros d d' x n s H ->. exact H. Qed.
Definition qrun (f : nat) : Prop := forall g lv src s, qchk g lv = true -> 0 <= lv -> lv + 1 <= e_mute (ust s) -> rquiet (md g) (ust s) (run_g f g src s).
Lemma quiet_and : forall f, qrun f -> forall gs p lv z src ff n s, qseq lv gs z = true -> 0 <= lv -> lv <= z -> z + 1 <= e_mute (ust s) ->
  match and_loop (run_g f) p src gs ff n s with
  | Ret _ None s' => hush (e_mute (ust s) + mds gs) (ust s) (ust s')
  | Ret _ (Some _) s' => hush (e_mute (ust s) - (z - lv)) (ust s) (ust s')
  | Panic _ s' => hushed (ust s) (ust s')
  | OutOfFuel => True
  end.
Proof.
  intros f IH. induction gs as [|g gs IHg]; intros p lv z src ff n s H H0 Hz Hm; [cbn; apply hush_refl; cbn; lia|].
  assert (D : g = GNil \/ (and_loop (run_g f) p src (g :: gs) ff n s =
      match run_g f g (skipn n src) s with
      | Ret n1 None s1 => and_loop (run_g f) p src gs ff (n + n1) s1
      | Ret n1 (Some e) s1 => if ff then Panic (PMatch (MErr p src (Some e) (n + n1))) s1 else Ret (n + n1) (Some e) s1
      | r => r
      end /\ qseq lv (g :: gs) z = (lv <=? z) && qchk g z && qseq lv gs (z + md g))) by (destruct g; auto).
  destruct D as [-> | (Ea & Eq)]; [apply (IHg p lv z src true n s H H0 Hz Hm)|]. rewrite Ea. rewrite Eq in H.
  apply andb_true_iff in H as (H & Hs). apply andb_true_iff in H as (_ & Hg).
  pose proof (IH g z (skipn n src) s Hg ltac:(lia) Hm) as Q. destruct (run_g f g (skipn n src) s) as [n1 [e|] s1|q s1|]; cbn in Q; [| | |exact Logic.I].
  - destruct ff; [eapply hush_hushed; exact Q|]. eapply hush_weak; [exact Q|lia].
  - pose proof (hush_mute _ _ _ Q) as Hm1.
    assert (Hl : lv <= z + md g).
    { clear - Hs. revert Hs. generalize (z + md g). induction gs as [|h gs IHg]; intros y H; [apply Z.leb_le in H; exact H|].
      assert (D : h = GNil \/ qseq lv (h :: gs) y = (lv <=? y) && qchk h y && qseq lv gs (y + md h)) by (destruct h; auto).
      destruct D as [-> | E]; [apply IHg; exact H|]. rewrite E in H. apply andb_true_iff in H as (H & _). apply andb_true_iff in H as (H & _). apply Z.leb_le in H. exact H. }
    pose proof (IHg p lv (z + md g) src ff (n + n1)%nat s1 Hs H0 Hl ltac:(lia)) as R.
    destruct (and_loop (run_g f) p src gs ff (n + n1) s1) as [n' [e'|] s'|q s'|]; [| | |exact Logic.I].
    + eapply hush_weak; [eapply hush_trans; [exact Q|exact R]|lia].
    + cbn [mds fold_right]. fold (mds gs). eapply hush_weak; [eapply hush_trans; [exact Q|exact R]|lia].
    + eapply hushed_trans; eassumption.
  - exact Q.
Qed.
Lemma quiet_or : forall f, qrun f -> forall gs p lv src nm em me s, forallb (fun g => qchk g lv && (md g =? 0)) gs = true -> 0 <= lv -> lv + 1 <= e_mute (ust s) ->
  rquiet 0 (ust s) (or_loop (run_g f) p src gs nm em me s).
Proof.
  intros f IH. induction gs as [|g gs IHg]; intros p lv src nm em me s H H0 Hm; cbn [or_loop].
  - destruct (if me then _ else em); cbn; apply hush_refl; lia.
  - cbn in H. apply andb_true_iff in H as (H & Hs). apply andb_true_iff in H as (Hg & Hd). apply Z.eqb_eq in Hd.
    pose proof (IH g lv src s Hg H0 Hm) as Q. rewrite Hd in Q. destruct (run_g f g src s) as [n1 [e|] s1|q s1|]; cbn in Q; [|exact Q|exact Q|exact Logic.I].
    pose proof (hush_mute _ _ _ Q) as Hm1.
    assert (X : forall nm' em' me', rquiet 0 (ust s) (or_loop (run_g f) p src gs nm' em' me' s1)).
    { intros nm' em' me'. replace 0 with (e_mute (ust s) + 0 - e_mute (ust s)) by lia. eapply rquiet_after; [exact Q|lia|]. apply (IHg p lv); [exact Hs|exact H0|lia]. }
    destruct (nm <=? n1)%nat; [destruct (n1 =? nm)%nat|]; apply X.
Qed.
Lemma quiet_rep : forall f, qrun f -> forall j g lv src cnt n s, qchk g lv = true -> md g = 0 -> 0 <= lv -> lv + 1 <= e_mute (ust s) -> lquiet (ust s) (rep_loop j (run_g f) g src cnt n s).
Proof.
  intros f IH. induction j as [|j IHj]; intros g lv src cnt n s Hg Hd H0 Hm; [exact Logic.I|]. cbn [rep_loop].
  pose proof (IH g lv src s Hg H0 Hm) as Q. rewrite Hd in Q. destruct (run_g f g src s) as [n1 [e|] s1|q s1|]; cbn in Q; [exact Q| |exact Q|exact Logic.I].
  pose proof (hush_mute _ _ _ Q) as Hm1. eapply lquiet_after; [exact Q|lia|]. apply (IHj _ lv); auto. lia.
Qed.
Lemma quiet : forall f, qrun f.
Proof.
  induction f as [|f IH]; intros g lv src s H H0 Hm; [exact Logic.I|]. cbn [gmatch].
  assert (R0 : hush (e_mute (ust s) + 0) (ust s) (ust s)) by (apply hush_refl; lia).
  assert (R1 : hush (e_mute (ust s)) (ust s) (ust s)) by (apply hush_refl; lia).
  destruct g; cbn [gstep].
  - eapply hush_hushed; exact R0.
  - destruct src as [|t src]; [exact R1|]. destruct (_ || _); assumption.
  - exact R0.
  - cbn [qchk] in H. apply andb_true_iff in H as (Hg & Hd). apply Z.eqb_eq in Hd. pose proof (IH g lv src s Hg H0 Hm) as Q. rewrite Hd in Q.
    destruct (run_g f g src s) as [n1 [e|] s1|q s1|]; cbn in Q |- *; auto.
  - cbn [qchk] in H. apply andb_true_iff in H as (Hg & Hd). apply Z.eqb_eq in Hd. pose proof (IH g lv src s Hg H0 Hm) as Q. rewrite Hd in Q.
    destruct (run_g f g src s) as [n1 [e|] s1|q s1|]; cbn in Q |- *; auto; eapply hush_weak; try exact Q; lia.
  - destruct src; assumption.
  - rewrite qchk_and in H. pose proof (quiet_and f IH gs (GAnd gs) lv lv src false 0%nat s H H0 (Z.le_refl _) Hm) as Q.
    destruct (and_loop (run_g f) (GAnd gs) src gs false 0 s) as [n1 [e|] s1|q s1|]; cbn; [| | |exact Logic.I]; [eapply hush_weak; [exact Q|lia]|exact Q|exact Q].
  - cbn [md]. apply (quiet_or f IH _ _ lv); assumption.
  - cbn [qchk] in H. apply andb_true_iff in H as (Hg & Hd). apply Z.eqb_eq in Hd. pose proof (quiet_rep f IH f g lv src 0 0%nat s Hg Hd H0 Hm) as Q.
    destruct (rep_loop f (run_g f) g src 0 0 s); cbn in Q |- *; auto. eapply hush_weak; [exact Q|lia].
  - cbn [qchk] in H. apply andb_true_iff in H as (Hg & Hd). apply Z.eqb_eq in Hd. pose proof (IH g lv src s Hg H0 Hm) as Q. rewrite Hd in Q.
    destruct (run_g f g src s) as [n1 [e|] s1|q s1|]; cbn in Q |- *; auto. pose proof (hush_mute _ _ _ Q) as Hm1.
    pose proof (quiet_rep f IH f g lv (skipn n1 src) 0 0%nat s1 Hg Hd H0 ltac:(lia)) as Q'. 
    assert (Q2 : lquiet (ust s) (rep_loop f (run_g f) g (skipn n1 src) 0 0 s1)) by (eapply lquiet_after; [exact Q|lia|exact Q']).
    destruct (rep_loop f (run_g f) g (skipn n1 src) 0 0 s1); cbn in Q2 |- *; auto. eapply hush_weak; [exact Q2|lia].
  - cbn [qchk] in H. apply andb_true_iff in H as (Hg & Hd). apply Z.eqb_eq in Hd. pose proof (IH g lv src s Hg H0 Hm) as Q. rewrite Hd in Q.
    destruct (run_g f g src s) as [n1 [e|] s1|q s1|]; cbn in Q |- *; auto; eapply hush_weak; try exact Q; lia.
  - cbn [qchk] in H. apply andb_true_iff in H as (H & Hb). apply andb_true_iff in H as (H & Ha). apply andb_true_iff in H as (H1 & H2). apply Z.eqb_eq in Ha, Hb.
    pose proof (IH g1 lv src s H1 H0 Hm) as Q. rewrite Ha in Q. destruct (run_g f g1 src s) as [n1 [e|] s1|q s1|]; cbn in Q |- *; auto.
    + destruct list0; cbn; [eapply hush_weak; [exact Q|lia]|exact Q].
    + pose proof (hush_mute _ _ _ Q) as Hm1.
      assert (Hg : qchk (GAnd [g2; g1]) lv = true).
      { rewrite qchk_and. assert (X : forall h gs z, md h = 0 -> qchk h z = true -> lv <= z -> qseq lv gs z = true -> qseq lv (h :: gs) z = true).
        { intros h gs z E1 E2 E3 E4. destruct h; try exact E4; cbn [qseq] in *; rewrite E2, E1, Z.add_0_r, E4; destruct (Z.leb_spec lv z); try reflexivity; lia. }
        apply X; auto; [lia|]. apply X; auto; [lia|]. cbn. apply Z.leb_le. lia. }
      assert (Hd : md (GAnd [g2; g1]) = 0) by (cbn [md fold_right]; lia).
      pose proof (quiet_rep f IH f (GAnd [g2; g1]) lv (skipn n1 src) 1 n1 s1 Hg Hd H0 ltac:(lia)) as Q'.
      assert (Q2 : lquiet (ust s) (rep_loop f (run_g f) (GAnd [g2; g1]) (skipn n1 src) 1 n1 s1)) by (eapply lquiet_after; [exact Q|lia|exact Q']).
      destruct (rep_loop f (run_g f) (GAnd [g2; g1]) (skipn n1 src) 1 n1 s1); cbn in Q2 |- *; auto. eapply hush_weak; [exact Q2|lia].
  - destruct (env name) as [g|] eqn:E; [|exact R1]. apply env_iff in E. subst g. destruct factor_quiet as (A & B).
    pose proof (IH d_factor 0 src s A (Z.le_refl _) ltac:(lia)) as Q. rewrite B in Q. exact Q.
  - cbn [qchk] in H. apply (IH g lv src s H H0 Hm).
  - cbn [qchk] in H. apply andb_true_iff in H as (H & Hd). apply andb_true_iff in H as (H & Hd0). apply andb_true_iff in H as (Hg & Hu). apply Z.leb_le in Hd, Hd0.
    pose proof (IH g lv src s Hg H0 Hm) as Q. destruct (run_g f g src s) as [n1 [e|] s1|q s1|]; cbn in Q |- *; auto.
    pose proof (hush_mute _ _ _ Q) as Hm1.
    pose proof (act_quiet a (firstn n1 src) (glen s1 g) (ust s1)) as QA. unfold qact in QA. rewrite QA; clear QA.
    + cbn. destruct Q as (m & E & Hm'). rewrite E. exists (m + dlev a). split; [reflexivity|lia].
    + cbn. lia. 
    + cbn. intros U D. rewrite U, D in Hu. cbn in Hu. apply Z.leb_le in Hu. lia.
  - discriminate H.
Qed.

(** ** Triples *)
(** what an evaluation keeps: the interpreter, the functions that were called, and their bases; after a panic the base of the
    interpreter itself may have changed *)
Definition kf (x x' : St) : Prop := e_ipt x' = e_ipt x /\ (nframes x <= nframes x')%nat /\ forall q, (q < nframes x)%nat -> fr_base (getf q x') = fr_base (getf q x).
Definition kfp (x x' : St) : Prop := (nframes x <= nframes x')%nat /\ forall q, (q < nframes x)%nat -> q <> e_ipt x -> fr_base (getf q x') = fr_base (getf q x).
Definition ready (b : bool) (st : list value) (x : St) : Prop := (e_ipt x < nframes x)%nat /\ (b = true -> fr_base (getf (e_ipt x) x) = length st).
Lemma kf_refl : forall x, kf x x.
Proof. intro x. repeat split; auto. Qed.
Lemma kf_trans : forall x y z, kf x y -> kf y z -> kf x z.
Proof. intros x y z (A & B & C) (A' & B' & C'). split; [congruence|]. split; [lia|]. intros q Hq. rewrite C', C; auto; lia. Qed.
Lemma kf_kfp : forall x y z, kf x y -> kfp y z -> kfp x z.
Proof. intros x y z (A & B & C) (B' & C'). split; [lia|]. intros q Hq N. rewrite C'; [apply C; exact Hq|lia|congruence]. Qed.
Lemma kf_p : forall x y, kf x y -> kfp x y.
Proof. intros x y (A & B & C). split; auto. Qed.
Lemma hushed_kf : forall x y, hushed x y -> kf x y /\ e_stk y = e_stk x.
Proof. intros x y (m & ->). split; [|reflexivity]. repeat split; auto. Qed.
Lemma hush_kf : forall lo x y, hush lo x y -> kf x y /\ e_stk y = e_stk x.
Proof. intros lo x y H. apply hush_hushed in H. apply hushed_kf. exact H. Qed.
Lemma ready_kf : forall b st x y, ready b st x -> kf x y -> ready b st y.
Proof. intros b st x y (A & B) (C & D & E). split; [rewrite C; lia|]. intro Hb. rewrite C, E; auto. Qed.

Definition over (st : list value) (x : St) : Prop := exists l, e_stk x = l ++ st.
(** assertions: of whether a muted part has failed (the mute counter is above the level) and of the stack above [st] *)
Notation asrt := (bool -> list value -> Prop).
Definition here (m : Z) (st : list value) (x : St) (P : asrt) : Prop := exists l, e_stk x = l ++ st /\ ((m < e_mute x /\ P true l) \/ (e_mute x = m /\ P false l)).
Definition tpost (m m' : Z) (st : list value) (src : list token) (x : St) (gl : Grammar.st St -> Z) (Q : list token -> Z -> asrt) (R : asrt)
    (r : res bytes Empty_set (pv value) St) : Prop :=
  match r with
  | Ret n None s' => kf x (ust s') /\ here m' st (ust s') (Q (skipn n src) (gl s'))
  | Ret _ (Some _) s' => kf x (ust s') /\ here m st (ust s') R
  | Panic _ s' => kfp x (ust s') /\ over st (ust s')
  | OutOfFuel => True
  end.
(** from level [m] of muting and [P], matching [g] against [src] succeeds at level [m'] with [Q] of the rest of the tokens and
    the length, or fails at level [m] with [R], or panics *)
Definition T1 (f : nat) (b : bool) (m : Z) (src : list token) (P : asrt) (g : G) (m' : Z) (Q : list token -> Z -> asrt) (R : asrt) : Prop :=
  forall f' st s, (f' <= f)%nat -> ready b st (ust s) -> here m st (ust s) P -> tpost m m' st src (ust s) (fun s' => glen s' g) Q R (run_g f' g src s).
Definition Ts (f : nat) (b ff : bool) (m0 m : Z) (src : list token) (P : asrt) (gs : list G) (m' : Z) (Q : list token -> asrt) (R : asrt) : Prop :=
  forall f' p whole n st s, (f' <= f)%nat -> skipn n whole = src -> ready b st (ust s) -> here m st (ust s) P ->
    tpost m0 m' st whole (ust s) (fun _ => 0) (fun rest _ => Q rest) R (and_loop (run_g f') p whole gs ff n s).
Definition To (f : nat) (b : bool) (m : Z) (src : list token) (P : asrt) (gs : list G) (Q : list token -> asrt) (R : asrt) : Prop :=
  forall f' p nm em me st s, (f' <= f)%nat -> me = true \/ em <> None -> ready b st (ust s) -> here m st (ust s) P ->
    tpost m m st src (ust s) (fun _ => 0) (fun rest _ => Q rest) R (or_loop (run_g f') p src gs nm em me s).

Lemma here_impl : forall m st x (P Q : asrt), (forall b l, P b l -> Q b l) -> here m st x P -> here m st x Q.
Proof. intros m st x P Q H (l & E & [(A & B)|(A & B)]); exists l; auto. Qed.
Lemma here_over : forall m st x P, here m st x P -> over st x.
Proof. intros m st x P (l & E & _). exists l. exact E. Qed.
Lemma here_conj : forall m st x (P Q : asrt), here m st x P -> here m st x Q -> here m st x (fun b l => P b l /\ Q b l).
Proof.
  intros m st x P Q (l & E & A) (l' & E' & A'). assert (l' = l) as -> by (apply (app_inv_tail st); congruence). exists l. split; [exact E|].
  destruct A as [(A & B)|(A & B)], A' as [(A' & B')|(A' & B')]; auto; lia.
Qed.
Lemma here_hyp : forall m st x (H : Prop) (P : asrt), here m st x (fun _ _ => True) -> (H -> here m st x P) -> here m st x (fun b l => H -> P b l).
Proof.
  intros m st x H P (l & E & A) B. exists l. split; [exact E|].
  destruct A as [(A & _)|(A & _)]; [left|right]; (split; [exact A|]); intro h; destruct (B h) as (l' & E' & [(A' & C)|(A' & C)]); try lia;
    (assert (l' = l) as <- by (apply (app_inv_tail st); congruence)); exact C.
Qed.
Lemma tpost_impl : forall m m' st src x gl gl' (Q Q' : list token -> Z -> asrt) (R R' : asrt) r, (forall n s b l, r = Ret n None s -> Q (skipn n src) (gl s) b l -> Q' (skipn n src) (gl' s) b l) ->
  (forall b l, R b l -> R' b l) -> tpost m m' st src x gl Q R r -> tpost m m' st src x gl' Q' R' r.
Proof.
  intros m m' st src x gl gl' Q Q' R R' r HQ HR H. destruct r as [n [e|] s|p s|]; cbn in *; [| |exact H|exact Logic.I].
  - destruct H as (A & B). split; [exact A|]. eapply here_impl; [|exact B]. exact HR.
  - destruct H as (A & B). split; [exact A|]. eapply here_impl; [|exact B]. intros b l. apply (HQ n s b l eq_refl).
Qed.
(** from a later state *)
Lemma tpost_after : forall m m' st src x y gl Q R r, kf x y -> tpost m m' st src y gl Q R r -> tpost m m' st src x gl Q R r.
Proof.
  intros m m' st src x y gl Q R r K H. destruct r as [n [e|] s|p s|]; cbn in *; [| | |exact Logic.I]; destruct H as (A & B); (split; [|exact B]).
  - eapply kf_trans; eassumption.
  - eapply kf_trans; eassumption.
  - eapply kf_kfp; eassumption.
Qed.
(** ** Structural rules *)
Lemma T_conseq : forall f b m src (P P' : asrt) g m' (Q Q' : list token -> Z -> asrt) (R R' : asrt),
  T1 f b m src P g m' Q R -> (forall k l, P' k l -> P k l) -> (forall n len k l, Q (skipn n src) len k l -> Q' (skipn n src) len k l) -> (forall k l, R k l -> R' k l) -> T1 f b m src P' g m' Q' R'.
Proof.
  intros f b m src P P' g m' Q Q' R R' H HP HQ HR f' st s Hf Hr Hs. eapply tpost_impl; [| |apply (H f' st s Hf Hr)]; auto. eapply here_impl; eassumption.
Qed.
Lemma T_false : forall f m src P g m' Q R, T1 f false m src P g m' Q R -> forall b, T1 f b m src P g m' Q R.
Proof. intros f m src P g m' Q R H b f' st s Hf (Hr & _) Hs. apply (H f' st s Hf); auto. split; [exact Hr|discriminate]. Qed.
Lemma T_less : forall f f0 b m src P g m' Q R, T1 f b m src P g m' Q R -> (f0 <= f)%nat -> T1 f0 b m src P g m' Q R.
Proof. intros f f0 b m src P g m' Q R H Hf f' st s Hf'. apply H. lia. Qed.
Lemma T_zero : forall b m src P g m' Q R, T1 0 b m src P g m' Q R.
Proof. intros b m src P g m' Q R f' st s Hf. assert (f' = O) as -> by lia. intros. exact Logic.I. Qed.
(** the precondition case by case *)
Lemma T_pre : forall f b m src (P : asrt) g m' Q R, (forall k l, P k l -> T1 f b m src (fun k' l' => k' = k /\ l' = l) g m' Q R) -> T1 f b m src P g m' Q R.
Proof. intros f b m src P g m' Q R H f' st s Hf Hr (l & E & [(A & B)|(A & B)]); apply (H _ l B f' st s); auto; exists l; auto. Qed.
Lemma T_conj : forall f b m src P g m' Q R Q' R', T1 f b m src P g m' Q R -> T1 f b m src P g m' Q' R' ->
  T1 f b m src P g m' (fun rest len k l => Q rest len k l /\ Q' rest len k l) (fun k l => R k l /\ R' k l).
Proof.
  intros f b m src P g m' Q R Q' R' H H' f' st s Hf Hr Hs. pose proof (H f' st s Hf Hr Hs) as X. pose proof (H' f' st s Hf Hr Hs) as Y.
  destruct (run_g f' g src s) as [n [e|] s'|p s'|]; cbn in X, Y |- *; [| |exact X|exact Logic.I]; destruct X as (A & B), Y as (_ & C); (split; [exact A|]); apply here_conj; assumption.
Qed.
(** a hypothesis about the tokens only *)
Lemma T_hyp : forall f b m src P g m' Q R (H : Prop), T1 f b m src P g m' Q (fun _ _ => True) -> (H -> T1 f b m src P g m' (fun _ _ _ _ => True) R) -> T1 f b m src P g m' Q (fun k l => H -> R k l).
Proof.
  intros f b m src P g m' Q R H X Y f' st s Hf Hr Hs. specialize (X f' st s Hf Hr Hs).
  destruct (run_g f' g src s) as [n [e|] s'|p s'|] eqn:E; cbn in X |- *; [|exact X|exact X|exact Logic.I].
  destruct X as (A & B). split; [exact A|]. apply here_hyp; [exact B|]. intro h. pose proof (Y h f' st s Hf Hr Hs) as Z. rewrite E in Z. apply Z.
Qed.
(** what is below stays *)
Lemma T_frame : forall f b m src (P : asrt) l0 g m' Q R, T1 f false m src P g m' Q R ->
  T1 f b m src (fun k l => exists l1, l = l1 ++ l0 /\ P k l1) g m' (fun rest len k l => exists l1, l = l1 ++ l0 /\ Q rest len k l1) (fun k l => exists l1, l = l1 ++ l0 /\ R k l1).
Proof.
  intros f b m src P l0 g m' Q R H f' st s Hf (Hr & _) (l & Hs & Hl).
  assert (N : exists l1, l = l1 ++ l0 /\ ((m < e_mute (ust s) /\ P true l1) \/ (e_mute (ust s) = m /\ P false l1))).
  { destruct Hl as [(A & l1 & E & B)|(A & l1 & E & B)]; exists l1; auto. }
  destruct N as (l1 & -> & N). rewrite <- app_assoc in Hs.
  pose proof (H f' (l0 ++ st) s Hf (conj Hr (fun X : false = true => match Bool.diff_false_true X with end)) (ex_intro _ l1 (conj Hs N))) as X.
  assert (O : forall m y (A : asrt), here m (l0 ++ st) y A -> here m st y (fun k l => exists l1, l = l1 ++ l0 /\ A k l1)).
  { intros m2 y A (l & E & [(C & D)|(C & D)]); exists (l ++ l0); (split; [rewrite E, app_assoc; reflexivity|]); [left|right]; eauto. }
  destruct (run_g f' g src s) as [n [e|] s'|p s'|]; cbn in X |- *; [| | |exact Logic.I]; destruct X as (A & B); (split; [exact A|]); auto.
  destruct B as (l & E). exists (l ++ l0). rewrite E, app_assoc. reflexivity.
Qed.

(** ** Rules *)
Lemma T_tok : forall f b m src P kd, T1 f b m src P (GTok kd) m (fun rest _ k l => (exists t, src = t :: rest /\ tok_is t kd = true) /\ P k l) (fun k l => starts true (GTok kd) src = false /\ P k l).
Proof.
  intros f b m src P kd f' st s Hf Hr Hs. destruct f' as [|f']; [exact Logic.I|]. cbn [gmatch gstep starts]. destruct src as [|t src].
  - cbn. split; [apply kf_refl|]. eapply here_impl; [|exact Hs]. auto.
  - fold (tok_is t kd). destruct (tok_is t kd) eqn:E; cbn; (split; [apply kf_refl|]); eapply here_impl; try exact Hs; cbn; eauto.
Qed.
Lemma T_not_tok : forall f b m src P kd, T1 f b m src P (GNot (GTok kd)) m (fun rest _ k l => rest = src /\ starts true (GTok kd) src = false /\ P k l) P.
Proof.
  intros f b m src P kd f' st s Hf Hr Hs. destruct f' as [|f']; [exact Logic.I|]. cbn [gmatch gstep].
  pose proof (T_tok f b m src P kd f' st s ltac:(lia) Hr Hs) as X.
  destruct (run_g f' (GTok kd) src s) as [n [e|] s'|p s'|]; cbn in X |- *; [| |exact X|exact Logic.I]; destruct X as (A & B); (split; [exact A|]); eapply here_impl; try exact B; cbn; tauto.
Qed.
Lemma T_named : forall f b m src P n g m' Q R, T1 f b m src P g m' (fun rest _ => Q rest) R -> T1 f b m src P (GNamed n g) m' (fun rest _ => Q rest) R.
Proof. intros f b m src P n g m' Q R H f' st s Hf Hr Hs. destruct f' as [|f']; [exact Logic.I|]. cbn [gmatch gstep]. eapply tpost_impl; [| |apply (H f' st s ltac:(lia) Hr Hs)]; auto. Qed.
Lemma T_factor : forall f b m src P m' Q R, T1 f b m src P d_factor m' (fun rest _ => Q rest) R -> T1 (S f) b m src P gfactor m' (fun rest _ => Q rest) R.
Proof.
  intros f b m src P m' Q R H f' st s Hf Hr Hs. destruct f' as [|f']; [exact Logic.I|]. unfold gfactor. cbn [gmatch gstep].
  change (env r_factor) with (Some d_factor). cbv iota. eapply tpost_impl; [| |apply (H f' st s ltac:(lia) Hr Hs)]; auto.
Qed.
Lemma T_nostart : forall f b m src P g m' Q, starts (starts true d_factor src) g src = false -> T1 f b m src P g m' Q P.
Proof.
  intros f b m src P g m' Q H f' st s Hf Hr Hs.
  pose proof (no_start env cl _ src (fun v g' E => eq_ind_r (fun g0 => _ -> starts true g0 src = false) (fun X => X) (env_iff v g' E)) f' g s H) as X.
  destruct (run_g f' g src s) as [n [e|] s'|p s'|]; cbn in X |- *; try contradiction; [|exact Logic.I]. rewrite X. split; [apply kf_refl|]. exact Hs.
Qed.
(** while muted, nothing but the mute counter changes *)
Lemma T_quiet : forall f b m src (P : list value -> Prop) g, qchk g 0 = true -> md g = 0 -> 1 <= m -> T1 f b m src (fun k l => k = false /\ P l) g m (fun _ _ _ => P) (fun _ => P).
Proof.
  intros f b m src P g Hq Hd Hm1 f' st s Hf Hr (l & Hs & [(Hm & E & _)|(Hm & _ & Hl)]); [discriminate E|].
  pose proof (quiet f' g 0 src s Hq (Z.le_refl _) ltac:(lia)) as X. rewrite Hd in X.
  destruct (run_g f' g src s) as [n [e|] s'|p s'|]; cbn in X |- *; [| | |exact Logic.I].
  - pose proof (hush_mute _ _ _ X). destruct (hush_kf _ _ _ X) as (K & E). split; [exact K|]. exists l. split; [congruence|]. destruct (Z.eq_dec (e_mute (ust s')) m); [right; auto|left; split; [lia|auto]].
  - pose proof (hush_mute _ _ _ X). destruct (hush_kf _ _ _ X) as (K & E). split; [exact K|]. exists l. split; [congruence|]. destruct (Z.eq_dec (e_mute (ust s')) m); [right; auto|left; split; [lia|auto]].
  - destruct (hushed_kf _ _ X) as (K & E). split; [apply kf_p; exact K|]. exists l. congruence.
Qed.
(** once a muted part has failed, too *)
Lemma T_broken : forall f b m src (P : list value -> Prop) g m', qchk g m = true -> m' = m + md g -> 0 <= m -> T1 f b m src (fun k l => k = true /\ P l) g m' (fun _ _ k l => k = true /\ P l) (fun k l => k = true /\ P l).
Proof.
  intros f b m src P g m' Hq Hd H0 f' st s Hf Hr (l & Hs & [(Hm & _ & Hl)|(Hm & E & _)]); [|discriminate E].
  pose proof (quiet f' g m src s Hq H0 ltac:(lia)) as X.
  destruct (run_g f' g src s) as [n [e|] s'|p s'|]; cbn in X |- *; [| | |exact Logic.I].
  - pose proof (hush_mute _ _ _ X). destruct (hush_kf _ _ _ X) as (K & E). split; [exact K|]. exists l. split; [congruence|]. left. split; [lia|auto].
  - pose proof (hush_mute _ _ _ X). destruct (hush_kf _ _ _ X) as (K & E). split; [exact K|]. exists l. split; [congruence|]. left. split; [lia|auto].
  - destruct (hushed_kf _ _ X) as (K & E). split; [apply kf_p; exact K|]. exists l. congruence.
Qed.
Definition Act (b : bool) (m : Z) (P : Z -> list value -> Prop) (a : bytes) (m' : Z) (Q : Z -> list value -> Prop) : Prop :=
  forall x st l ts len, e_mute x = m -> ready b st x -> e_stk x = l ++ st -> P len l ->
    match act a ts len x with
    | inl x' => kf x x' /\ e_mute x' = m' /\ exists l', e_stk x' = l' ++ st /\ Q len l'
    | inr (_, x') => kfp x x' /\ over st x'
    end.
Lemma T_act : forall f b m src P g m1 Q1 R a m2 (Q : list token -> Z -> asrt), T1 f b m src P g m1 Q1 R -> (forall n, Act b m1 (fun len => Q1 (skipn n src) len false) a m2 (fun len => Q (skipn n src) len false)) ->
  (forall n len l, Q1 (skipn n src) len true l -> Q (skipn n src) len true l) -> m2 = m1 + dlev a -> 0 <= m1 -> (under a = true -> dlev a = 0 -> 1 <= m1) -> T1 f b m src P (GAct g a) m2 Q R.
Proof.
  intros f b m src P g m1 Q1 R a m2 Q H HA HB Em H0 Hu f' st s Hf Hr Hs. destruct f' as [|f']; [exact Logic.I|]. cbn [gmatch gstep].
  pose proof (H f' st s ltac:(lia) Hr Hs) as X. destruct (run_g f' g src s) as [n [e|] s1|p s1|]; cbn in X; [exact X| |exact X|exact Logic.I].
  destruct X as (K & l1 & E1 & C).
  assert (Ca : c_act cl a (firstn n src) (glen s1 g) s1 = match act a (firstn n src) (glen s1 g) (ust s1) with inl x => AOk (mkSt (lens s1) x) | inr (p, x) => APanic p (mkSt (lens s1) x) end) by reflexivity.
  assert (Eg : forall x : St, glen {| lens := lens s1; ust := x |} g = glen s1 g) by (intro x; revert x; clear; induction g; intro x; cbn; auto).
  rewrite Ca. clear Ca. destruct C as [(C & HQ)|(C & HQ)].
  - rewrite act_quiet; [|lia|intros U D; specialize (Hu U D); lia]. cbn. split; [eapply kf_trans; [exact K|apply hushed_kf; eexists; reflexivity]|]. exists l1. split; [exact E1|]. left. cbn. split; [lia|].
    rewrite Eg. apply HB. exact HQ.
  - pose proof (HA n (ust s1) st l1 (firstn n src) (glen s1 g) C (ready_kf _ _ _ _ Hr K) E1 HQ) as Y.
    destruct (act a (firstn n src) (glen s1 g) (ust s1)) as [x|(p, x)]; cbn.
    + destruct Y as (K' & Em' & l2 & E2 & HQ2). split; [eapply kf_trans; eassumption|]. exists l2. split; [exact E2|]. right. split; [exact Em'|]. rewrite Eg. exact HQ2.
    + destruct Y as (K' & O). split; [eapply kf_kfp; eassumption|exact O].
Qed.
Lemma act_m : forall b m P, Act b m P m_mute (m + 1) P.
Proof. intros b m P x st l ts len Hm Hr Hs Hl. rewrite act_mute. split; [apply hushed_kf; eexists; reflexivity|]. split; [cbn; lia|]. exists l. auto. Qed.
Lemma act_u : forall b m P, Act b m P m_unmute (m - 1) P.
Proof. intros b m P x st l ts len Hm Hr Hs Hl. rewrite act_unmute. split; [apply hushed_kf; eexists; reflexivity|]. split; [cbn; lia|]. exists l. auto. Qed.
(** muted actions do nothing *)
Lemma act_silent : forall b m (P Q : Z -> list value -> Prop) a, 1 <= m -> dlev a = 0 -> (under a = true -> 2 <= m) -> (forall len l, P len l -> Q len l) -> Act b m P a m Q.
Proof.
  intros b m P Q a H1 Hd Hu H x st l ts len Hm Hr Hs Hl. rewrite act_quiet; [|lia|intros U _; specialize (Hu U); lia]. rewrite Hd, Z.add_0_r, set_mute_same. split; [apply kf_refl|]. split; [exact Hm|]. exists l. auto.
Qed.

Lemma Ts_nil : forall f b ff m0 m src (P : asrt) (Q : list token -> asrt) R, (forall k l, P k l -> Q src k l) -> Ts f b ff m0 m src P [] m Q R.
Proof. intros f b ff m0 m src P Q R H f' p whole n st s Hf Hw Hr Hs. cbn. split; [apply kf_refl|]. rewrite Hw. eapply here_impl; [|exact Hs]. exact H. Qed.
Lemma Ts_skip : forall f b ff m0 m src P gs m' Q R, Ts f b true m0 m src P gs m' Q R -> Ts f b ff m0 m src P (GNil :: gs) m' Q R.
Proof. intros f b ff m0 m src P gs m' Q R H f' p whole n st s Hf Hw Hr Hs. cbn [and_loop]. apply (H f' p whole n st s); auto. Qed.
Lemma Ts_cons : forall f b (ff : bool) m0 m src P g gs m1 Q1 R1 m' Q (R : asrt), g <> GNil -> T1 f b m src P g m1 Q1 R1 -> m0 <= m ->
  (ff = false -> forall k l, R1 k l -> R (if m =? m0 then k else true) l) ->
  (forall n, Ts f b ff m0 m1 (skipn n src) (fun k l => exists len, Q1 (skipn n src) len k l) gs m' Q R) ->
  Ts f b ff m0 m src P (g :: gs) m' Q R.
Proof.
  intros f b ff m0 m src P g gs m1 Q1 R1 m' Q R Hg H H1 HR HS f' p whole n st s Hf Hw Hr Hs.
  assert (Ea : and_loop (run_g f') p whole (g :: gs) ff n s =
      match run_g f' g (skipn n whole) s with
      | Ret n1 None s1 => and_loop (run_g f') p whole gs ff (n + n1) s1
      | Ret n1 (Some e) s1 => if ff then Panic (PMatch (MErr p whole (Some e) (n + n1))) s1 else Ret (n + n1) (Some e) s1
      | r => r
      end) by (destruct g; auto; congruence). rewrite Ea. clear Ea. rewrite Hw.
  pose proof (H f' st s Hf Hr Hs) as X. destruct (run_g f' g src s) as [n1 [e|] s1|q s1|]; cbn in X; [| |exact X|exact Logic.I].
  - destruct X as (K & O). destruct ff; cbn.
    + split; [apply kf_p; exact K|eapply here_over; exact O].
    + split; [exact K|]. destruct O as (l1 & E1 & C). exists l1. split; [exact E1|]. specialize (HR eq_refl). destruct (Z.eqb_spec m m0) as [-> | N].
      * destruct C as [(C & D)|(C & D)]; auto.
      * left. destruct C as [(C & D)|(C & D)]; (split; [lia|eapply HR; exact D]).
  - destruct X as (K & O). eapply tpost_after; [exact K|]. apply (HS n1 f' p whole (n + n1)%nat st s1); auto.
    * rewrite <- Hw. rewrite skipn_skipn'. reflexivity.
    * eapply ready_kf; eassumption.
    * eapply here_impl; [|exact O]. eauto.
Qed.
Lemma Ts_conseq : forall f b ff m0 m src (P P' : asrt) gs m' (Q Q' : list token -> asrt) (R R' : asrt), Ts f b ff m0 m src P gs m' Q R -> (forall k l, P' k l -> P k l) ->
  (forall rest k l, Q rest k l -> Q' rest k l) -> (forall k l, R k l -> R' k l) -> Ts f b ff m0 m src P' gs m' Q' R'.
Proof.
  intros f b ff m0 m src P P' gs m' Q Q' R R' H HP HQ HR f' p whole n st s Hf Hw Hr Hs. eapply tpost_impl; [| |apply (H f' p whole n st s Hf Hw Hr)]; auto. eapply here_impl; eassumption.
Qed.
Lemma Ts_pre : forall f b ff m0 m src (P : asrt) gs m' Q R, (forall k l, P k l -> Ts f b ff m0 m src (fun k' l' => k' = k /\ l' = l) gs m' Q R) -> Ts f b ff m0 m src P gs m' Q R.
Proof. intros f b ff m0 m src P gs m' Q R H f' p whole n st s Hf Hw Hr (l & E & [(A & B)|(A & B)]); apply (H _ l B f' p whole n st s); auto; exists l; auto. Qed.
Lemma T_and : forall f b m src P gs m' Q R, Ts f b false m m src P gs m' Q R -> T1 f b m src P (GAnd gs) m' (fun rest _ => Q rest) R.
Proof.
  intros f b m src P gs m' Q R H f' st s Hf Hr Hs. destruct f' as [|f']; [exact Logic.I|]. cbn [gmatch gstep].
  eapply tpost_impl; [| |apply (H f' (GAnd gs) src 0%nat st s ltac:(lia) eq_refl Hr Hs)]; auto.
Qed.
Lemma To_nil : forall f b m src (P : asrt) Q (R : asrt), (forall k l, P k l -> R k l) -> To f b m src P [] Q R.
Proof.
  intros f b m src P Q R H f' p nm em me st s Hf He Hr Hs. cbn [or_loop].
  assert (X : exists e, (if me then Some (MErr p src None 0%nat) else em) = Some e) by (destruct me; [eauto|]; destruct em; [eauto|]; destruct He; congruence).
  destruct X as (e & ->). cbn. split; [apply kf_refl|]. eapply here_impl; [|exact Hs]. exact H.
Qed.
Lemma To_cons : forall f b m src P g gs (Q : list token -> asrt) R1 R, T1 f b m src P g m (fun rest _ => Q rest) R1 -> To f b m src R1 gs Q R -> To f b m src P (g :: gs) Q R.
Proof.
  intros f b m src P g gs Q R1 R H HO f' p nm em me st s Hf He Hr Hs. cbn [or_loop].
  pose proof (H f' st s Hf Hr Hs) as X. destruct (run_g f' g src s) as [n [e|] s1|q s1|]; cbn in X; [|exact X|exact X|exact Logic.I].
  destruct X as (K & O).
  assert (D : forall nm' em' me', me' = true \/ em' <> None -> tpost m m st src (ust s) (fun _ => 0) (fun rest _ => Q rest) R (or_loop (run_g f') p src gs nm' em' me' s1)).
  { intros nm' em' me' He'. eapply tpost_after; [exact K|]. apply (HO f' p nm' em' me' st s1); auto. eapply ready_kf; eassumption. }
  destruct (nm <=? n)%nat; [destruct (n =? nm)%nat|]; apply D; auto. right. discriminate.
Qed.
Lemma T_or : forall f b m src P gs Q R, To f b m src P gs Q R -> T1 f b m src P (GOr gs) m (fun rest _ => Q rest) R.
Proof.
  intros f b m src P gs Q R H f' st s Hf Hr Hs. destruct f' as [|f']; [exact Logic.I|]. cbn [gmatch gstep].
  eapply tpost_impl; [| |apply (H f' (GOr gs) 0%nat None true st s ltac:(lia) (or_introl eq_refl) Hr Hs)]; auto.
Qed.
(** the loop of repetitions *)
Lemma rep_rule : forall f b m g (I E : list token -> Z -> asrt),
  (forall src cnt, 0 <= cnt -> T1 f b m src (I src cnt) g m (fun rest _ => I rest (cnt + 1)) (E src cnt)) ->
  forall f' j whole n cnt st s, (f' <= f)%nat -> 0 <= cnt -> ready b st (ust s) -> here m st (ust s) (I (skipn n whole) cnt) ->
  match rep_loop j (run_g f') g (skipn n whole) cnt n s with
  | LRet c n' s' => kf (ust s) (ust s') /\ here m st (ust s') (fun k l => 0 <= c /\ E (skipn n' whole) c k l)
  | LPanic _ s' => kfp (ust s) (ust s') /\ over st (ust s')
  | LOutOfFuel => True
  end.
Proof.
  intros f b m g I E H f'. induction j as [|j IH]; intros whole n cnt st s Hf Hc Hr Hs; [exact Logic.I|]. cbn [rep_loop].
  pose proof (H (skipn n whole) cnt Hc f' st s Hf Hr Hs) as X. destruct (run_g f' g (skipn n whole) s) as [n1 [e|] s1|q s1|]; cbn in X; [| |exact X|exact Logic.I].
  - destruct X as (K & O). split; [exact K|]. eapply here_impl; [|exact O]. auto.
  - destruct X as (K & O). rewrite skipn_skipn' in O |- *.
    pose proof (IH whole (n + n1)%nat (cnt + 1) st s1 Hf ltac:(lia) (ready_kf _ _ _ _ Hr K) O) as Y.
    destruct (rep_loop j (run_g f') g (skipn (n + n1) whole) (cnt + 1) (n + n1) s1) as [c' n' s'|q s'|]; [| |exact Logic.I]; destruct Y as (K' & O'); (split; [|exact O']).
    * eapply kf_trans; eassumption.
    * eapply kf_kfp; eassumption.
Qed.
Lemma T_rep0 : forall f b m src id g (I E : list token -> Z -> asrt),
  (forall src cnt, 0 <= cnt -> T1 f b m src (I src cnt) g m (fun rest _ => I rest (cnt + 1)) (E src cnt)) ->
  T1 f b m src (I src 0) (GRep0 id g) m (fun rest len k l => 0 <= len /\ E rest len k l) (fun _ _ => False).
Proof.
  intros f b m src id g I E H f' st s Hf Hr Hs. destruct f' as [|f']; [exact Logic.I|]. cbn [gmatch gstep].
  pose proof (rep_rule f b m g I E H f' f' src 0%nat 0 st s ltac:(lia) (Z.le_refl _) Hr Hs) as X. cbn [skipn] in X.
  destruct (rep_loop f' (run_g f') g src 0 0 s) as [c n s'|q s'|]; cbn; [|exact X|exact Logic.I]. destruct X as (K & O). split; [exact K|]. rewrite Nat.eqb_refl. exact O.
Qed.
Lemma T_rep01 : forall f b m src P id g Q R, T1 f b m src P g m Q R ->
  T1 f b m src P (GRep01 id g) m (fun rest len k l => (len = 1 /\ exists len', Q rest len' k l) \/ (len = 0 /\ rest = src /\ R k l)) (fun _ _ => False).
Proof.
  intros f b m src P id g Q R H f' st s Hf Hr Hs. destruct f' as [|f']; [exact Logic.I|]. cbn [gmatch gstep].
  pose proof (H f' st s ltac:(lia) Hr Hs) as X. destruct (run_g f' g src s) as [n [e|] s1|q s1|]; cbn in X |- *; [| |exact X|exact Logic.I]; destruct X as (K & O); (split; [exact K|]);
    eapply here_impl; try exact O; intros k0 l1; rewrite Nat.eqb_refl; eauto.
Qed.
Lemma T_list : forall f b m src P id a sep list0 (I E : list token -> Z -> asrt) R,
  T1 f b m src P a m (fun rest _ => I rest 1) R ->
  (forall src cnt, 1 <= cnt -> T1 f b m src (I src cnt) (GAnd [sep; a]) m (fun rest _ => I rest (cnt + 1)) (E src cnt)) ->
  T1 f b m src P (GList id a sep list0) m (fun rest len k l => (1 <= len /\ E rest len k l) \/ (list0 = true /\ len = 0 /\ rest = src /\ R k l)) (fun k l => list0 = false /\ R k l).
Proof.
  intros f b m src P id a sep list0 I E R HA HB f' st s Hf Hr Hs. destruct f' as [|f']; [exact Logic.I|]. cbn [gmatch gstep].
  pose proof (HA f' st s ltac:(lia) Hr Hs) as X. destruct (run_g f' a src s) as [n [e|] s1|q s1|]; cbn in X |- *; [| |exact X|exact Logic.I].
  - destruct X as (K & O). destruct list0; cbn; (split; [exact K|]); eapply here_impl; try exact O; intros k0 l1; rewrite ?Nat.eqb_refl; auto.
  - destruct X as (K & O).
    pose proof (rep_rule f b m (GAnd [sep; a]) (fun src cnt k l => 1 <= cnt /\ I src cnt k l) (fun src cnt k l => 1 <= cnt /\ E src cnt k l)) as Y.
    match type of Y with ?A -> _ => assert (HA' : A) end.
    { intros src' cnt Hc. apply T_pre. intros k0 l' (H1 & HI'). eapply T_conseq; [apply (HB src' cnt H1)| | |]; cbn; [intros ? ? (-> & ->); exact HI'|intros; split; [lia|assumption]|auto]. }
    specialize (Y HA' f' f' src n 1 st s1 ltac:(lia) ltac:(lia) (ready_kf _ _ _ _ Hr K)).
    match type of Y with ?A -> _ => assert (HB' : A) by (eapply here_impl; [|exact O]; cbn; intros; split; [lia|assumption]) end. specialize (Y HB').
    destruct (rep_loop f' (run_g f') (GAnd [sep; a]) (skipn n src) 1 n s1) as [c' n' s'|q s'|]; cbn; [| |exact Logic.I]; destruct Y as (K' & O').
    * split; [eapply kf_trans; eassumption|]. eapply here_impl; [|exact O']. intros k0 l2. rewrite Nat.eqb_refl. tauto.
    * split; [eapply kf_kfp; eassumption|exact O'].
Qed.
End Hoare.
