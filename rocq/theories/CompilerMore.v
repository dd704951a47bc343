(** No dangling rule (C34), marks (C36), unique reading (C32). *)
From Coq Require Import String.
From Verif Require Import Base Token Utf8 Scanner Tokenize Grammar Matcher PegSpec MatchProofs MatchProofs2 MatchProofs3 Wf PegTools Compiler GramSyntax CompilerProofs CompilerBack CompilerTop.

(** ** Rule variables in a grammar *)
Fixpoint gvars {A T : Type} (g : gr A T) : list bytes :=
  match g with
  | GNil | GTok _ | GTrue | GEOF => []
  | GPeek g1 | GNot g1 | GRep0 _ g1 | GRep1 _ g1 | GRep01 _ g1 | GNamed _ g1 | GAct g1 _ | GTrans g1 _ => gvars g1
  | GAnd gs | GOr gs => flat_map gvars gs
  | GList _ a b _ => gvars a ++ gvars b
  | GVar v => [v]
  end.
(** "variable is not assigned" is reported, somewhere in the chain of errors *)
Fixpoint dangles {A T : Type} (e : merr A T) : Prop :=
  match e with EVarNotAssigned => True | MErr _ _ (Some e1) _ => dangles e1 | MErr _ _ None _ => False end.

Section Dangling.
Context {A T P U V : Type}.
Variable env : bytes -> option (gr A T).
Variable c : client A T P U V.
Variable Hact : forall a ts l s p s', c_act c a ts l s = APanic p s' -> forall e, p <> PMatch e.
Definition closed (g : gr A T) : Prop := forall v, In v (gvars g) -> env v <> None.
Variable Henv : forall v g, env v = Some g -> closed g.
Notation gm := (gmatch env c).
Definition fine (r : res A T P U) : Prop :=
  match r with
  | Ret _ (Some e) _ => ~ dangles e
  | Panic (PMatch e) _ => ~ dangles e
  | _ => True
  end.
Lemma closed_forall : forall gs, (forall v, In v (flat_map gvars gs) -> env v <> None) -> Forall closed gs.
Proof. intros gs H. apply Forall_forall. intros g Hg v Hv. apply H. apply in_flat_map. eauto. Qed.

Lemma fine_all : forall f g src s, closed g -> fine (gm f g src s).
Proof.
  induction f as [|f IH]; intros g src s Hg; [exact I|].
  assert (Hand : forall p gs ff n0 s0 src0, Forall closed gs -> fine (and_loop (gm f) p src0 gs ff n0 s0)).
  { intros p gs. induction gs as [|g1 gs IHg]; intros ff n0 s0 src0 Hgs; [exact I|]. inversion Hgs; subst.
    assert (He : and_loop (gm f) p src0 (g1 :: gs) ff n0 s0 =
        match g1 with GNil => and_loop (gm f) p src0 gs true n0 s0 | _ =>
        match gm f g1 (skipn n0 src0) s0 with
        | Ret n1 None s1 => and_loop (gm f) p src0 gs ff (n0 + n1) s1
        | Ret n1 (Some e) s1 =>
            if ff then Panic (PMatch (MErr p src0 (Some e) (n0 + n1))) s1
            else Ret (n0 + n1) (Some e) s1
        | r => r
        end end) by (destruct g1; reflexivity).
    rewrite He. clear He. pose proof (IH g1 (skipn n0 src0) s0 ltac:(assumption)) as Hr.
    destruct g1; try (apply IHg; assumption);
      (destruct (gm f _ (skipn n0 src0) s0) as [n1 [e|] s1|q s1|] eqn:E; cbn [fine] in Hr |- *; auto; destruct ff; exact Hr). }
  assert (Hor : forall gs p nm em me s0, Forall closed gs -> (forall e, em = Some e -> ~ dangles e) -> fine (or_loop (gm f) p src gs nm em me s0)).
  { intros gs p. induction gs as [|g1 gs IHg]; intros nm em me s0 Hgs Hem; cbn [or_loop].
    - destruct me; [intros []|]. destruct em; [|exact I]. apply Hem; reflexivity.
    - inversion Hgs; subst. pose proof (IH g1 src s0 ltac:(assumption)) as Hr.
      destruct (gm f g1 src s0) as [n1 [e|] s1|q s1|] eqn:E; cbn [fine] in Hr; auto.
      destruct (nm <=? n1)%nat; [destruct (n1 =? nm)%nat|]; apply IHg; auto; intros e' [= <-]; exact Hr. }
  assert (Hrep : forall k g1 src1 cnt n0 s0 e s1, closed g1 -> rep_loop k (gm f) g1 src1 cnt n0 s0 = LPanic (PMatch e) s1 -> ~ dangles e).
  { induction k as [|k IHk]; intros g1 src1 cnt n0 s0 e s1 Hp H0; [discriminate|].
    cbn [rep_loop] in H0. pose proof (IH g1 src1 s0 Hp) as Hr.
    destruct (gm f g1 src1 s0) as [n1 [e'|] s2|q s2|] eqn:E; try discriminate.
    - eapply IHk; [exact Hp|exact H0].
    - injection H0 as -> ->. exact Hr. }
  unfold closed in Hg. cbn [gmatch]. destruct g; cbn [gstep gvars] in *.
  - exact I.
  - destruct src as [|t src]; [intros []|]. destruct (_ || _); [exact I|intros []].
  - exact I.
  - pose proof (IH g src s Hg) as Hr. destruct (gm f g src s) as [n1 [e|] s1|q s1|]; cbn [fine] in *; auto.
  - pose proof (IH g src s Hg) as Hr. destruct (gm f g src s) as [n1 [e|] s1|q s1|]; cbn [fine] in *; auto.
  - destruct src; [exact I|intros []].
  - apply Hand. apply closed_forall. exact Hg.
  - apply Hor; [apply closed_forall; exact Hg|discriminate].
  - destruct (rep_loop f (gm f) g src 0 0 s) as [? ? ?|[e| |q] ?|] eqn:E; cbn [fine]; auto. eapply Hrep; [exact Hg|exact E].
  - pose proof (IH g src s Hg) as Hr. destruct (gm f g src s) as [n1 [e|] s1|q s1|] eqn:E; cbn [fine] in *; auto.
    destruct (rep_loop f (gm f) g (skipn n1 src) 0 0 s1) as [? ? ?|[e| |q] ?|] eqn:E2; cbn [fine]; auto. eapply Hrep; [exact Hg|exact E2].
  - pose proof (IH g src s Hg) as Hr. destruct (gm f g src s) as [n1 [e|] s1|q s1|]; cbn [fine] in *; auto.
  - assert (H1 : closed g1) by (intros v Hv; apply Hg; apply in_app_iff; auto). assert (H2 : closed g2) by (intros v Hv; apply Hg; apply in_app_iff; auto).
    pose proof (IH g1 src s H1) as Hr. destruct (gm f g1 src s) as [n1 [e|] s1|q s1|] eqn:E; cbn [fine] in *; auto.
    + destruct list0; cbn [fine]; auto.
    + destruct (rep_loop f (gm f) (GAnd [g2; g1]) (skipn n1 src) 1 n1 s1) as [? ? ?|[e| |q] ?|] eqn:E2; cbn [fine]; auto.
      eapply Hrep; [|exact E2]. intros v Hv. cbn [gvars flat_map] in Hv. rewrite app_nil_r in Hv. apply in_app_iff in Hv. destruct Hv; auto.
  - destruct (env name) as [g1|] eqn:E; [apply IH; eauto|]. exfalso. apply (Hg name); [left; reflexivity|exact E].
  - apply IH. exact Hg.
  - pose proof (IH g src s Hg) as Hr. destruct (gm f g src s) as [n1 [e|] s1|q s1|] eqn:E; cbn [fine] in *; auto.
    destruct (c_act c a (firstn n1 src) (glen s1 g) s1) as [| [e| |q] ?|] eqn:Ea; cbn [fine]; auto.
    exfalso. eapply Hact; [exact Ea|reflexivity].
  - destruct (c_begin c t s) as [v s0]. pose proof (IH g src s0 Hg) as Hr.
    destruct (gm f g src s0) as [n1 [e|] s1|q s1|] eqn:E; cbn [fine] in *; auto.
Qed.
End Dangling.

(** ** Elaboration only uses registered variables *)
Section Closed.
Context {A T PM M : Type}.
Notation G := (gr A T).
Notation D := (dst A T M).
Variable marker : G -> bytes -> M -> (G * M) + (PM * M).
(** the Marker introduces no rule variable of its own *)
Variable Hm : forall g n m g' m', marker g n m = inl (g', m') -> incl (gvars g') (gvars g).

Definition vkeys (d : D) : list bytes := map fst (d_vars d).
Definition reg (d : D) : Prop :=
  (forall n g, In (n, g) (d_grams d) -> incl (gvars g) (vkeys d)) /\ (forall n g, In (n, g) (d_vars d) -> incl (gvars g) (vkeys d)).
(** runs of [m] keep the invariant and never drop a variable; [Q] says where the result's variables come from *)
Definition keeps {Y : Type} (m : el (A := A) (T := T) (PM := PM) (M := M) Y) (Q : Y -> D -> Prop) : Prop :=
  forall d y d', m d = inl (y, d') -> reg d -> reg d' /\ incl (vkeys d) (vkeys d') /\ Q y d'.
Definition inv (g : G) (d : D) : Prop := incl (gvars g) (vkeys d).
Lemma inv_mono : forall g d d', incl (vkeys d) (vkeys d') -> inv g d -> inv g d'.
Proof. intros g d d' H1 H2. eapply incl_tran; eauto. Qed.

Lemma keeps_bind : forall X Y (m : el X) (k : X -> el Y) Q1 Q2, keeps m Q1 ->
  (forall x d y d', k x d = inl (y, d') -> reg d -> Q1 x d -> reg d' /\ incl (vkeys d) (vkeys d') /\ Q2 y d') -> keeps (bind m k) Q2.
Proof.
  intros X Y m k Q1 Q2 H1 H2 d y d' E Hd. unfold bind in E. destruct (m d) as [[x d1]|] eqn:E1; [|discriminate].
  destruct (H1 d x d1 E1 Hd) as (R1 & I1 & Hq). destruct (H2 x d1 y d' E R1 Hq) as (R2 & I2 & Hq2). split; [exact R2|]. split; [eapply incl_tran; eauto|exact Hq2].
Qed.
Lemma reg_same : forall d d', d_grams d' = d_grams d -> d_vars d' = d_vars d -> reg d -> reg d' /\ incl (vkeys d) (vkeys d').
Proof. intros d d' E1 E2 H. unfold reg, vkeys in *. rewrite E1, E2. split; [exact H|apply incl_refl]. Qed.
Lemma find_in : forall X n (l : list (bytes * X)) v, find n l = Some v -> In (n, v) l.
Proof.
  induction l as [|[k w] l IH]; intros v H; [discriminate|]. cbn [find] in H. destruct (beq n k) eqn:E; [|right; auto].
  apply beq_eq in E. injection H as ->. subst. left. reflexivity.
Qed.
Lemma keeps_token : forall l, keeps (the_token l) inv.
Proof.
  intros l d y d' E Hd. unfold the_token in E. destruct (tk_ltot (d_tk d) l) as [[tok k]|]; [|discriminate]. destruct (tok =? ILLEGAL); [discriminate|]. injection E as <- <-.
  destruct (reg_same d (set_tk k d) eq_refl eq_refl Hd). split; [assumption|]. split; [assumption|]. intros v [].
Qed.
Lemma keeps_name : forall n, keeps (the_name n) inv.
Proof.
  intros n d y d' E Hd. unfold the_name in E. destruct n as [|ch r]; [discriminate|]. destruct (_ && _); [apply (keeps_token _ _ _ _ E Hd)|].
  destruct (find (ch :: r) (d_grams d)) as [g|] eqn:Eg.
  { injection E as <- <-. split; [exact Hd|]. split; [apply incl_refl|]. apply find_in in Eg. apply (proj1 Hd _ _ Eg). }
  destruct (find (ch :: r) (d_vars d)) as [g|] eqn:Ev.
  { injection E as <- <-. split; [exact Hd|]. split; [apply incl_refl|]. intros v [<-|[]]. apply find_in in Ev. apply in_map_iff. exists (ch :: r, g). auto. }
  destruct (beq (ch :: r) n_true).
  { injection E as <- <-. split; [exact Hd|]. split; [apply incl_refl|]. intros v []. }
  injection E as <- <-. assert (Hi : incl (vkeys d) (vkeys (add_var (ch :: r) d))) by (unfold vkeys; cbn [d_vars add_var]; rewrite map_app; apply incl_appl, incl_refl).
  split; [|split; [exact Hi|]].
  - split; intros k g H; cbn [d_grams d_vars add_var] in H.
    + eapply incl_tran; [apply (proj1 Hd _ _ H)|exact Hi].
    + apply in_app_iff in H. destruct H as [H|[H|[]]]; [eapply incl_tran; [apply (proj2 Hd _ _ H)|exact Hi]|]. injection H as <- <-. intros v [].
  - intros v [<-|[]]. unfold vkeys. cbn [d_vars add_var]. rewrite map_app. apply in_app_iff. right. left. reflexivity.
Qed.
Lemma keeps_each : forall X (f : X -> el G) l, Forall (fun x => keeps (f x) inv) l -> keeps (each f l) (fun ys d => Forall (fun y => inv y d) ys).
Proof.
  intros X f. induction l as [|x l IH]; intros HF d ys d' E Hd; cbn [each] in E.
  - injection E as <- <-. split; [exact Hd|]. split; [apply incl_refl|constructor].
  - inversion HF as [|? ? HFx HFs]; subst. unfold bind, ret in E. destruct (f x d) as [[y d1]|] eqn:E1; [|discriminate]. destruct (each f l d1) as [[ys1 d2]|] eqn:E2; [|discriminate]. injection E as <- <-.
    destruct (HFx _ _ _ E1 Hd) as (R1 & I1 & Q1). destruct (IH HFs _ _ _ E2 R1) as (R2 & I2 & Q2). split; [exact R2|]. split; [eapply incl_tran; eauto|].
    constructor; [eapply inv_mono; eauto|exact Q2].
Qed.
Lemma keeps_group : forall X (f : X -> el G) l mk, (forall gs, gvars (mk gs) = flat_map gvars gs) -> Forall (fun x => keeps (f x) inv) l ->
  keeps (bind (each f l) (fun xs => ret (group mk xs))) inv.
Proof.
  intros X f l mk Hmk HF. eapply keeps_bind; [apply keeps_each; exact HF|]. intros xs d y d' E Hd Hx. injection E as <- <-. split; [exact Hd|]. split; [apply incl_refl|].
  assert (Y : inv (mk xs) d) by (unfold inv; rewrite Hmk; intros v Hv; apply in_flat_map in Hv; destruct Hv as (g & Hg & Hv); rewrite Forall_forall in Hx; apply (Hx g Hg v Hv)).
  destruct xs as [|x [|]]; cbn [group]; try exact Y. inversion Hx; subst. assumption.
Qed.
Lemma keeps_all : (forall f, keeps (e_factor marker f) inv) /\ (forall i, keeps (e_item marker i) inv) /\
  (forall s g d y d', e_suffix marker s g d = inl (y, d') -> reg d -> inv g d -> reg d' /\ incl (vkeys d) (vkeys d') /\ inv y d').
Proof.
  apply syntax_ind.
  - intro n. apply keeps_name.
  - intro l. apply keeps_token.
  - intro l. apply keeps_token.
  - intros l d y d' E Hd. cbn [e_factor] in E. destruct (beq l [49]); [|discriminate]. injection E as <- <-. split; [exact Hd|]. split; [apply incl_refl|]. intros v [].
  - intros o f IH. cbn [e_factor]. eapply keeps_bind; [exact IH|]. intros x d y d' E Hd Hx.
    destruct o; cbn [prefix] in E; unfold bind, fresh, ret, new_obj in E; injection E as <- <-; split; try exact Hd; split; try apply incl_refl; exact Hx.
  - intros g IH. cbn [e_factor]. apply keeps_group; [reflexivity|]. rewrite Forall_forall in *. intros e He. apply keeps_group; [reflexivity|]. apply IH. exact He.
  - intros d y d' E Hd. injection E as <- <-. split; [exact Hd|]. split; [apply incl_refl|]. intros v [].
  - intros f ss IHf IHs.
    assert (X : forall ss, Forall (fun s => forall g d y d', e_suffix marker s g d = inl (y, d') -> reg d -> inv g d -> reg d' /\ incl (vkeys d) (vkeys d') /\ inv y d') ss ->
      forall g d y d', go_suffixes marker ss g d = inl (y, d') -> reg d -> inv g d -> reg d' /\ incl (vkeys d) (vkeys d') /\ inv y d').
    { clear. induction ss as [|s ss IH]; intros HF g d y d' E Hd Hg; cbn [go_suffixes] in E.
      - injection E as <- <-. split; [exact Hd|]. split; [apply incl_refl|exact Hg].
      - inversion HF as [|? ? HFx HFs]; subst. unfold bind in E. destruct (e_suffix marker s g d) as [[x d1]|] eqn:E1; [|discriminate].
        destruct (HFx _ _ _ _ E1 Hd Hg) as (R1 & I1 & Q1). destruct (IH HFs _ _ _ _ E R1 Q1) as (R2 & I2 & Q2). split; [exact R2|]. split; [eapply incl_tran; eauto|exact Q2]. }
    intros d y d' E Hd. rewrite e_item_term in E. revert d y d' E Hd. change (keeps (bind (e_factor marker f) (go_suffixes marker ss)) inv).
    eapply keeps_bind; [exact IHf|]. intros x d y d' E Hd Hx. apply (X ss IHs _ _ _ _ E Hd Hx).
  - intros f IH g d y d' E Hd Hg. change (bind (e_factor marker f) (fun b => bind fresh (fun i => ret (GList i g b false))) d = inl (y, d')) in E. unfold bind, fresh, ret, new_obj in E. destruct (e_factor marker f d) as [[b d1]|] eqn:E1; [|discriminate]. injection E as <- <-.
    destruct (IH _ _ _ E1 Hd) as (R1 & I1 & Q1). split; [exact R1|]. split; [exact I1|]. unfold inv. cbn [gvars]. apply incl_app; [eapply inv_mono; eauto|exact Q1].
  - intros f IH g d y d' E Hd Hg. change (bind (e_factor marker f) (fun b => bind fresh (fun i => ret (GList i g b true))) d = inl (y, d')) in E. unfold bind, fresh, ret, new_obj in E. destruct (e_factor marker f d) as [[b d1]|] eqn:E1; [|discriminate]. injection E as <- <-.
    destruct (IH _ _ _ E1 Hd) as (R1 & I1 & Q1). split; [exact R1|]. split; [exact I1|]. unfold inv. cbn [gvars]. apply incl_app; [eapply inv_mono; eauto|exact Q1].
  - intros n g d y d' E Hd Hg. cbn [e_suffix] in E. unfold the_mark in E. destruct (marker g n (d_m d)) as [[g' m]|[p m]] eqn:Em; [|discriminate]. injection E as <- <-.
    split; [exact Hd|]. split; [apply incl_refl|]. eapply incl_tran; [eapply Hm; exact Em|exact Hg].
Qed.
Lemma keeps_gram : forall g, keeps (e_gram marker g) inv.
Proof.
  intro g. unfold e_gram. apply keeps_group; [reflexivity|]. apply Forall_forall. intros e _. unfold e_expr. apply keeps_group; [reflexivity|]. apply Forall_forall. intros i _. apply keeps_all.
Qed.
Lemma in_update : forall X n (v : X) l k w, In (k, w) (update n v l) -> In (k, w) l \/ w = v.
Proof.
  intros X n v. induction l as [|[k' w'] l IH]; intros k w H; cbn [update] in H; [contradiction|]. destruct (beq n k').
  - destruct H as [H|H]; [injection H as <- <-; auto|left; right; exact H].
  - destruct H as [H|H]; [left; left; exact H|]. apply IH in H. destruct H; [left; right; assumption|auto].
Qed.
Lemma keeps_rule : forall r, keeps (e_rule marker r) (fun _ _ => True).
Proof.
  intro r. unfold e_rule. eapply keeps_bind; [apply keeps_gram|]. intros g d y d' E Hd Hg. unfold define in E.
  destruct (find (fst r) (d_vars d)) as [e|] eqn:Ev.
  - destruct (is_nil e); [|discriminate]. injection E as <- <-.
    assert (K : vkeys (set_var (fst r) g d) = vkeys d) by (unfold vkeys; cbn [d_vars set_var]; apply keys_update).
    split; [|split; [rewrite K; apply incl_refl|exact I]]. split; intros n h H; rewrite K; cbn [d_grams d_vars set_var] in H.
    + apply (proj1 Hd _ _ H).
    + apply in_update in H. destruct H as [H| ->]; [apply (proj2 Hd _ _ H)|exact Hg].
  - destruct (find (fst r) (d_grams d)) eqn:Eg; [discriminate|]. injection E as <- <-. split; [|split; [apply incl_refl|exact I]].
    split; intros n h H; cbn [d_grams d_vars add_gram] in H; [|apply (proj2 Hd _ _ H)]. apply in_app_iff in H. destruct H as [H|[H|[]]]; [apply (proj1 Hd _ _ H)|]. injection H as <- <-. exact Hg.
Qed.
Lemma keeps_doc : forall rs, keeps (e_doc marker rs) (fun _ _ => True).
Proof.
  induction rs as [|r rs IH]; cbn [e_doc].
  - intros d y d' E Hd. injection E as <- <-. split; [exact Hd|]. split; [apply incl_refl|exact I].
  - eapply keeps_bind; [apply keeps_rule|]. intros x d y d' E Hd _. apply (IH _ _ _ E Hd).
Qed.
(** all variables assigned: nothing dangles *)
Lemma cenv_closed : forall d : D, reg d -> unassigned d = [] ->
  (forall n g, In (n, g) (d_grams d) -> closed (cenv d) g) /\ (forall v g, cenv d v = Some g -> closed (cenv d) g).
Proof.
  intros d Hd Hu.
  assert (X : forall v, In v (vkeys d) -> cenv d v <> None).
  { intros v Hv. unfold cenv. destruct (find v (d_vars d)) as [g|] eqn:E.
    - destruct (is_nil g) eqn:En; [|destruct g; discriminate]. exfalso. apply find_in in E. unfold unassigned in Hu.
      assert (Y : In v (map fst (filter (fun p => is_nil (snd p)) (d_vars d)))) by (apply in_map_iff; exists (v, g); split; [reflexivity|]; apply filter_In; auto). rewrite Hu in Y. exact Y.
    - apply find_none in E. contradiction. }
  split.
  - intros n g H v Hv. apply X. apply (proj1 Hd _ _ H). exact Hv.
  - intros k g H v Hv. apply X. unfold cenv in H. destruct (find k (d_vars d)) as [h|] eqn:E; [|discriminate].
    assert (h = g) by (destruct h; congruence). subst h. apply find_in in E. apply (proj2 Hd _ _ E). exact Hv.
Qed.
Lemma reg_d0 : forall tk m, reg (d0 tk m).
Proof. intros tk m. split; intros n g []. Qed.
End Closed.

(** ** Marks *)
Fixpoint marks_factor (f : factor) : list bytes :=
  match f with
  | FPre _ f1 => marks_factor f1
  | FParen g => flat_map (fun e => flat_map marks_item e) g
  | _ => []
  end
with marks_item (i : item) : list bytes := match i with IBang => [] | ITerm f ss => marks_factor f ++ flat_map marks_suffix ss end
with marks_suffix (s : suffix) : list bytes := match s with SList f | SList0 f => marks_factor f | SMark n => [n] end.
Definition marks_gram (g : gram) : list bytes := flat_map (fun e => flat_map marks_item e) g.
Definition marks_doc (rs : list rule) : list bytes := flat_map (fun r => marks_gram (snd r)) rs.

Section Marks.
Context {A T PM M : Type}.
Notation G := (gr A T).
Variable marker : G -> bytes -> M -> (G * M) + (PM * M).
(** the Marker, keeping a log of its calls and results *)
Definition logged (g : G) (n : bytes) (ml : M * list (G * bytes * G)) : (G * (M * list (G * bytes * G))) + (PM * (M * list (G * bytes * G))) :=
  match marker g n (fst ml) with
  | inl (g', m') => inl (g', (m', snd ml ++ [(g, n, g')]))
  | inr (p, m') => inr (p, (m', snd ml))
  end.
Notation D := (dst A T (M * list (G * bytes * G))).
Definition log (d : D) : list (G * bytes * G) := snd (d_m d).
Definition logs {Y : Type} (m : el (A := A) (T := T) (PM := PM) (M := M * list (G * bytes * G)) Y) (ns : list bytes) : Prop :=
  forall d y d', m d = inl (y, d') -> exists l, log d' = log d ++ l /\ map (fun x => snd (fst x)) l = ns.
Lemma logs_none : forall Y (m : el Y), (forall d y d', m d = inl (y, d') -> d_m d' = d_m d) -> logs m [].
Proof. intros Y m H d y d' E. exists []. rewrite app_nil_r. unfold log. rewrite (H _ _ _ E). auto. Qed.
Lemma logs_bind : forall X Y (m : el X) (k : X -> el Y) a b, logs m a -> (forall x, logs (k x) b) -> logs (bind m k) (a ++ b).
Proof.
  intros X Y m k a b H1 H2 d y d' E. unfold bind in E. destruct (m d) as [[x d1]|] eqn:E1; [|discriminate].
  destruct (H1 _ _ _ E1) as (l1 & L1 & N1). destruct (H2 _ _ _ _ E) as (l2 & L2 & N2). exists (l1 ++ l2). rewrite L2, L1, app_assoc, map_app, N1, N2. auto.
Qed.
Lemma logs_each : forall X Y (f : X -> el Y) r l, Forall (fun x => logs (f x) (r x)) l -> logs (each f l) (flat_map r l).
Proof.
  intros X Y f r. induction l as [|x l IH]; intro HF; cbn [each flat_map]; [apply logs_none; intros d y d' E; injection E as <- <-; reflexivity|]. inversion HF as [|? ? HFx HFs]; subst.
  apply logs_bind; [exact HFx|]. intro y. rewrite <- (app_nil_r (flat_map r l)). apply logs_bind; [apply IH; exact HFs|]. intro ys. apply logs_none. intros d z d' E; injection E as <- <-; reflexivity.
Qed.
Lemma logs_ret : forall Y (y : Y), logs (ret y) [].
Proof. intros Y y. apply logs_none. intros d z d' E; injection E as <- <-; reflexivity. Qed.
Lemma logs_token : forall l, logs (the_token l) [].
Proof. intros l. apply logs_none. intros d y d' E. unfold the_token in E. destruct (tk_ltot (d_tk d) l) as [[tok k]|]; [|discriminate]. destruct (tok =? ILLEGAL); [discriminate|]. injection E as <- <-. reflexivity. Qed.
Lemma logs_name : forall n, logs (the_name n) [].
Proof.
  intros n d y d' E. unfold the_name in E. destruct n as [|ch r]; [discriminate|]. destruct (_ && _); [apply (logs_token _ _ _ _ E)|].
  exists []. rewrite app_nil_r. split; [|reflexivity]. destruct (find (ch :: r) (d_grams d)); [injection E as <- <-; reflexivity|]. destruct (find (ch :: r) (d_vars d)); [injection E as <- <-; reflexivity|].
  destruct (beq (ch :: r) n_true); injection E as <- <-; reflexivity.
Qed.
Lemma logs_all : (forall f, logs (e_factor logged f) (marks_factor f)) /\ (forall i, logs (e_item logged i) (marks_item i)) /\
  (forall s g, logs (e_suffix logged s g) (marks_suffix s)).
Proof.
  apply syntax_ind.
  - intro n. apply logs_name.
  - intro l. apply logs_token.
  - intro l. apply logs_token.
  - intros l. cbn [e_factor marks_factor]. destruct (beq l [49]); [apply logs_ret|]. intros d y d' E. discriminate.
  - intros o f IH. cbn [e_factor marks_factor]. rewrite <- (app_nil_r (marks_factor f)). apply logs_bind; [exact IH|]. intro x.
    apply logs_none. intros d y d' E. destruct o; cbn [prefix] in E; unfold bind, fresh, ret, new_obj in E; injection E as <- <-; reflexivity.
  - intros g IH. cbn [e_factor marks_factor]. rewrite <- (app_nil_r (flat_map _ g)). apply logs_bind; [|intro; apply logs_ret].
    apply (logs_each _ _ _ (fun e => flat_map marks_item e)). rewrite Forall_forall in *. intros e He.
    rewrite <- (app_nil_r (flat_map _ e)). apply logs_bind; [|intro; apply logs_ret]. apply logs_each. apply IH. exact He.
  - cbn [e_item marks_item]. apply logs_ret.
  - intros f ss IHf IHs. cbn [marks_item]. change (logs (bind (e_factor logged f) (go_suffixes logged ss)) (marks_factor f ++ flat_map marks_suffix ss)). apply logs_bind; [exact IHf|].
    induction IHs as [|s ss Hs _ IH]; intro g; cbn [go_suffixes flat_map]; [apply logs_ret|]. apply logs_bind; [apply Hs|exact IH].
  - intros f IH g. cbn [e_suffix marks_suffix]. rewrite <- (app_nil_r (marks_factor f)). apply logs_bind; [exact IH|]. intro b. apply logs_none. intros d y d' E. unfold bind, fresh, ret, new_obj in E. injection E as <- <-. reflexivity.
  - intros f IH g. cbn [e_suffix marks_suffix]. rewrite <- (app_nil_r (marks_factor f)). apply logs_bind; [exact IH|]. intro b. apply logs_none. intros d y d' E. unfold bind, fresh, ret, new_obj in E. injection E as <- <-. reflexivity.
  - intros n g d y d' E. cbn [e_suffix] in E. unfold the_mark, logged in E. destruct (marker g n (fst (d_m d))) as [[g' m]|[p m]]; [|discriminate]. injection E as <- <-. exists [(g, n, g')]. split; reflexivity.
Qed.
Lemma logs_doc : forall rs, logs (e_doc logged rs) (marks_doc rs).
Proof.
  induction rs as [|r rs IH]; cbn [e_doc]; [apply logs_ret|]. unfold marks_doc. cbn [flat_map]. apply logs_bind; [|intro; exact IH].
  unfold e_rule. rewrite <- (app_nil_r (marks_gram (snd r))). apply logs_bind.
  - unfold e_gram, marks_gram. rewrite <- (app_nil_r (flat_map _ (snd r))). apply logs_bind; [|intro; apply logs_ret].
    apply (logs_each _ _ _ (fun e => flat_map marks_item e)). apply Forall_forall. intros e _. unfold e_expr.
    rewrite <- (app_nil_r (flat_map _ e)). apply logs_bind; [|intro; apply logs_ret]. apply logs_each. apply Forall_forall. intros i _. apply logs_all.
  - intro g. apply logs_none. intros d y d' E. unfold define in E. destruct (find (fst r) (d_vars d)) as [e|]; [destruct (is_nil e); [|discriminate]; injection E as <- <-; reflexivity|].
    destruct (find (fst r) (d_grams d)); [discriminate|]. injection E as <- <-; reflexivity.
Qed.
End Marks.

(** ** A token sequence spells at most one syntax tree *)
Definition nohd (ks : list Z) (l : list sig) : Prop := match l with s :: _ => ~ In (fst s) ks | [] => True end.
Definition Uf (f : factor) : Prop := forall f' x x', ok_factor f = true -> ok_factor f' = true -> r_factor f ++ x = r_factor f' ++ x' -> f = f' /\ x = x'.
Definition Us (s : suffix) : Prop := forall s' x x', ok_suffix s = true -> ok_suffix s' = true -> r_suffix s ++ x = r_suffix s' ++ x' -> s = s' /\ x = x'.
Definition Ui (i : item) : Prop := forall i' x x', ok_item i = true -> ok_item i' = true -> nohd first_suffix x -> nohd first_suffix x' -> r_item i ++ x = r_item i' ++ x' -> i = i' /\ x = x'.

Section Many.
Context {X : Type}.
Variable r : X -> list sig.
Variable ok : X -> bool.
Variable first : list Z.
Variable Hf : forall x, ok x = true -> hd_in first (r x).
(** what may follow each element *)
Variable fol : list sig -> Prop.
Variable fol_first : forall l, hd_in first l -> fol l.
Lemma many_unique : forall l, Forall (fun a => forall a' x x', ok a = true -> ok a' = true -> fol x -> fol x' -> r a ++ x = r a' ++ x' -> a = a' /\ x = x') l ->
  forall l' x x', forallb ok l = true -> forallb ok l' = true -> nohd first x -> nohd first x' -> fol x -> fol x' ->
  flat_map r l ++ x = flat_map r l' ++ x' -> l = l' /\ x = x'.
Proof.
  assert (F : forall l x, forallb ok l = true -> fol x -> fol (flat_map r l ++ x)).
  { intros [|a l] x Ho Hx; [exact Hx|]. cbn [forallb] in Ho. apply andb_true_iff in Ho. destruct Ho as [Ho _]. apply fol_first. cbn [flat_map].
    pose proof (Hf a Ho) as H. destruct (r a); [contradiction|exact H]. }
  assert (C : forall a l x x', ok a = true -> nohd first x' -> x' = flat_map r (a :: l) ++ x -> False).
  { intros a l x x' Ho Hn ->. cbn [flat_map] in Hn. pose proof (Hf a Ho) as H. destruct (r a) as [|s rs]; [contradiction|]. apply Hn. exact H. }
  induction l as [|a l IH]; intros HF l' x x' Ho Ho' Hx Hx' Fx Fx' E.
  - destruct l' as [|a' l']; [auto|]. exfalso. cbn [forallb] in Ho'. apply andb_true_iff in Ho'. apply (C a' l' x' x); [apply Ho'|exact Hx|exact E].
  - cbn [forallb] in Ho. apply andb_true_iff in Ho. destruct Ho as [Oa Ol]. destruct l' as [|a' l'].
    { exfalso. apply (C a l x x' Oa Hx'). symmetry. exact E. }
    cbn [forallb] in Ho'. apply andb_true_iff in Ho'. destruct Ho' as [Oa' Ol']. inversion HF as [|? ? HFx HFs]; subst. cbn [flat_map] in E. rewrite <- !app_assoc in E.
    apply HFx in E; [|assumption|assumption|apply F; assumption|apply F; assumption]. destruct E as [-> E]. apply IH in E; try assumption. destruct E as [-> ->]. auto.
Qed.
End Many.

Lemma hd_in_incl : forall a b l, incl a b -> hd_in a l -> hd_in b l.
Proof. intros a b [|s l] H; [auto|]. cbn. apply H. Qed.
Definition disjoint (a b : list Z) : bool := forallb (fun k => negb (existsb (Z.eqb k) b)) a.
Lemma disjoint_not : forall a b k, disjoint a b = true -> In k a -> In k b -> False.
Proof.
  intros a b k H Ha Hb. unfold disjoint in H. rewrite forallb_forall in H. specialize (H k Ha). apply negb_true_iff in H.
  assert (X : existsb (Z.eqb k) b = true) by (apply existsb_exists; exists k; split; [exact Hb|apply Z.eqb_refl]). congruence.
Qed.
Lemma hd_nohd : forall a b l, disjoint a b = true -> hd_in a l -> nohd b l.
Proof. intros a b [|s l] H Ha; [contradiction|]. intro Hb. eapply disjoint_not; eauto. Qed.
Lemma items_not_suffix : forall l, hd_in first_item l -> nohd first_suffix l.
Proof. intro l. apply hd_nohd. reflexivity. Qed.

Lemma expr_unique : forall e, Forall Ui e -> forall e' x x', ok_expr e = true -> ok_expr e' = true ->
  nohd (first_suffix ++ first_item) x -> nohd (first_suffix ++ first_item) x' -> r_expr e ++ x = r_expr e' ++ x' -> e = e' /\ x = x'.
Proof.
  intros e HF e' x x' Ho Ho' Hx Hx' E. unfold ok_expr in *. apply andb_true_iff in Ho, Ho'. destruct Ho as [_ Ho]. destruct Ho' as [_ Ho'].
  assert (N : forall a b l, nohd (a ++ b) l -> nohd a l /\ nohd b l) by (intros a b [|s l]; cbn; [auto|]; rewrite in_app_iff; tauto).
  destruct (N _ _ _ Hx) as [X1 X2]. destruct (N _ _ _ Hx') as [X3 X4].
  apply (many_unique r_item ok_item first_item (fun i _ => r_item_first i) (nohd first_suffix) items_not_suffix e); auto. 
Qed.
Lemma alts_unique : forall g, Forall (Forall Ui) g -> forall g' x x', forallb ok_expr g = true -> forallb ok_expr g' = true ->
  nohd (124 :: first_suffix ++ first_item) x -> nohd (124 :: first_suffix ++ first_item) x' ->
  flat_map (fun x => op OR :: x) (map r_expr g) ++ x = flat_map (fun x => op OR :: x) (map r_expr g') ++ x' -> g = g' /\ x = x'.
Proof.
  intros g HF g' x x' Ho Ho' Hx Hx' E.
  assert (FM : forall g, flat_map (fun x => op OR :: x) (map r_expr g) = flat_map (fun e => op OR :: r_expr e) g) by (induction g0 as [|e g0 IH]; cbn; [reflexivity|rewrite IH; reflexivity]).
  rewrite !FM in E.
  assert (N : forall l, nohd (124 :: first_suffix ++ first_item) l -> nohd [124] l /\ nohd (first_suffix ++ first_item) l) by (intros [|s l]; cbn; [auto|]; tauto).
  destruct (N _ Hx) as [X1 X2]. destruct (N _ Hx') as [X3 X4].
  apply (many_unique (fun e => op OR :: r_expr e) ok_expr [124] (fun e _ => or_introl eq_refl) (nohd (first_suffix ++ first_item))) with (l := g) (l' := g'); auto.
  - intro l. apply hd_nohd. reflexivity.
  - eapply Forall_impl; [|exact HF]. intros e He a' y y' O1 O2 F1 F2 E1. injection E1 as E1. apply (expr_unique e He); assumption.
Qed.
Lemma gram_unique : forall g, Forall (Forall Ui) g -> forall g' x x', ok_gram g = true -> ok_gram g' = true ->
  nohd (124 :: first_suffix ++ first_item) x -> nohd (124 :: first_suffix ++ first_item) x' -> r_gram g ++ x = r_gram g' ++ x' -> g = g' /\ x = x'.
Proof.
  intros g HF g' x x' Ho Ho' Hx Hx' E. unfold ok_gram in *. apply andb_true_iff in Ho, Ho'. destruct Ho as [N1 Ho]. destruct Ho' as [N2 Ho'].
  destruct g as [|e g]; [discriminate|]. destruct g' as [|e' g']; [discriminate|]. cbn [forallb] in *. apply andb_true_iff in Ho, Ho'. destruct Ho as [O1 O2]. destruct Ho' as [O1' O2'].
  unfold r_gram in E. cbn [map] in E. rewrite !joined_cons, <- !app_assoc in E. inversion HF as [|? ? HFx HFs]; subst.
  assert (S : forall g x, nohd (124 :: first_suffix ++ first_item) x -> nohd (first_suffix ++ first_item) (flat_map (fun x => op OR :: x) (map r_expr g) ++ x)).
  { intros [|e0 g0] y Hy; cbn [flat_map map app]; [destruct y; cbn in *; [exact I|tauto]|]. apply (hd_nohd [124]); [reflexivity|left; reflexivity]. }
  apply (expr_unique e HFx) in E; auto. destruct E as [-> E]. apply (alts_unique g HFs) in E; auto. destruct E as [-> ->]. auto.
Qed.
Lemma unique_all : (forall f, Uf f) /\ (forall i, Ui i) /\ (forall s, Us s).
Proof.
  assert (Lst : forall f s' x x', Uf f -> forall s, (s = SList f \/ s = SList0 f) -> ok_suffix s = true -> ok_suffix s' = true -> r_suffix s ++ x = r_suffix s' ++ x' -> s = s' /\ x = x').
  { intros f s' x x' IH s [-> | ->] Ho Ho' E; destruct s'; cbn in E; try discriminate; injection E as E; apply IH in E; try assumption; destruct E as [-> ->]; auto. }
  apply syntax_ind.
  - intros n f' x x' _ _ E. destruct f' as [| | | |[] ?|]; cbn in E; try discriminate. injection E as -> ->. auto.
  - intros n f' x x' _ _ E. destruct f' as [| | | |[] ?|]; cbn in E; try discriminate. injection E as -> ->. auto.
  - intros n f' x x' _ _ E. destruct f' as [| | | |[] ?|]; cbn in E; try discriminate. injection E as -> ->. auto.
  - intros n f' x x' _ _ E. destruct f' as [| | | |[] ?|]; cbn in E; try discriminate. injection E as -> ->. auto.
  - intros o f IH f' x x' Ho Ho' E. destruct f' as [| | | |o' f'|]; cbn [r_factor app] in E; try (destruct o; discriminate).
    injection E as Eo E. assert (o = o') by (destruct o, o'; try reflexivity; discriminate). subst o'. apply IH in E; try assumption. destruct E as [-> ->]. auto.
  - intros g IH f' x x' Ho Ho' E. destruct f' as [| | | |[] f'|g']; cbn [r_factor app] in E; try discriminate. injection E as E. rewrite <- !app_assoc in E.
    apply (gram_unique g IH) in E; try assumption; try (apply (hd_nohd [41]); [reflexivity|left; reflexivity]). destruct E as [-> E]. injection E as ->. auto.
  - intros i' x x' _ Ho' _ _ E. destruct i' as [|f ss]; cbn in E; [injection E as ->; auto|]. exfalso. rewrite <- app_assoc in E. pose proof (r_factor_first f) as X.
    destruct (r_factor f); [contradiction|]. injection E as <- _. apply (disjoint_not [33] first_factor 33); [reflexivity|left; reflexivity|exact X].
  - intros f ss IHf IHs i' x x' Ho Ho' Hx Hx' E. cbn [ok_item] in *. apply andb_true_iff in Ho. destruct Ho as [O1 O2]. destruct i' as [|f' ss'].
    + exfalso. cbn [r_item] in E. rewrite <- app_assoc in E. pose proof (r_factor_first f) as X. destruct (r_factor f); [contradiction|]. injection E as -> _. apply (disjoint_not [33] first_factor 33); [reflexivity|left; reflexivity|exact X].
    + cbn [ok_item] in Ho'. apply andb_true_iff in Ho'. destruct Ho' as [O3 O4]. cbn [r_item] in E. rewrite <- !app_assoc in E. apply IHf in E; try assumption. destruct E as [-> E].
      apply (many_unique r_suffix ok_suffix first_suffix (fun s _ => r_suffix_first s) (fun _ => True) (fun _ _ => I)) in E; auto; [destruct E as [-> ->]; auto|].
      eapply Forall_impl; [|exact IHs]. intros s Hs a' y y' A1 A2 _ _ E1. apply Hs; assumption.
  - intros f IH s' x x' Ho Ho' E. apply (Lst f s' x x' IH (SList f)); auto.
  - intros f IH s' x x' Ho Ho' E. apply (Lst f s' x x' IH (SList0 f)); auto.
  - intros n s' x x' _ _ E. destruct s'; cbn in E; try discriminate. injection E as -> ->. auto.
Qed.
Lemma doc_unique : forall rs rs', forallb (fun r => ok_gram (snd r)) rs = true -> forallb (fun r => ok_gram (snd r)) rs' = true -> r_doc rs = r_doc rs' -> rs = rs'.
Proof.
  intros rs rs' Ho Ho' E.
  assert (X : rs = rs' /\ ([] : list sig) = []); [|apply X].
  apply (many_unique r_rule (fun r => ok_gram (snd r)) [IDENT] (fun r _ => or_introl eq_refl) (fun _ => True) (fun _ _ => I)); auto; try exact I; [|unfold r_doc in E; rewrite E; reflexivity].
  apply Forall_forall. intros [n g] _ [n' g'] x x' O1 O2 _ _ E1. unfold r_rule in E1. cbn [fst snd app] in *. injection E1 as -> E1. rewrite <- !app_assoc in E1.
  apply gram_unique in E1; try assumption; try (apply (hd_nohd [59]); [reflexivity|left; reflexivity]).
  - destruct E1 as [-> E1]. injection E1 as ->. auto.
  - apply Forall_forall. intros e _. apply Forall_forall. intros i _. apply unique_all.
Qed.
