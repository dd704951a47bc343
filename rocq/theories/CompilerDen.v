(** What a rule's text denotes, read off its syntax alone (C32): rule names stand for themselves. *)
From Coq Require Import String.
From Verif Require Import Base Token Utf8 Scanner Tokenize Grammar Matcher Compiler GramSyntax CompilerProofs CompilerTop CompilerMore.

(** ** The grammar a syntax tree denotes, with rules called by name and objects not numbered *)
Section Sem.
Context {A T : Type}.
(** the code of a quoted or capitalized token *)
Variable code : bytes -> Z.
(** whether an earlier rule is called [true] *)
Variable truerule : bool.
(** what a mark does to the grammar before it *)
Variable mark : bytes -> gr A T -> gr A T.
Definition sem_pre (o : preop) (g : gr A T) : gr A T :=
  match o with PStar => GRep0 0 g | PPlus => GRep1 0 g | POpt => GRep01 0 g | PNot => GNot g | PPeek => GPeek g end.
Fixpoint sem_factor (f : factor) : gr A T :=
  match f with
  | FIdent n => if upper n then GTok (code n) else if beq n n_true && negb truerule then GTrue else GVar n
  | FChar l | FString l => GTok (code l)
  | FInt _ => GTrue
  | FPre o f1 => sem_pre o (sem_factor f1)
  | FParen g => group GOr (map (fun e => group GAnd (map sem_item e)) g)
  end
with sem_item (i : item) : gr A T :=
  match i with
  | IBang => GNil
  | ITerm f ss => (fix go (ss : list suffix) (g : gr A T) : gr A T := match ss with [] => g | s :: ss' => go ss' (sem_suffix s g) end) ss (sem_factor f)
  end
with sem_suffix (s : suffix) (g : gr A T) : gr A T :=
  match s with SList f => GList 0 g (sem_factor f) false | SList0 f => GList 0 g (sem_factor f) true | SMark n => mark n g end.
Definition sem_expr (e : expr) : gr A T := group GAnd (map sem_item e).
Definition sem_gram (g : gram) : gr A T := group GOr (map sem_expr g).
Fixpoint sem_suffixes (ss : list suffix) (g : gr A T) : gr A T := match ss with [] => g | s :: ss' => sem_suffixes ss' (sem_suffix s g) end.
Lemma sem_item_term : forall f ss, sem_item (ITerm f ss) = sem_suffixes ss (sem_factor f).
Proof. reflexivity. Qed.
End Sem.

(** ** Forgetting object numbers, and the bodies of named rules *)
Fixpoint erase {A T : Type} (g : gr A T) : gr A T :=
  match g with
  | GNil => GNil | GTok k => GTok k | GTrue => GTrue | GEOF => GEOF
  | GPeek g1 => GPeek (erase g1) | GNot g1 => GNot (erase g1)
  | GRep0 _ g1 => GRep0 0 (erase g1) | GRep1 _ g1 => GRep1 0 (erase g1) | GRep01 _ g1 => GRep01 0 (erase g1)
  | GNamed n _ => GVar n
  | GAct g1 a => GAct (erase g1) a | GTrans g1 t => GTrans (erase g1) t
  | GAnd gs => GAnd (map erase gs) | GOr gs => GOr (map erase gs)
  | GList _ a b z => GList 0 (erase a) (erase b) z
  | GVar v => GVar v
  end.
(** the named rules [g] contains *)
Fixpoint named {A T : Type} (g : gr A T) : list (bytes * gr A T) :=
  match g with
  | GNil | GTok _ | GTrue | GEOF | GVar _ => []
  | GPeek g1 | GNot g1 | GRep0 _ g1 | GRep1 _ g1 | GRep01 _ g1 | GAct g1 _ | GTrans g1 _ => named g1
  | GNamed n h => [(n, h)]
  | GAnd gs | GOr gs => flat_map named gs
  | GList _ a b _ => named a ++ named b
  end.

Section Den.
Context {A T PM M : Type}.
Notation G := (gr A T).
Notation D := (dst A T M).
Variable marker : G -> bytes -> M -> (G * M) + (PM * M).
(** what the Marker does to a grammar depends on the name only, not on its state *)
Variable w : bytes -> G -> G.
Variable Hm : forall g n m g' m', marker g n m = inl (g', m') -> erase g' = w n (erase g) /\ incl (named g') (named g).

Definition known (tk : tokener) (l : bytes) (tok : Z) : Prop := tk_ltot tk l = Val (tok, tk).
Definition code_of (tk : tokener) (l : bytes) : Z := match tk_ltot tk l with Val (t, _) => t | Crash => 0 end.
Lemma known_code : forall tk l tok, known tk l tok -> code_of tk l = tok.
Proof. intros tk l tok H. unfold code_of. rewrite H. reflexivity. Qed.
Lemma ltot_known : forall tk l tok tk', tk_ltot tk l = Val (tok, tk') -> known tk' l tok /\ forall l' tok', known tk l' tok' -> known tk' l' tok'.
Proof.
  intros [|k] l tok tk' H; cbn [tk_ltot] in H; [injection H as <- <-; split; [reflexivity|auto]|].
  unfold KwLtot in H. destruct (negb (Lit2Token l =? ILLEGAL)) eqn:E.
  { injection H as <- <-. split; [|auto]. unfold known. cbn [tk_ltot]. unfold KwLtot. rewrite E. reflexivity. }
  destruct l as [|q r]; [discriminate|]. destruct (q =? 34) eqn:Eq.
  2:{ injection H as <- <-. split; [|auto]. unfold known. cbn [tk_ltot]. unfold KwLtot. rewrite E, Eq. reflexivity. }
  destruct r as [|r1 r]; [discriminate|]. destruct (kw_find k (removelast (r1 :: r))) as [t|] eqn:Ek.
  { injection H as <- <-. split; [|auto]. unfold known. cbn [tk_ltot]. unfold KwLtot. rewrite E, Eq, Ek. reflexivity. }
  destruct (kw_map k) as [m|] eqn:Em; [|discriminate]. cbn iota beta zeta in H.
  set (k' := mkKw _ _) in H. injection H as <- <-. split.
  - unfold known. cbn [tk_ltot]. unfold KwLtot. rewrite E, Eq.
    assert (X : kw_find k' (removelast (r1 :: r)) = Some (USER_TOKEN_BEGIN + Z.of_nat (length (kw_toks k)))) by (unfold kw_find, k'; cbn [kw_map lookup]; rewrite beq_refl; reflexivity).
    rewrite X. reflexivity.
  - intros l' tok' H. unfold known in *. cbn [tk_ltot] in *. unfold KwLtot in *. destruct (negb (Lit2Token l' =? ILLEGAL)) eqn:E'; [injection H as <-; reflexivity|].
    destruct l' as [|q' r']; [discriminate|]. destruct (q' =? 34); [|injection H as <-; reflexivity].
    destruct r' as [|r1' r']; [discriminate|]. destruct (kw_find k (removelast (r1' :: r'))) as [t|] eqn:Ek'.
    + injection H as <-. assert (X : kw_find k' (removelast (r1' :: r')) = Some t).
      { unfold kw_find, k' in *. cbn [kw_map lookup]. rewrite Em in Ek'. destruct (beq (removelast (r1' :: r')) (removelast (r1 :: r))) eqn:Eb; [|exact Ek'].
        apply beq_eq in Eb. rewrite Eb in Ek'. rewrite Em in Ek. congruence. }
      rewrite X. reflexivity.
    + exfalso. rewrite Em in H. injection H as _ H. apply (f_equal (fun k => length (kw_toks k))) in H. cbn in H. rewrite app_length in H. cbn in H. lia.
Qed.

(** later states keep rules and token codes *)
Definition kept (d d' : D) : Prop :=
  (forall n h, find n (d_grams d) = Some h -> find n (d_grams d') = Some h) /\ (forall l t, known (d_tk d) l t -> known (d_tk d') l t).
Lemma kept_refl : forall d, kept d d.
Proof. intro d. split; auto. Qed.
Lemma kept_trans : forall a b c, kept a b -> kept b c -> kept a c.
Proof. intros a b c [H1 H2] [H3 H4]. split; auto. Qed.
(** the value of a rule name *)
Definition value (d : D) (n : bytes) : option G := match find n (d_grams d) with Some g => Some g | None => find n (d_vars d) end.
Definition no_true (d : D) : Prop := find n_true (d_vars d) = None /\ forall n, find n (d_grams d) <> None -> find n (d_vars d) = None.
Definition tdef (d : D) : bool := match find n_true (d_grams d) with Some _ => true | None => false end.
Definition good (dend : D) (g : G) : Prop := Forall (fun nh => find (fst nh) (d_grams dend) = Some (snd nh)) (named g).
(** elaborating an expression: the state only grows, and the result is [s] *)
Definition grows (d d' : D) : Prop := d_grams d' = d_grams d /\ kept d d' /\ (no_true d -> no_true d') /\ (forall n v, find n (d_vars d) = Some v -> find n (d_vars d') = Some v).
Lemma grows_refl : forall d, grows d d.
Proof. intro d. split; [reflexivity|]. split; [apply kept_refl|]. auto. Qed.
Lemma grows_trans : forall a b c, grows a b -> grows b c -> grows a c.
Proof. intros a b c (H1 & H2 & H3 & H5) (H4 & H6 & H7 & H8). split; [congruence|]. split; [eapply kept_trans; eauto|]. split; auto. Qed.
Definition means (m : el (A := A) (T := T) (PM := PM) (M := M) G) (s : (bytes -> Z) -> bool -> G) : Prop :=
  forall d y d', m d = inl (y, d') -> no_true d -> grows d d' /\
    forall dend, kept d' dend -> erase y = s (code_of (d_tk dend)) (tdef d) /\ good dend y.

Lemma means_token : forall l, means (the_token l) (fun code _ => GTok (code l)).
Proof.
  intros l d y d' E Hn. unfold the_token in E. destruct (tk_ltot (d_tk d) l) as [[tok k]|] eqn:El; [|discriminate]. destruct (tok =? ILLEGAL); [discriminate|]. injection E as <- <-.
  destruct (ltot_known _ _ _ _ El) as [K1 K2]. split.
  - split; [reflexivity|]. split; [split; [auto|exact K2]|]. split; auto.
  - intros dend [_ K]. cbn [erase]. rewrite (known_code _ _ _ (K _ _ K1)). split; [reflexivity|constructor].
Qed.
Lemma means_name : forall n, means (the_name n) (fun code tr => sem_factor code tr w (FIdent n)).
Proof.
  intros n d y d' E Hn. cbn [sem_factor]. unfold the_name in E. destruct n as [|ch r]; [discriminate|]. unfold upper. destruct ((65 <=? ch) && (ch <=? 90)).
  { apply (means_token _ _ _ _ E Hn). }
  destruct (find (ch :: r) (d_grams d)) as [g|] eqn:Eg.
  { injection E as <- <-. split; [apply grows_refl|]. intros dend [K _]. split; [|constructor; [apply K; exact Eg|constructor]].
    cbn [erase]. destruct (beq (ch :: r) n_true) eqn:Et; [|reflexivity]. apply beq_eq in Et. unfold tdef. rewrite <- Et, Eg. reflexivity. }
  destruct (find (ch :: r) (d_vars d)) as [v|] eqn:Ev.
  { injection E as <- <-. split; [apply grows_refl|]. intros dend _. split; [|constructor]. destruct (beq (ch :: r) n_true) eqn:Et; [|reflexivity]. apply beq_eq in Et. rewrite Et in Ev. destruct Hn as [Hn _]. congruence. }
  destruct (beq (ch :: r) n_true) eqn:Et.
  - injection E as <- <-. split; [apply grows_refl|]. intros dend _. split; [|constructor]. apply beq_eq in Et. unfold tdef. rewrite <- Et, Eg. reflexivity.
  - injection E as <- <-. split.
    + split; [reflexivity|]. split; [split; auto|]. unfold no_true. cbn [d_vars d_grams add_var]. split.
      * intros [H H2]. split; [rewrite find_app, H; destruct (beq n_true (ch :: r)) eqn:E2; [|reflexivity]; apply beq_eq in E2; rewrite <- E2, beq_refl in Et; discriminate|].
        intros n Hx. rewrite find_app, (H2 n Hx). destruct (beq n (ch :: r)) eqn:E2; [|reflexivity]. apply beq_eq in E2. congruence.
      * intros n v H. rewrite find_app, H. reflexivity.
    + intros dend _. split; [reflexivity|constructor].
Qed.
Lemma means_each : forall X (f : X -> el G) s l, Forall (fun x => means (f x) (s x)) l ->
  forall d ys d', each f l d = inl (ys, d') -> no_true d -> grows d d' /\
    forall dend, kept d' dend -> map erase ys = map (fun x => s x (code_of (d_tk dend)) (tdef d)) l /\ Forall (good dend) ys.
Proof.
  intros X f s. induction l as [|x l IH]; intros HF d ys d' E Hn; cbn [each] in E.
  - injection E as <- <-. split; [apply grows_refl|]. intros dend _. split; [reflexivity|constructor].
  - inversion HF as [|? ? HFx HFs]; subst. unfold bind, ret in E. destruct (f x d) as [[y d1]|] eqn:E1; [|discriminate]. destruct (each f l d1) as [[ys1 d2]|] eqn:E2; [|discriminate]. injection E as <- <-.
    destruct (HFx _ _ _ E1 Hn) as (G1 & S1). destruct (IH HFs _ _ _ E2 (proj1 (proj2 (proj2 G1)) Hn)) as (G2 & S2). split; [eapply grows_trans; eauto|].
    intros dend K. destruct (S1 dend (kept_trans _ _ _ (proj1 (proj2 G2)) K)) as (A1 & B1). destruct (S2 dend K) as (A2 & B2). cbn [map]. split; [|constructor; assumption].
    f_equal; [exact A1|]. rewrite A2. assert (Ht : tdef d1 = tdef d) by (unfold tdef; rewrite (proj1 G1); reflexivity). rewrite Ht. reflexivity.
Qed.
Lemma means_group : forall X (f : X -> el G) s l mk, (mk = (fun gs => GAnd gs) \/ mk = (fun gs => GOr gs)) -> Forall (fun x => means (f x) (s x)) l ->
  means (bind (each f l) (fun xs => ret (group mk xs))) (fun code tr => group mk (map (fun x => s x code tr) l)).
Proof.
  intros X f s l mk Hmk HF d y d' E Hn. unfold bind, ret in E. destruct (each f l d) as [[ys d1]|] eqn:E1; [|discriminate]. injection E as <- <-.
  destruct (means_each X f s l HF _ _ _ E1 Hn) as (G1 & S1). split; [exact G1|]. intros dend K. destruct (S1 dend K) as (A1 & B1). rewrite <- A1.
  assert (Y : good dend (mk ys)) by (unfold good; assert (Hx : named (mk ys) = flat_map named ys) by (destruct Hmk as [-> | ->]; reflexivity); rewrite Hx; clear -B1; induction B1 as [|g gs H _ IH]; cbn [flat_map]; [constructor|apply Forall_app; split; assumption]).
  destruct ys as [|g [|]]; cbn [group map].
  - split; [destruct Hmk as [-> | ->]; reflexivity|exact Y].
  - inversion B1; subst. split; [reflexivity|assumption].
  - split; [destruct Hmk as [-> | ->]; reflexivity|exact Y].
Qed.
Lemma means_all : (forall f, means (e_factor marker f) (fun c t => sem_factor c t w f)) /\ (forall i, means (e_item marker i) (fun c t => sem_item c t w i)) /\
  (forall s g d y d', e_suffix marker s g d = inl (y, d') -> no_true d -> grows d d' /\
     forall dend h, kept d' dend -> erase g = h -> good dend g -> erase y = sem_suffix (code_of (d_tk dend)) (tdef d) w s h /\ good dend y).
Proof.
  assert (Lst : forall f z g, means (e_factor marker f) (fun c t => sem_factor c t w f) -> forall d y d', bind (e_factor marker f) (fun b => bind fresh (fun i => ret (GList i g b z))) d = inl (y, d') -> no_true d -> grows d d' /\
     forall dend h, kept d' dend -> erase g = h -> good dend g -> erase y = GList 0 h (sem_factor (code_of (d_tk dend)) (tdef d) w f) z /\ good dend y).
  { intros f z g IH d y d' E Hn. unfold bind, fresh, ret, new_obj in E. destruct (e_factor marker f d) as [[b d1]|] eqn:E1; [|discriminate]. injection E as <- <-.
    destruct (IH _ _ _ E1 Hn) as (G1 & S1). split; [exact G1|]. intros dend h K Hh Hg. destruct (S1 dend K) as (A1 & B1). cbn [erase]. rewrite A1, Hh. split; [reflexivity|]. unfold good. cbn [named]. apply Forall_app. split; assumption. }
  apply syntax_ind.
  - intro n. apply means_name.
  - intro l. apply means_token.
  - intro l. apply means_token.
  - intros l d y d' E Hn. cbn [e_factor] in E. unfold ret, fails in E. destruct (beq l [49]); [|discriminate]. injection E as <- <-. split; [apply grows_refl|]. intros dend _. split; [reflexivity|constructor].
  - intros o f IH d y d' E Hn. change (bind (e_factor marker f) (prefix o) d = inl (y, d')) in E. unfold bind in E. destruct (e_factor marker f d) as [[b d1]|] eqn:E1; [|discriminate].
    destruct (IH _ _ _ E1 Hn) as (G1 & S1). destruct o; cbn [prefix] in E; unfold bind, fresh, ret, new_obj in E; injection E as <- <-; (split; [exact G1|]); intros dend K; destruct (S1 dend K) as (A1 & B1);
      cbn [erase sem_factor sem_pre]; rewrite A1; (split; [reflexivity|exact B1]).
  - intros g IH. apply means_group with (s := fun e c t => group GAnd (map (sem_item c t w) e)); [auto|]. rewrite Forall_forall in *. intros e He.
    apply means_group with (s := fun i c t => sem_item c t w i); [auto|]. apply IH. exact He.
  - intros d y d' E Hn. injection E as <- <-. split; [apply grows_refl|]. intros dend _. split; [reflexivity|constructor].
  - intros f ss IHf IHs d y d' E Hn. rewrite e_item_term in E. unfold bind in E. destruct (e_factor marker f d) as [[b d1]|] eqn:E1; [|discriminate].
    destruct (IHf _ _ _ E1 Hn) as (G1 & S1). assert (Ht : tdef d1 = tdef d) by (unfold tdef; rewrite (proj1 G1); reflexivity).
    assert (X : forall ss, Forall (fun s => forall g d y d', e_suffix marker s g d = inl (y, d') -> no_true d -> grows d d' /\
     forall dend h, kept d' dend -> erase g = h -> good dend g -> erase y = sem_suffix (code_of (d_tk dend)) (tdef d) w s h /\ good dend y) ss ->
     forall g d y d', go_suffixes marker ss g d = inl (y, d') -> no_true d -> grows d d' /\
     forall dend h, kept d' dend -> erase g = h -> good dend g -> erase y = sem_suffixes (code_of (d_tk dend)) (tdef d) w ss h /\ good dend y).
    { clear. induction ss as [|s ss IH]; intros HF g d y d' E Hn; cbn [go_suffixes] in E.
      - injection E as <- <-. split; [apply grows_refl|]. intros dend h _ <- Hg. split; [reflexivity|exact Hg].
      - inversion HF as [|? ? HFx HFs]; subst. unfold bind in E. destruct (e_suffix marker s g d) as [[x d1]|] eqn:E1; [|discriminate].
        destruct (HFx _ _ _ _ E1 Hn) as (G1 & S1). destruct (IH HFs _ _ _ _ E (proj1 (proj2 (proj2 G1)) Hn)) as (G2 & S2). split; [eapply grows_trans; eauto|].
        intros dend h K Hh Hg. destruct (S1 dend h (kept_trans _ _ _ (proj1 (proj2 G2)) K) Hh Hg) as (A1 & B1). destruct (S2 dend _ K A1 B1) as (A2 & B2). split; [|exact B2].
        rewrite A2. assert (Ht : tdef d1 = tdef d) by (unfold tdef; rewrite (proj1 G1); reflexivity). rewrite Ht. reflexivity. }
    destruct (X ss IHs _ _ _ _ E (proj1 (proj2 (proj2 G1)) Hn)) as (G2 & S2). split; [eapply grows_trans; eauto|].
    intros dend K. destruct (S1 dend (kept_trans _ _ _ (proj1 (proj2 G2)) K)) as (A1 & B1). destruct (S2 dend _ K A1 B1) as (A2 & B2). rewrite Ht in A2. rewrite sem_item_term. split; assumption.
  - intros f IH g. exact (Lst f false g IH).
  - intros f IH g. exact (Lst f true g IH).
  - intros n g d y d' E Hn. cbn [e_suffix] in E. unfold the_mark in E. destruct (marker g n (d_m d)) as [[g' m]|[p m]] eqn:Em; [|discriminate]. injection E as <- <-. apply Hm in Em. destruct Em as [Em1 Em2].
    split; [split; [reflexivity|]; split; [split; auto|]; auto|]. intros dend h _ Hh Hg. cbn [sem_suffix]. rewrite Em1, Hh. split; [reflexivity|]. unfold good in *. rewrite Forall_forall in *. auto.
Qed.
Lemma means_gram : forall g, means (e_gram marker g) (fun c t => sem_gram c t w g).
Proof.
  intro g. unfold e_gram. apply means_group with (s := fun e c t => sem_expr c t w e); [auto|]. apply Forall_forall. intros e _. unfold e_expr.
  apply means_group with (s := fun i c t => sem_item c t w i); [auto|]. apply Forall_forall. intros i _. apply means_all.
Qed.
(** one rule *)
Lemma rule_value : forall r d d', e_rule marker r d = inl (tt, d') -> no_true d ->
  kept d d' /\ no_true d' /\ (tdef d' = true <-> tdef d = true \/ fst r = n_true) /\
  (forall n v, n <> fst r -> value d n = Some v -> value d' n = Some v) /\
  exists g, value d' (fst r) = Some g /\ forall dend, kept d' dend -> erase g = sem_gram (code_of (d_tk dend)) (tdef d) w (snd r) /\ good dend g.
Proof.
  intros [k gr] d d' E Hn. unfold e_rule in E. cbn [fst snd] in *. unfold bind in E. destruct (e_gram marker gr d) as [[g d1]|] eqn:Eg; [|discriminate].
  destruct (means_gram gr _ _ _ Eg Hn) as ((G1 & G2 & G3 & G4) & S). specialize (G3 Hn).
  assert (V : forall n v, value d n = Some v -> value d1 n = Some v).
  { intros n v H. unfold value in *. rewrite G1. destruct (find n (d_grams d)); [exact H|]. auto. }
  assert (Ht : tdef d1 = tdef d) by (unfold tdef; rewrite G1; reflexivity).
  unfold define in E. destruct (find k (d_vars d1)) as [e|] eqn:Ev.
  - destruct (is_nil e); [|discriminate]. injection E as <-.
    assert (K1 : kept d1 (set_var k g d1)) by (split; auto). assert (Nk : k <> n_true) by (intros ->; destruct G3; congruence).
    split; [eapply kept_trans; eauto|]. split; [|split; [|split]].
    + destruct G3 as [G3 G5]. split; cbn [d_vars d_grams set_var]; [rewrite find_update; destruct (beq n_true k) eqn:Eb; [apply beq_eq in Eb; congruence|exact G3]|].
      intros n Hx. specialize (G5 n Hx). rewrite find_update. destruct (beq n k) eqn:Eb; [apply beq_eq in Eb; congruence|exact G5].
    + change (tdef (set_var k g d1)) with (tdef d1). rewrite Ht. split; [auto|]. intros [H|H]; [exact H|congruence].
    + intros n v Hnk H. apply V in H. unfold value in *. cbn [d_grams d_vars set_var]. destruct (find n (d_grams d1)); [exact H|]. rewrite find_update. destruct (beq n k) eqn:Eb; [apply beq_eq in Eb; congruence|exact H].
    + destruct (find k (d_grams d1)) as [g0|] eqn:Eg0.
      * exfalso. destruct G3 as [_ G5]. rewrite (G5 k) in Ev; congruence.
      * exists g. unfold value. cbn [d_grams d_vars set_var]. rewrite Eg0, find_update, beq_refl, Ev. split; [reflexivity|]. intros dend K. apply S. exact (kept_trans _ _ _ K1 K).
  - destruct (find k (d_grams d1)) as [g0|] eqn:Eg0; [discriminate|]. injection E as <-.
    assert (K1 : kept d1 (add_gram k g d1)) by (split; [|auto]; intros n h H; cbn [d_grams add_gram]; rewrite find_app, H; reflexivity).
    split; [eapply kept_trans; eauto|]. split.
    { destruct G3 as [G3 G5]. split; [exact G3|]. intros n Hx. cbn [d_grams d_vars add_gram] in *. rewrite find_app in Hx. destruct (find n (d_grams d1)) eqn:Ex; [apply G5; congruence|]. destruct (beq n k) eqn:Eb; [apply beq_eq in Eb; subst; exact Ev|congruence]. }
    split; [|split].
    + unfold tdef in *. cbn [d_grams add_gram]. rewrite find_app. rewrite <- Ht. destruct (find n_true (d_grams d1)); [tauto|]. destruct (beq n_true k) eqn:Eb.
      * apply beq_eq in Eb. subst k. tauto.
      * split; [discriminate|]. intros [H|H]; [discriminate|]. subst k. rewrite beq_refl in Eb. discriminate.
    + intros n v Hnk H. apply V in H. unfold value in *. cbn [d_grams d_vars add_gram]. rewrite find_app. destruct (find n (d_grams d1)); [exact H|]. destruct (beq n k) eqn:Eb; [apply beq_eq in Eb; congruence|exact H].
    + exists g. unfold value. cbn [d_grams d_vars add_gram]. rewrite find_app, Eg0, beq_refl. split; [reflexivity|]. intros dend K. apply S. exact (kept_trans _ _ _ K1 K).
Qed.
(** all rules; the last definition of a name counts *)
Lemma doc_value : forall rs d d', e_doc marker rs d = inl (tt, d') -> no_true d ->
  kept d d' /\ (forall n v, ~ In n (names rs) -> value d n = Some v -> value d' n = Some v) /\
  forall a r b, rs = a ++ r :: b -> ~ In (fst r) (names b) ->
    exists g, value d' (fst r) = Some g /\ erase g = sem_gram (code_of (d_tk d')) (tdef d || mem n_true (names a)) w (snd r) /\ good d' g.
Proof.
  induction rs as [|r0 rs IH]; intros d d' E Hn; cbn [e_doc] in E.
  - injection E as <-. split; [apply kept_refl|]. split; [auto|]. intros a r b Hx. destruct a; discriminate.
  - unfold bind in E. destruct (e_rule marker r0 d) as [[[] d1]|] eqn:E1; [|discriminate].
    destruct (rule_value r0 d d1 E1 Hn) as (K1 & N1 & T1 & V1 & g & Vg & Sg). destruct (IH d1 d' E N1) as (K2 & V2 & R2).
    split; [eapply kept_trans; eauto|]. split.
    + intros n v Hi Hv. cbn [names map] in Hi. apply V2; [intro; apply Hi; right; assumption|]. apply V1; [intros ->; apply Hi; left; reflexivity|exact Hv].
    + intros a r b Hx Hi. destruct a as [|r1 a]; cbn [app] in Hx; injection Hx as -> ->.
      * exists g. split; [apply V2; assumption|]. cbn [names map mem]. rewrite orb_false_r. apply Sg. exact K2.
      * destruct (R2 a r b eq_refl Hi) as (g' & H1 & H2 & H3). exists g'. split; [exact H1|]. split; [|exact H3]. rewrite H2. f_equal.
        cbn [names map mem]. change (map fst a) with (names a). rewrite orb_assoc. f_equal.
        destruct (tdef d1) eqn:Et.
        -- destruct (proj1 T1 eq_refl) as [-> | ->]; [reflexivity|]. rewrite beq_refl, orb_true_r. reflexivity.
        -- destruct (tdef d) eqn:Ed; [destruct T1 as [_ T1]; rewrite T1 by auto; reflexivity|]. cbn [orb]. destruct (beq n_true (fst r1)) eqn:Eb; [|reflexivity]. apply beq_eq in Eb. destruct T1 as [_ T1]. rewrite T1 by auto. reflexivity.
Qed.
Lemma no_true_d0 : forall tk m, no_true (d0 tk m).
Proof. intros tk m. split; [reflexivity|]. intros n H. reflexivity. Qed.
End Den.
