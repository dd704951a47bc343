(** Results of Cl, and invariants of elaboration: rule names (C35), closedness (C34), marks (C36). *)
From Coq Require Import String Permutation.
From Verif Require Import Base Token Utf8 Scanner Tokenize TokenizeProofs Grammar Matcher MatcherProofs PegSpec MatchProofs MatchProofs2 MatchProofs3 Wf PegTools Compiler GramSyntax CompilerProofs CompilerBack.

(** ** Results *)
Section Result.
Context {A T PM M : Type}.
Notation G := (gr A T).
Variable marker : G -> bytes -> M -> (G * M) + (PM * M).
Variables isL isD : Z -> bool.
Notation Cl := (Cl marker isL isD).
Notation Tz := (Tokenize isL isD false true).

Definition d0 (tk : tokener) (m : M) : dst A T M := mkD [] [] (tk_init tk) 0 m.

Lemma cl_unfold : forall f tk old m src, Cl f tk old m src =
  match Tz tk old src with
  | TzErr _ e => ClTokErr e
  | TzStuck => ClFuel
  | TzOk ts _ =>
      match gmatch meta_env (lift (cclient marker)) f m_doc ts (cst0 tk m) with
      | Ret n None s' => match skipn n ts with [] => cl_finish (cd (ust s')) | next => ClMatchErr (MErr GEOF next None 0) end
      | Ret _ (Some e) _ => ClMatchErr e
      | Panic p _ => ClPanic p
      | OutOfFuel => ClFuel
      end
  end.
Proof.
  intros f tk old m src. unfold Compiler.Cl, MatchExactly, Match.
  destruct (Tz tk old src) as [ts eof| |]; try reflexivity.
  unfold m_doc. cbn iota. destruct (gmatch meta_env (lift (cclient marker)) f (GRep1 3 m_rule) ts (cst0 tk m)) as [n [e|] s'|p s'|]; try reflexivity.
  destruct (skipn n ts); reflexivity.
Qed.
Lemma cl_doc : forall tk old m src ts eof rs, Tz tk old src = TzOk ts eof -> ok_doc rs = true -> sigs ts = r_doc rs ->
  exists F, forall f, (F <= f)%nat -> Cl f tk old m src =
    match e_doc marker rs (d0 tk m) with inl (_, d) => cl_finish d | inr p => ClPanic (PUser p) end.
Proof.
  intros tk old m src ts eof rs Ht Ho Hs. destruct (doc_fwd marker rs ts Ho Hs) as (tr & l & P & E).
  unfold parses in P. rewrite app_nil_r in P. destruct (proj1 (sim_all meta_env (cclient marker)) _ _ _ _ P) as (F & HF).
  exists F. intros f Hf. specialize (HF f Hf (cst0 tk m)). specialize (E (fun s => s) [] (d0 tk m) []). cbn beta in E.
  rewrite cl_unfold, Ht.
  destruct HF as [(p & s' & Hg & Hr)|(s' & Hg & _ & Hr)]; specialize (Hr []); change (ust (cst0 tk m)) with (mkC [] (d0 tk m)) in Hr; rewrite Hg.
  - destruct (e_doc marker rs (d0 tk m)) as [[y d]|q]; [congruence|]. destruct E as (x' & E). congruence.
  - rewrite skipn_all. cbn iota. destruct (e_doc marker rs (d0 tk m)) as [[y d]|q].
    + assert (X : ust s' = mkC [] d) by congruence. rewrite X. reflexivity.
    + destruct E as (x' & E). congruence.
Qed.
Lemma cl_tokerr : forall tk old m src ts e, Tz tk old src = TzErr ts e -> forall f, Cl f tk old m src = ClTokErr e.
Proof. intros tk old m src ts e Ht f. rewrite cl_unfold, Ht. reflexivity. Qed.
(** a text that is no sequence of rules is reported, or an action panicked before *)
Lemma cl_other : forall tk old m src ts eof, Tz tk old src = TzOk ts eof -> (forall rs, ok_doc rs = true -> sigs ts <> r_doc rs) ->
  exists F r, (forall f, (F <= f)%nat -> Cl f tk old m src = r) /\ ((exists e, r = ClMatchErr e) \/ (exists p, r = ClPanic p)).
Proof.
  intros tk old m src ts eof Ht Hno. destruct (meta_total ts) as (o & tr & P). destruct (proj1 (sim_all meta_env (cclient marker)) _ _ _ _ P) as (F & HF).
  exists F, (Cl F tk old m src).
  assert (NF : gmatch meta_env (lift (cclient marker)) F m_doc ts (cst0 tk m) <> OutOfFuel).
  { specialize (HF F (Nat.le_refl _) (cst0 tk m)). intro Hx. rewrite Hx in HF. destruct HF as [(p & s' & E & _)|HF]; [discriminate|].
    destruct o; [destruct HF as (s' & E & _)|destruct HF as (n & e & s' & E & _)|destruct HF as (p & s' & E & _)]; discriminate. }
  split.
  - intros f Hf.
    rewrite !cl_unfold, Ht. rewrite (gmatch_mono meta_env (lift (cclient marker)) F f Hf _ _ _ NF). reflexivity.
  - specialize (HF F (Nat.le_refl _) (cst0 tk m)). rewrite cl_unfold, Ht.
    destruct HF as [(p & s' & -> & _)|HF]; [right; eauto|]. destruct o as [n l| |k].
    + destruct HF as (s' & -> & _). destruct (skipn n ts) as [|t r] eqn:En; [|left; eauto]. exfalso.
      destruct (doc_back n ts l tr P) as (rs & Ho & Hs). apply (Hno rs Ho). unfold spells in Hs. rewrite <- Hs. rewrite <- (firstn_skipn n ts) at 1. rewrite En, app_nil_r. reflexivity.
    + destruct HF as (n & e & s' & -> & _). left; eauto.
    + destruct HF as (p & s' & -> & _). right; eauto.
Qed.
End Result.

(** ** Rule names referred to *)
Definition upper (n : bytes) : bool := match n with ch :: _ => (65 <=? ch) && (ch <=? 90) | [] => false end.
Definition rule_ref (n : bytes) : bool := negb (upper n) && negb (beq n n_true).
Fixpoint refs_factor (f : factor) : list bytes :=
  match f with
  | FIdent n => if rule_ref n then [n] else []
  | FPre _ f1 => refs_factor f1
  | FParen g => flat_map (fun e => flat_map refs_item e) g
  | _ => []
  end
with refs_item (i : item) : list bytes := match i with IBang => [] | ITerm f ss => refs_factor f ++ flat_map refs_suffix ss end
with refs_suffix (s : suffix) : list bytes := match s with SList f | SList0 f => refs_factor f | SMark _ => [] end.
Definition refs_expr (e : expr) : list bytes := flat_map refs_item e.
Definition refs_gram (g : gram) : list bytes := flat_map refs_expr g.

(** the quoted and capitalized names are tokens, the integers are 1 *)
Section Legal.
Variable kw : bool.
Definition legal_lit (l : bytes) : bool :=
  negb (Lit2Token l =? ILLEGAL) || (kw && match l with q :: _ :: _ => q =? 34 | _ => false end).
Fixpoint legal_factor (f : factor) : bool :=
  match f with
  | FIdent n => nonempty n && (negb (upper n) || legal_lit n)
  | FChar l | FString l => legal_lit l
  | FInt l => beq l [49]
  | FPre _ f1 => legal_factor f1
  | FParen g => forallb (fun e => forallb legal_item e) g
  end
with legal_item (i : item) : bool := match i with IBang => true | ITerm f ss => legal_factor f && forallb legal_suffix ss end
with legal_suffix (s : suffix) : bool := match s with SList f | SList0 f => legal_factor f | SMark _ => true end.
Definition legal_expr (e : expr) : bool := forallb legal_item e.
Definition legal_gram (g : gram) : bool := forallb legal_expr g.
End Legal.
Definition is_kw (tk : tokener) : bool := match tk with AutoKw _ => true | Plain => false end.

(** nothing but [!] (in parentheses or not) *)
Fixpoint nil_factor (f : factor) : bool := match f with FParen [[i]] => nil_item i | _ => false end
with nil_item (i : item) : bool := match i with IBang => true | ITerm f [] => nil_factor f | _ => false end.
Definition nil_gram (g : gram) : bool := match g with [[i]] => nil_item i | _ => false end.

Fixpoint mem (n : bytes) (l : list bytes) : bool := match l with [] => false | x :: l' => beq n x || mem n l' end.
Lemma mem_in : forall n l, mem n l = true <-> In n l.
Proof.
  induction l as [|x l IH]; cbn [mem In]; [split; [discriminate|contradiction]|].
  rewrite orb_true_iff, IH, beq_eq. split; intros [H|H]; auto.
Qed.
Lemma mem_app : forall n a b, mem n (a ++ b) = mem n a || mem n b.
Proof. induction a as [|x a IH]; intro b; cbn [mem app]; [reflexivity|]. rewrite IH, orb_assoc. reflexivity. Qed.

Section Names.
Context {A T PM M : Type}.
Notation G := (gr A T).
Notation D := (dst A T M).
Variable marker : G -> bytes -> M -> (G * M) + (PM * M).
Variable Hm : forall g n m, exists g' m', marker g n m = inl (g', m') /\ g' <> GNil.

Definition tkinv (kw : bool) (tk : tokener) : Prop :=
  is_kw tk = kw /\ tk_ok tk /\ match tk with AutoKw k => kw_map k <> None | Plain => True end.

Lemma legal_ltot : forall kw tk l, tkinv kw tk -> legal_lit kw l = true ->
  exists tok tk', tk_ltot tk l = Val (tok, tk') /\ tok <> ILLEGAL /\ tkinv kw tk'.
Proof.
  intros kw tk l (K & O & Mp) H. unfold legal_lit in H. destruct tk as [|k]; cbn [is_kw] in K; subst kw.
  - rewrite andb_false_l, orb_false_r in H. apply negb_true_iff, Z.eqb_neq in H. exists (Lit2Token l), Plain. split; [reflexivity|]. split; [exact H|]. split; [reflexivity|]. split; exact I.
  - cbn [tk_ltot]. unfold KwLtot. destruct (Lit2Token l =? ILLEGAL) eqn:E; cbn [negb].
    + cbn [orb negb andb] in H. destruct l as [|q [|r1 r]]; try discriminate. rewrite H. destruct (kw_find k (removelast (r1 :: r))) as [tok|] eqn:Ek.
      * exists tok, (AutoKw k). split; [reflexivity|]. pose proof (O _ _ Ek). split; [unfold USER_TOKEN_BEGIN, ILLEGAL in *; lia|]. split; [reflexivity|]. split; [exact O|exact Mp].
      * destruct (kw_map k) as [m|] eqn:Em; [|congruence].
        set (tok := USER_TOKEN_BEGIN + Z.of_nat (length (kw_toks k))). exists tok, (AutoKw (mkKw (kw_toks k ++ [q :: r1 :: r]) (Some ((removelast (r1 :: r), tok) :: m)))).
        split; [reflexivity|]. assert (Ht : USER_TOKEN_BEGIN <= tok) by (unfold tok; lia). split; [unfold USER_TOKEN_BEGIN, ILLEGAL in *; lia|].
        split; [reflexivity|]. split; [|discriminate]. intros w v Hv. unfold kw_find in Hv. cbn [kw_map lookup] in Hv.
        destruct (beq w (removelast (r1 :: r))); [injection Hv as <-; exact Ht|]. apply (O w v). unfold kw_find. rewrite Em. exact Hv.
    + exists (Lit2Token l), (AutoKw k). split; [reflexivity|]. split; [apply Z.eqb_neq; exact E|]. split; [reflexivity|]. split; [exact O|exact Mp].
Qed.

(** elaborating something that refers to the names [R] *)
Definition names_step (kw : bool) (R : list bytes) (d d' : D) : Prop :=
  d_grams d' = d_grams d /\ tkinv kw (d_tk d') /\
  (NoDup (map fst (d_vars d)) -> NoDup (map fst (d_vars d'))) /\
  forall n, find n (d_vars d') =
    match find n (d_vars d) with
    | Some g => Some g
    | None => if mem n R && (match find n (d_grams d) with None => true | _ => false end) then Some GNil else None
    end.
Definition elab {Y : Type} (kw : bool) (R : list bytes) (m : el (A := A) (T := T) (PM := PM) (M := M) Y) (Q : Y -> Prop) : Prop :=
  forall d, tkinv kw (d_tk d) -> exists y d', m d = inl (y, d') /\ Q y /\ names_step kw R d d'.

Lemma names_refl : forall kw d, tkinv kw (d_tk d) -> names_step kw [] d d.
Proof. intros kw d H. split; [reflexivity|]. split; [exact H|]. split; [auto|]. intro n. destruct (find n (d_vars d)); reflexivity. Qed.
Lemma names_trans : forall kw R1 R2 d1 d2 d3, names_step kw R1 d1 d2 -> names_step kw R2 d2 d3 -> names_step kw (R1 ++ R2) d1 d3.
Proof.
  intros kw R1 R2 d1 d2 d3 (G1 & _ & N1 & V1) (G2 & T2 & N2 & V2). split; [congruence|]. split; [exact T2|]. split; [auto|].
  intro n. rewrite V2, V1, G1, mem_app. destruct (find n (d_vars d1)); [reflexivity|]. destruct (find n (d_grams d1)); [rewrite !andb_false_r; reflexivity|]. rewrite !andb_true_r.
  destruct (mem n R1), (mem n R2); reflexivity.
Qed.
Lemma elab_ret : forall Y kw (y : Y) (Q : Y -> Prop), Q y -> elab kw [] (ret y) Q.
Proof. intros Y kw y Q Hq d Hd. exists y, d. split; [reflexivity|]. split; [exact Hq|]. apply names_refl. exact Hd. Qed.
Lemma elab_bind : forall X Y kw R1 R2 (m : el X) (k : X -> el Y) (Q1 : X -> Prop) Q2,
  elab kw R1 m Q1 -> (forall x, Q1 x -> elab kw R2 (k x) Q2) -> elab kw (R1 ++ R2) (bind m k) Q2.
Proof.
  intros X Y kw R1 R2 m k Q1 Q2 H1 H2 d Hd. destruct (H1 d Hd) as (x & d1 & E1 & Hx & S1). pose proof S1 as (_ & T1 & _).
  destruct (H2 x Hx d1 T1) as (y & d2 & E2 & Hy & S2). exists y, d2. unfold bind. rewrite E1. split; [exact E2|]. split; [exact Hy|]. eapply names_trans; eauto.
Qed.
Lemma elab_weak : forall Y kw R (m : el Y) (Q Q' : Y -> Prop), (forall y, Q y -> Q' y) -> elab kw R m Q -> elab kw R m Q'.
Proof. intros Y kw R m Q Q' HQ H d Hd. destruct (H d Hd) as (y & d' & E & Hy & S). exists y, d'. auto. Qed.
Lemma elab_each : forall X Y kw (f : X -> el Y) (r : X -> list bytes) (Q : X -> Y -> Prop) l,
  Forall (fun x => elab kw (r x) (f x) (Q x)) l -> elab kw (flat_map r l) (each f l) (Forall2 Q l).
Proof.
  intros X Y kw f r Q. induction l as [|x l IH]; intro H; cbn [each flat_map]; [apply elab_ret; constructor|]. inversion H; subst.
  eapply elab_bind; [eassumption|]. intros y Hy. rewrite <- (app_nil_r (flat_map r l)). eapply elab_bind; [apply IH; assumption|]. intros ys Hys. apply elab_ret. constructor; assumption.
Qed.
Lemma elab_fresh : forall kw, elab kw [] (fresh (A := A) (T := T) (PM := PM) (M := M)) (fun _ => True).
Proof. intros kw d Hd. eexists _, _. split; [reflexivity|]. split; [exact I|]. split; [reflexivity|]. split; [exact Hd|]. split; [auto|]. intro n. cbn. destruct (find n (d_vars d)); reflexivity. Qed.
Lemma elab_token : forall kw l, legal_lit kw l = true -> elab kw [] (the_token l) (fun g => g <> GNil).
Proof.
  intros kw l H d Hd. unfold the_token. destruct (legal_ltot kw _ l Hd H) as (tok & tk' & E & Ht & Hk). rewrite E. apply Z.eqb_neq in Ht. rewrite Ht.
  eexists _, _. split; [reflexivity|]. split; [discriminate|]. split; [reflexivity|]. split; [exact Hk|]. split; [auto|]. intro n. cbn. destruct (find n (d_vars d)); reflexivity.
Qed.
Lemma find_app : forall X n (l : list (bytes * X)) k v, find n (l ++ [(k, v)]) = match find n l with Some x => Some x | None => if beq n k then Some v else None end.
Proof. induction l as [|[k' v'] l IH]; intros k v; cbn [app find]; [reflexivity|]. destruct (beq n k'); [reflexivity|]. apply IH. Qed.
Lemma find_none : forall X n (l : list (bytes * X)), find n l = None <-> ~ In n (map fst l).
Proof.
  induction l as [|[k v] l IH]; cbn [find map In fst]; [split; auto|]. destruct (beq n k) eqn:E.
  - apply beq_eq in E. subst. split; [discriminate|]. intro H. exfalso. auto.
  - apply beq_neq in E. rewrite IH. split; [intros H [H1|H1]; [congruence|auto]|auto].
Qed.
Lemma elab_name : forall kw n, legal_factor kw (FIdent n) = true -> elab kw (refs_factor (FIdent n)) (the_name n) (fun g => g <> GNil).
Proof.
  intros kw n H d Hd. cbn [legal_factor refs_factor] in *. apply andb_true_iff in H. destruct H as [Hne H]. unfold the_name, rule_ref, upper in *. destruct n as [|ch r]; [discriminate|].
  destruct ((65 <=? ch) && (ch <=? 90)) eqn:Eu; cbn [negb andb orb] in *.
  - destruct (elab_token kw (ch :: r) H d Hd) as (y & d' & E & Hy & S). exists y, d'. split; [exact E|]. split; [exact Hy|exact S].
  - destruct (find (ch :: r) (d_grams d)) as [g|] eqn:Eg.
    { eexists _, _. split; [reflexivity|]. split; [discriminate|]. split; [reflexivity|]. split; [exact Hd|]. split; [auto|]. intro n.
      destruct (find n (d_vars d)); [reflexivity|]. destruct (beq (ch :: r) n_true); cbn [negb mem]; [reflexivity|]. destruct (beq n (ch :: r)) eqn:E; [|reflexivity].
      apply beq_eq in E. subst n. rewrite Eg. reflexivity. }
    destruct (find (ch :: r) (d_vars d)) as [g|] eqn:Ev.
    { eexists _, _. split; [reflexivity|]. split; [discriminate|]. split; [reflexivity|]. split; [exact Hd|]. split; [auto|]. intro n.
      destruct (find n (d_vars d)) eqn:Ev2; [reflexivity|]. destruct (beq (ch :: r) n_true); cbn [negb mem]; [reflexivity|]. destruct (beq n (ch :: r)) eqn:E; [|reflexivity].
      apply beq_eq in E. subst n. congruence. }
    destruct (beq (ch :: r) n_true) eqn:Et.
    + eexists _, _. split; [reflexivity|]. split; [discriminate|]. apply names_refl. exact Hd.
    + eexists _, _. split; [reflexivity|]. split; [discriminate|]. split; [reflexivity|]. split; [exact Hd|]. split.
      * intro N. cbn [d_vars add_var]. rewrite map_app. cbn [map fst]. apply find_none in Ev.
        apply (Permutation_NoDup (l := (ch :: r) :: map fst (d_vars d))); [apply Permutation_cons_append|]. constructor; assumption.
      * intro n. cbn [d_vars add_var negb mem]. rewrite find_app. destruct (find n (d_vars d)); [reflexivity|]. rewrite orb_false_r. destruct (beq n (ch :: r)) eqn:E; [|reflexivity].
        apply beq_eq in E. subst n. rewrite Eg. reflexivity.
Qed.
Lemma elab_mark : forall kw g n, elab kw [] (the_mark marker g n) (fun g => g <> GNil).
Proof.
  intros kw g n d Hd. unfold the_mark. destruct (Hm g n (d_m d)) as (g' & m' & -> & Hg). eexists _, _. split; [reflexivity|]. split; [exact Hg|].
  split; [reflexivity|]. split; [exact Hd|]. split; [auto|]. intro k. cbn. destruct (find k (d_vars d)); reflexivity.
Qed.
Lemma elab_prefix : forall kw o g, elab kw [] (prefix o g) (fun g => g <> GNil).
Proof.
  intros kw o g. destruct o; cbn [prefix];
    try (change (@nil bytes) with (@nil bytes ++ []); eapply elab_bind; [apply elab_fresh|]; intros; apply elab_ret; discriminate);
    apply elab_ret; discriminate.
Qed.

Definition notnil (b : bool) (g : G) : Prop := b = false -> g <> GNil.
Lemma elab_group : forall kw X (f : X -> el G) r (nl : X -> bool) mk l,
  Forall (fun x => elab kw (r x) (f x) (notnil (nl x))) l -> (forall gs, mk gs <> GNil) ->
  elab kw (flat_map r l) (bind (each f l) (fun xs => ret (group mk xs))) (notnil (match l with [x] => nl x | _ => false end)).
Proof.
  intros kw X f r nl mk l H Hmk. rewrite <- (app_nil_r (flat_map r l)). eapply elab_bind; [apply elab_each; exact H|].
  intros xs Hxs. apply elab_ret. intro Hn. destruct xs as [|x [|x2 xs]]; cbn [group]; try apply Hmk.
  inversion Hxs as [|y1 y2 l1 l2 Hy Hl]; subst. inversion Hl; subst. apply Hy. exact Hn.
Qed.
Lemma elab_all :
  (forall f kw, legal_factor kw f = true -> elab kw (refs_factor f) (e_factor marker f) (notnil (nil_factor f))) /\
  (forall i kw, legal_item kw i = true -> elab kw (refs_item i) (e_item marker i) (notnil (nil_item i))) /\
  (forall s kw, legal_suffix kw s = true -> forall g, elab kw (refs_suffix s) (e_suffix marker s g) (fun g => g <> GNil)).
Proof.
  apply syntax_ind.
  - intros n kw H. eapply elab_weak; [|apply elab_name; exact H]. intros y Hy _. exact Hy.
  - intros l kw H. eapply elab_weak; [|apply elab_token; exact H]. intros y Hy _. exact Hy.
  - intros l kw H. eapply elab_weak; [|apply elab_token; exact H]. intros y Hy _. exact Hy.
  - intros l kw H. cbn [e_factor refs_factor legal_factor] in *. rewrite H. apply elab_ret. intros _. discriminate.
  - intros o f IH kw H. cbn [e_factor refs_factor legal_factor nil_factor] in *. rewrite <- (app_nil_r (refs_factor f)). eapply elab_bind; [apply IH; exact H|].
    intros x _. eapply elab_weak; [|apply elab_prefix]. intros y Hy _. exact Hy.
  - intros g IH kw H. cbn [e_factor refs_factor legal_factor] in *.
    eapply elab_weak; [|apply (elab_group kw _ (fun e => bind (each (e_item marker) e) (fun xs => ret (group GAnd xs))) (fun e => flat_map refs_item e)
       (fun e => match e with [x] => nil_item x | _ => false end) GOr g); [|discriminate]].
    + intros y Hy Hn. apply Hy. destruct g as [|[|i [|]] [|]]; try reflexivity. exact Hn.
    + rewrite forallb_forall in H. rewrite Forall_forall in *. intros e He. apply elab_group; [|discriminate]. specialize (IH e He). specialize (H e He).
      rewrite forallb_forall in H. rewrite Forall_forall in *. intros i Hi. apply IH; auto.
  - intros kw _. cbn [e_item refs_item]. apply elab_ret. intro X; discriminate X.
  - intros f ss IHf IHs kw H. cbn [legal_item refs_item] in *. apply andb_true_iff in H. destruct H as [H1 H2].
    assert (X : forall ss, Forall (fun s => forall kw, legal_suffix kw s = true -> forall g, elab kw (refs_suffix s) (e_suffix marker s g) (fun g => g <> GNil)) ss ->
      forallb (legal_suffix kw) ss = true -> forall b g, notnil b g -> elab kw (flat_map refs_suffix ss) (go_suffixes marker ss g) (notnil (match ss with [] => b | _ => false end))).
    { clear. induction ss as [|s ss IH]; intros HF H b g Hg; cbn [go_suffixes flat_map]; [apply elab_ret; exact Hg|]. inversion HF as [|? ? HFx HFs]; subst. cbn [forallb] in H. apply andb_true_iff in H. destruct H as [Hx1 Hx2].
      eapply elab_bind; [apply HFx; exact Hx1|]. intros x Hx. eapply elab_weak; [|apply (IH HFs Hx2 false x); intros _; exact Hx]. intros y Hy _. apply Hy. destruct ss; reflexivity. }
    intros d Hd. rewrite e_item_term. revert d Hd. change (elab kw (refs_factor f ++ flat_map refs_suffix ss) (bind (e_factor marker f) (go_suffixes marker ss)) (notnil (nil_item (ITerm f ss)))).
    eapply elab_bind; [apply IHf; exact H1|]. intros x Hx. eapply elab_weak; [|apply (X ss IHs H2 _ x Hx)]. intros y Hy Hn. apply Hy. destruct ss; [exact Hn|reflexivity].
  - intros f IH kw H g. cbn [e_suffix refs_suffix legal_suffix] in *. rewrite <- (app_nil_r (refs_factor f)). eapply elab_bind; [apply IH; exact H|]. intros b _.
    change (@nil bytes) with (@nil bytes ++ []). eapply elab_bind; [apply elab_fresh|]. intros i _. apply elab_ret. discriminate.
  - intros f IH kw H g. cbn [e_suffix refs_suffix legal_suffix] in *. rewrite <- (app_nil_r (refs_factor f)). eapply elab_bind; [apply IH; exact H|]. intros b _.
    change (@nil bytes) with (@nil bytes ++ []). eapply elab_bind; [apply elab_fresh|]. intros i _. apply elab_ret. discriminate.
  - intros n kw H g. apply elab_mark.
Qed.
Lemma elab_gram : forall kw g, legal_gram kw g = true -> elab kw (refs_gram g) (e_gram marker g) (notnil (nil_gram g)).
Proof.
  intros kw g H. unfold e_gram, refs_gram.
  eapply elab_weak; [|apply (elab_group kw _ (e_expr marker) refs_expr (fun e => match e with [x] => nil_item x | _ => false end) GOr g); [|discriminate]].
  - intros y Hy Hn. apply Hy. destruct g as [|[|i [|]] [|]]; try reflexivity. exact Hn.
  - unfold legal_gram in H. rewrite forallb_forall in H. apply Forall_forall. intros e He. unfold e_expr, refs_expr. apply elab_group; [|discriminate]. specialize (H e He). unfold legal_expr in H.
    rewrite forallb_forall in H. apply Forall_forall. intros i Hi. apply elab_all. auto.
Qed.
End Names.

(** ** Definitions *)
Definition names (a : list rule) : list bytes := map fst a.
(** [n] is used before a rule has defined it, or in its own definition *)
Definition early (a : list rule) (n : bytes) : Prop :=
  exists a1 r a2, a = a1 ++ r :: a2 /\ In n (refs_gram (snd r)) /\ ~ In n (names a1).
Lemma early_snoc : forall a r n, early (a ++ [r]) n <-> early a n \/ (In n (refs_gram (snd r)) /\ ~ In n (names a)).
Proof.
  intros a r n. split.
  - intros (a1 & r1 & a2 & E & H1 & H2). destruct a2 as [|x a2] using rev_ind.
    + apply app_inj_tail in E. destruct E as [-> ->]. right. auto.
    + left. rewrite app_comm_cons, app_assoc in E. apply app_inj_tail in E. destruct E as [-> _]. exists a1, r1, a2. auto.
  - intros [(a1 & r1 & a2 & -> & H1 & H2)|[H1 H2]].
    + exists a1, r1, (a2 ++ [r]). rewrite <- app_assoc. auto.
    + exists a, r, []. auto.
Qed.
Lemma early_nil : forall n, ~ early [] n.
Proof. intros n (a1 & r & a2 & E & _). destruct a1; discriminate. Qed.

Lemma find_update : forall X n k (v : X) l, find n (update k v l) =
  if beq n k then match find k l with Some _ => Some v | None => None end else find n l.
Proof.
  intros X n k v. induction l as [|[k' w] l IH]; cbn [update find]; [destruct (beq n k); reflexivity|].
  destruct (beq k k') eqn:E.
  - apply beq_eq in E. subst k'. cbn [find]. destruct (beq n k); reflexivity.
  - cbn [find]. rewrite IH. destruct (beq n k') eqn:E1; [|reflexivity]. apply beq_eq in E1. subst k'.
    destruct (beq n k) eqn:E2; [|reflexivity]. apply beq_eq in E2. subst. rewrite beq_refl in E. discriminate.
Qed.
Lemma keys_update : forall X k (v : X) l, map fst (update k v l) = map fst l.
Proof. intros X k v. induction l as [|[k' w] l IH]; cbn [update map fst]; [reflexivity|]. destruct (beq k k'); cbn [map fst]; [reflexivity|]. rewrite IH. reflexivity. Qed.

Section Rules.
Context {A T PM M : Type}.
Notation G := (gr A T).
Notation D := (dst A T M).
Variable marker : G -> bytes -> M -> (G * M) + (PM * M).
Variable Hm : forall g n m, exists g' m', marker g n m = inl (g', m') /\ g' <> GNil.
Variable kw : bool.

Definition INV (a : list rule) (d : D) : Prop :=
  tkinv kw (d_tk d) /\ NoDup (names a) /\ NoDup (map fst (d_vars d)) /\
  (forall n, find n (d_grams d) <> None <-> In n (names a) /\ ~ early a n) /\
  (forall n, find n (d_vars d) <> None <-> early a n) /\
  (forall n v, find n (d_vars d) = Some v -> (v <> GNil <-> In n (names a))).

Lemma is_nil_iff : forall g : G, is_nil g = true <-> g = GNil.
Proof. intros []; cbn; split; congruence. Qed.

Lemma rule_step : forall a d r, INV a d -> legal_gram kw (snd r) = true -> nil_gram (snd r) = false ->
  (In (fst r) (names a) -> exists p, e_rule marker r d = inr p) /\
  (~ In (fst r) (names a) -> exists d', e_rule marker r d = inl (tt, d') /\ INV (a ++ [r]) d').
Proof.
  intros a d r (I1 & I2 & I3 & I4 & I5 & I6) HL HN. destruct (elab_gram marker Hm kw (snd r) HL d I1) as (g & d1 & E & Hg & G1 & T1 & N1 & V1).
  specialize (Hg HN). specialize (N1 I3). unfold e_rule, bind. rewrite E. unfold define. rewrite G1, V1.
  assert (Ev : forall n, find n (d_vars d1) <> None <-> early (a ++ [r]) n).
  { intro n. rewrite early_snoc, <- I5, V1. destruct (find n (d_vars d)) as [v|] eqn:Ev; [split; [left; discriminate|discriminate]|].
    destruct (mem n (refs_gram (snd r))) eqn:Em; cbn [andb].
    - apply mem_in in Em. destruct (find n (d_grams d)) eqn:Eg.
      + split; [congruence|]. intros [H|[_ H]]; [congruence|]. exfalso. apply H. apply I4. congruence.
      + split; [|discriminate]. intros _. right. split; [exact Em|]. intro H. apply (proj2 (I4 n)); [|exact Eg]. split; [exact H|]. rewrite <- I5. congruence.
    - split; [congruence|]. intros [H|[H _]]; [congruence|]. apply mem_in in H. congruence. }
  split.
  - intro Hin. destruct (find (fst r) (d_vars d)) as [v|] eqn:Ev0.
    + pose proof (proj2 (I6 _ _ Ev0) Hin) as Hv. destruct (is_nil v) eqn:En; [apply is_nil_iff in En; contradiction|]. eauto.
    + assert (X : find (fst r) (d_grams d) <> None). { apply I4. split; [exact Hin|]. rewrite <- I5. congruence. }
      destruct (find (fst r) (d_grams d)) eqn:Eg; [|congruence]. rewrite andb_false_r. eauto.
  - intro Hn. assert (Eg : find (fst r) (d_grams d) = None). { destruct (find (fst r) (d_grams d)) eqn:Eg; [|reflexivity]. exfalso. apply Hn. apply (I4 (fst r)). congruence. }
    assert (NA : NoDup (names (a ++ [r]))).
    { unfold names. rewrite map_app. cbn [map]. apply (Permutation_NoDup (l := fst r :: map fst a)); [apply Permutation_cons_append|]. constructor; assumption. }
    assert (IN : forall n, In n (names (a ++ [r])) <-> In n (names a) \/ n = fst r).
    { intro n. unfold names. rewrite map_app, in_app_iff. cbn. split; intros [H|H]; auto. destruct H as [H|[]]. auto. }
    assert (Vn : find (fst r) (d_vars d1) = None \/ find (fst r) (d_vars d1) = Some GNil).
    { rewrite V1. destruct (find (fst r) (d_vars d)) as [v|] eqn:Ev0.
      - right. destruct (is_nil v) eqn:En; [apply is_nil_iff in En; congruence|]. exfalso. apply Hn. apply (I6 _ _ Ev0). intros ->. discriminate.
      - destruct (_ && _); auto. }
    assert (V6 : forall n v, n <> fst r -> find n (d_vars d1) = Some v -> (v <> GNil <-> In n (names (a ++ [r])))).
    { intros n v Hne Hv. rewrite IN. rewrite V1 in Hv. destruct (find n (d_vars d)) as [w|] eqn:Ew.
      - injection Hv as <-. rewrite (I6 _ _ Ew). split; [auto|intros [H|H]; [exact H|contradiction]].
      - destruct (mem n (refs_gram (snd r))); cbn [andb] in Hv; [|discriminate]. destruct (find n (d_grams d)) eqn:Egn; [discriminate|]. injection Hv as <-.
        split; [congruence|]. intros [H|H]; [|contradiction]. exfalso. apply (proj2 (I4 n)); [|exact Egn]. split; [exact H|]. rewrite <- I5. congruence. }
    assert (G4 : forall n, n <> fst r -> (find n (d_grams d) <> None <-> In n (names (a ++ [r])) /\ ~ early (a ++ [r]) n)).
    { intros n Hne. rewrite I4, IN, early_snoc. split.
      - intros [H1 H2]. split; [auto|]. intros [H3|[_ H3]]; auto.
      - intros [[H1|H1] H2]; [|contradiction]. split; auto. }
    destruct (find (fst r) (d_vars d1)) as [v|] eqn:Ev1.
    + destruct Vn as [Vn|Vn]; [discriminate|]. injection Vn as ->.
      replace (match find (fst r) (d_vars d) with Some g0 => Some g0 | None => if mem (fst r) (refs_gram (snd r)) && match find (fst r) (d_grams d) with Some _ => false | None => true end then Some GNil else None end) with (Some (GNil : G)) by (rewrite <- V1; exact (eq_sym Ev1)).
      cbn [is_nil]. eexists. split; [reflexivity|]. split; [exact T1|]. split; [exact NA|]. split; [cbn [d_vars set_var]; rewrite keys_update; exact N1|]. cbn [d_grams d_vars set_var].
      split; [|split].
      * intro n. rewrite G1. destruct (beq n (fst r)) eqn:Eb; [apply beq_eq in Eb; subst n|apply beq_neq in Eb; apply G4; exact Eb].
        split; [congruence|]. intros [_ H]. exfalso. apply H. apply Ev. congruence.
      * intro n. rewrite find_update, <- Ev. destruct (beq n (fst r)) eqn:Eb; [|reflexivity]. apply beq_eq in Eb. subst n. rewrite Ev1. split; discriminate.
      * intros n v. rewrite find_update. destruct (beq n (fst r)) eqn:Eb.
        -- rewrite Ev1. intros [= <-]. apply beq_eq in Eb. subst n. split; [intros _; apply IN; auto|auto].
        -- intro H. apply beq_neq in Eb. apply V6; assumption.
    + replace (match find (fst r) (d_vars d) with Some g0 => Some g0 | None => if mem (fst r) (refs_gram (snd r)) && match find (fst r) (d_grams d) with Some _ => false | None => true end then Some GNil else None end) with (@None G) by (rewrite <- V1; exact (eq_sym Ev1)).
      rewrite Eg. eexists. split; [reflexivity|]. split; [exact T1|]. split; [exact NA|]. split; [exact N1|]. cbn [d_grams d_vars add_gram]. split; [|split].
      * intro n. rewrite G1, find_app. destruct (beq n (fst r)) eqn:Eb.
        -- apply beq_eq in Eb. subst n. rewrite Eg. split; [intros _|discriminate]. split; [apply IN; auto|]. rewrite <- Ev. congruence.
        -- apply beq_neq in Eb. rewrite <- (G4 n Eb). destruct (find n (d_grams d)); tauto.
      * exact Ev.
      * intros n v H. apply V6; [|exact H]. intros ->. congruence.
Qed.

Lemma doc_step : forall rs a d, INV a d -> forallb (fun r => legal_gram kw (snd r)) rs = true -> forallb (fun r => negb (nil_gram (snd r))) rs = true ->
  (NoDup (names (a ++ rs)) /\ exists d', e_doc marker rs d = inl (tt, d') /\ INV (a ++ rs) d') \/
  (~ NoDup (names (a ++ rs)) /\ exists p, e_doc marker rs d = inr p).
Proof.
  induction rs as [|r rs IH]; intros a d HI HL HN.
  - left. rewrite app_nil_r. split; [apply HI|]. exists d. split; [reflexivity|exact HI].
  - cbn [forallb] in *. apply andb_true_iff in HL, HN. destruct HL as [L1 L2]. destruct HN as [N1 N2]. apply negb_true_iff in N1.
    destruct (rule_step a d r HI L1 N1) as [R1 R2]. cbn [e_doc]. unfold bind.
    destruct (in_dec (list_eq_dec Z.eq_dec) (fst r) (names a)) as [Hi|Hi].
    + right. destruct (R1 Hi) as (p & ->). split; [|eauto]. intro H. unfold names in *. rewrite map_app in H. cbn [map] in H. apply NoDup_remove_2 in H. apply H. apply in_app_iff. auto.
    + destruct (R2 Hi) as (d' & -> & HI'). destruct (IH (a ++ [r]) d' HI' L2 N2) as [(X1 & d2 & X2 & X3)|(X1 & X2)]; rewrite <- app_assoc in *; cbn [app] in *; [left|right]; eauto.
Qed.
Lemma INV0 : forall tk m, is_kw tk = kw -> tk_ok tk -> INV [] (d0 tk m).
Proof.
  intros tk m Hk Ho. split; [|split; [constructor|split; [constructor|split; [|split]]]].
  - destruct tk as [|k]; cbn; (split; [exact Hk|]); split; try exact I; cbn in *.
    + intros w v. unfold KwInit, kw_find. destruct (kw_map k) eqn:E; cbn [kw_map]; [|discriminate]. rewrite E. intro H. apply (Ho w v). unfold kw_find. rewrite E. exact H.
    + unfold KwInit. destruct (kw_map k) eqn:E; [congruence|discriminate].
  - intro n. cbn. split; [congruence|]. intros [[] _].
  - intro n. cbn. split; [congruence|]. intro H. apply early_nil in H. contradiction.
  - discriminate.
Qed.

Lemma unassigned_nil : forall d : D, NoDup (map fst (d_vars d)) -> (unassigned d = [] <-> forall n, find n (d_vars d) <> Some GNil).
Proof.
  intros d. unfold unassigned. induction (d_vars d) as [|[k v] l IH]; intro HN; [split; [discriminate|reflexivity]|].
  inversion HN as [|? ? Hk Hl]; subst. cbn [filter snd fst map] in *. specialize (IH Hl). destruct (is_nil v) eqn:E.
  - split; [discriminate|]. intro H. exfalso. apply (H k). cbn [find]. rewrite beq_refl. apply is_nil_iff in E. congruence.
  - rewrite IH. split; intros H n.
    + cbn [find]. destruct (beq n k); [intros [= ->]; discriminate|apply H].
    + specialize (H n). cbn [find] in H. destruct (beq n k) eqn:Eb; [|exact H]. apply beq_eq in Eb. subst n. apply find_none in Hk. congruence.
Qed.
(** when the rules denote a grammar *)
Lemma finish_ok : forall rs d, INV rs d ->
  ((exists root, cl_finish (PM := PM) d = ClOk root d) <->
   In n_doc (names rs) /\ ~ early rs n_doc /\ (forall n, early rs n -> In n (names rs))).
Proof.
  intros rs d (I1 & I2 & I3 & I4 & I5 & I6). unfold cl_finish.
  assert (U : unassigned d = [] <-> forall n, early rs n -> In n (names rs)).
  { rewrite (unassigned_nil d I3). split; intros H n.
    - intro He. apply I5 in He. destruct (find n (d_vars d)) as [v|] eqn:E; [|congruence]. apply (I6 n v E). intros ->. exact (H n E).
    - intro E. apply (proj2 (I6 n _ E)); [|reflexivity]. apply H. apply I5. congruence. }
  destruct (find n_doc (d_grams d)) as [root|] eqn:E.
  - assert (X : In n_doc (names rs) /\ ~ early rs n_doc) by (apply I4; congruence). destruct (unassigned d) eqn:Eu.
    + split; [intros _; split; [apply X|]; split; [apply X|]; apply U; reflexivity|eauto].
    + split; [intros (r & H); discriminate|]. intros (_ & _ & H). apply U in H. discriminate.
  - split; [intros (r & H); discriminate|]. intros (H1 & H2 & _). exfalso. apply (proj2 (I4 n_doc)); auto.
Qed.
(** in terms of positions *)
Lemma split_two : forall (X : Type) (a : list X) x b a1 r a2, a ++ x :: b = a1 ++ r :: a2 ->
  (a1 = a /\ r = x) \/ (exists c, a = a1 ++ r :: c) \/ (exists c, a1 = a ++ x :: c).
Proof.
  induction a as [|y a IH]; intros x b a1 r a2 E; destruct a1 as [|z a1]; cbn [app] in E.
  - injection E as -> ->. auto.
  - injection E as -> ->. right. right. exists a1. reflexivity.
  - injection E as -> E. right. left. exists a. reflexivity.
  - injection E as -> E. apply IH in E. destruct E as [[-> ->]|[(c & ->)|(c & ->)]]; [left; auto|right; left; exists c; reflexivity|right; right; exists c; reflexivity].
Qed.
Lemma early_doc : forall rs, NoDup (names rs) -> In n_doc (names rs) ->
  (~ early rs n_doc <-> exists a g b, rs = a ++ (n_doc, g) :: b /\ ~ In n_doc (flat_map (fun r => refs_gram (snd r)) (a ++ [(n_doc, g)]))).
Proof.
  intros rs HN Hi. split.
  - intro He. apply in_map_iff in Hi. destruct Hi as ([k g] & Hk & Hi). cbn in Hk. subst k. apply in_split in Hi. destruct Hi as (a & b & ->). exists a, g, b. split; [reflexivity|].
    unfold names in HN. rewrite map_app in HN. cbn [map fst] in HN. apply NoDup_remove_2 in HN. rewrite in_app_iff in HN.
    rewrite flat_map_app, in_app_iff. intros [H|H].
    + rewrite in_flat_map in H. destruct H as (r & Hr & Hin). apply He. apply in_split in Hr. destruct Hr as (a1 & a2 & ->). exists a1, r, (a2 ++ (n_doc, g) :: b).
      rewrite <- app_assoc. split; [reflexivity|]. split; [exact Hin|]. intro H. apply HN. left. rewrite map_app. apply in_app_iff. auto.
    + cbn [flat_map] in H. rewrite app_nil_r in H. apply He. exists a, (n_doc, g), b. split; [reflexivity|]. split; [exact H|]. intro Hx. apply HN. left. exact Hx.
  - intros (a & g & b & -> & Hno) (a1 & r & a2 & E & Hin & Hn). apply Hno. rewrite flat_map_app, in_app_iff.
    apply split_two in E. destruct E as [[-> ->]|[(c & ->)|(c & ->)]].
    + right. cbn [flat_map]. rewrite app_nil_r. exact Hin.
    + left. apply in_flat_map. exists r. rewrite in_app_iff. split; [right; left; reflexivity|exact Hin].
    + exfalso. apply Hn. unfold names. rewrite map_app. apply in_app_iff. right. left. reflexivity.
Qed.
Lemma early_used : forall rs, (forall n, early rs n -> In n (names rs)) <-> (forall n, In n (flat_map (fun r => refs_gram (snd r)) rs) -> In n (names rs)).
Proof.
  intro rs. split; intros H n.
  - intro Hi. apply in_flat_map in Hi. destruct Hi as (r & Hr & Hi). apply in_split in Hr. destruct Hr as (a & b & ->).
    destruct (in_dec (list_eq_dec Z.eq_dec) n (names a)) as [Hn|Hn]; [unfold names; rewrite map_app; apply in_app_iff; auto|]. apply H. exists a, r, b. auto.
  - intros (a & r & b & -> & Hi & _). apply H. apply in_flat_map. exists r. rewrite in_app_iff. split; [right; left; reflexivity|exact Hi].
Qed.
End Rules.
