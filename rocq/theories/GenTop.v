(** GenStaticCode on a whole grammar text: the rules, and the text it returns. *)
From Coq Require Import String Permutation.
From Verif Require Import Base Token Utf8 Scanner Tokenize Grammar Matcher MatcherProofs PegSpec MatchProofs MatchProofs2 PegTools Compiler GramSyntax CompilerProofs CompilerTop CompilerMore CompilerDen Gen GenSpec GenProofs GenRead.
Local Open Scope Z_scope.

(** ** The result of GenStaticCode *)
Definition gd0 : gdst := mkGd [] [] (tk_init (AutoKw (mkKw [] None))).
Lemma gen_unfold : forall isL isD f old src, GenStaticCode isL isD f old src =
  match Tokenize isL isD false true (AutoKw (mkKw [] None)) old src with
  | TzErr _ e => GenTokErr e
  | TzStuck => GenFuel
  | TzOk ts _ =>
      match gmatch meta_env (lift gclient) f m_doc ts (mkSt (fun _ => 0) (mkGs [] gd0)) with
      | Ret n None s' => match skipn n ts with [] => gen_finish (gd (ust s')) | next => GenMatchErr (MErr GEOF next None 0) end
      | Ret _ (Some e) _ => GenMatchErr e
      | Panic p _ => GenPanic p
      | OutOfFuel => GenFuel
      end
  end.
Proof.
  intros isL isD f old src. unfold GenStaticCode, MatchExactly, Match. fold gd0.
  destruct (Tokenize isL isD false true (AutoKw (mkKw [] None)) old src) as [ts eof| |]; try reflexivity.
  unfold m_doc. cbn iota. destruct (gmatch meta_env (lift gclient) f (GRep1 3 m_rule) ts (mkSt (fun _ => 0) (mkGs [] gd0))) as [n [e|] s'|p s'|]; try reflexivity.
  destruct (skipn n ts); reflexivity.
Qed.
Lemma gen_doc : forall isL isD old src ts eof rs, Tokenize isL isD false true (AutoKw (mkKw [] None)) old src = TzOk ts eof -> ok_doc rs = true -> sigs ts = r_doc rs ->
  exists F, forall f, (F <= f)%nat -> GenStaticCode isL isD f old src =
    match t_doc rs gd0 with inl (_, d) => gen_finish d | inr p => GenPanic (PUser p) end.
Proof.
  intros isL isD old src ts eof rs Ht Ho Hs. destruct (GenProofs.doc_fwd rs ts Ho Hs) as (tr & l & P & E).
  unfold parses in P. rewrite app_nil_r in P. destruct (proj1 (sim_all meta_env gclient) _ _ _ _ P) as (F & HF).
  exists F. intros f Hf. specialize (HF f Hf (mkSt (fun _ => 0) (mkGs [] gd0))). specialize (E (fun s => s) [] gd0 []). cbn beta in E.
  rewrite gen_unfold, Ht.
  destruct HF as [(p & s' & Hg & Hr)|(s' & Hg & _ & Hr)]; specialize (Hr []); cbn [ust] in Hr; rewrite Hg.
  - destruct (t_doc rs gd0) as [[y d]|q]; [congruence|]. destruct E as (x' & E). congruence.
  - rewrite skipn_all. cbn iota. destruct (t_doc rs gd0) as [[y d]|q].
    + assert (X : ust s' = mkGs [] d) by congruence. rewrite X. reflexivity.
    + destruct E as (x' & E). congruence.
Qed.

Lemma refs_go : (forall f, plain_factor f = true -> forall n, In n (refs_factor f) -> go_name n = true) /\
  (forall i, plain_item i = true -> forall n, In n (refs_item i) -> go_name n = true) /\
  (forall s, plain_suffix s = true -> forall n, In n (refs_suffix s) -> go_name n = true).
Proof.
  apply syntax_ind.
  - intros n Hp m Hm. cbn [refs_factor plain_factor] in *. unfold rule_ref in Hm. destruct (upper n); [contradiction|]. cbn [negb andb orb] in *.
    destruct (beq n n_true); [contradiction|]. destruct Hm as [<-|[]]. exact Hp.
  - intros l _ n [].
  - intros l _ n [].
  - intros l _ n [].
  - intros o f IH Hp. cbn [plain_factor refs_factor] in *. apply andb_true_iff in Hp. apply IH, Hp.
  - intros g IH Hp n Hn. cbn [plain_factor refs_factor] in *. rewrite forallb_forall in Hp. apply in_flat_map in Hn. destruct Hn as (e & He & Hn). specialize (Hp e He).
    rewrite forallb_forall in Hp. apply in_flat_map in Hn. destruct Hn as (i & Hi & Hn). rewrite Forall_forall in IH. specialize (IH e He). rewrite Forall_forall in IH. apply (IH i Hi); auto.
  - intros _ n [].
  - intros f ss IHf IHs Hp n Hn. cbn [plain_item refs_item] in *. apply andb_true_iff in Hp. destruct Hp as [P1 P2]. apply in_app_iff in Hn. destruct Hn as [Hn|Hn]; [auto|].
    apply in_flat_map in Hn. destruct Hn as (s & Hs & Hn). rewrite forallb_forall in P2. rewrite Forall_forall in IHs. apply (IHs s Hs); auto.
  - auto.
  - auto.
  - intros n _ m [].
Qed.
Lemma refs_gram_go : forall g, plain_gram g = true -> forall n, In n (refs_gram g) -> go_name n = true.
Proof.
  intros g Hp n Hn. unfold plain_gram, refs_gram, refs_expr in *. rewrite forallb_forall in Hp. apply in_flat_map in Hn. destruct Hn as (e & He & Hn). specialize (Hp e He).
  rewrite forallb_forall in Hp. apply in_flat_map in Hn. destruct Hn as (i & Hi & Hn). apply (proj1 (proj2 refs_go) i); auto.
Qed.
Lemma find_put : forall n k v (l : list (bytes * bytes)), find n (put_key k v l) = if beq n k then Some v else find n l.
Proof.
  intros n k v l. unfold put_key. destruct (find k l) as [x|] eqn:E.
  - rewrite find_update, E. reflexivity.
  - rewrite find_app. destruct (beq n k) eqn:B; [apply beq_eq in B; subst n; rewrite E; reflexivity|]. destruct (find n l); reflexivity.
Qed.
Lemma keys_put : forall k v (l : list (bytes * bytes)), map fst (put_key k v l) = match find k l with Some _ => map fst l | None => map fst l ++ [k] end.
Proof.
  intros k v l. unfold put_key. destruct (find k l) as [x|] eqn:E; [|rewrite map_app; reflexivity]. clear E x. induction l as [|[k' v'] l IH]; [reflexivity|].
  cbn [update]. destruct (beq k k'); [reflexivity|]. cbn [map fst]. rewrite IH. reflexivity.
Qed.
Lemma keys_update : forall X k (v : X) (l : list (bytes * X)), map fst (update k v l) = map fst l.
Proof. induction l as [|[k' v'] l IH]; [reflexivity|]. cbn [update]. destruct (beq k k'); [reflexivity|]. cbn [map fst]. rewrite IH. reflexivity. Qed.

Section Docs.
Context {A T PM M : Type}.
Notation G := (gr A T).
Notation D := (dst A T M).
Variable marker : G -> bytes -> M -> (G * M) + (PM * M).
Variable w : bytes -> G -> G.
Variable Hw : forall g n m g' m', marker g n m = inl (g', m') -> erase g' = w n (erase g).
Variable declared : bytes -> bool.
Variable Hd : forall n, declared n = true -> go_name n = true.
Notation says := (says w declared).

Definition known_name (e : gdst) (n : bytes) : Prop := find n (g_grams e) <> None \/ find n (g_vars e) <> None.
Definition REL (a : list rule) (d : D) (e : gdst) : Prop :=
  same_keys d e /\ NoDup (map fst (g_vars e)) /\ NoDup (map fst (g_grams e)) /\
  (forall n, In n (names a) \/ In n (flat_map (fun r => refs_gram (snd r)) a) -> known_name e n) /\
  (forall n, find n (g_grams e) <> None -> In n (names a)) /\
  (forall n s, find n (g_vars e) = Some s -> early a n /\ (s = n \/ In n (names a))) /\
  (forall n t, find n (g_grams e) = Some t -> exists g, find n (d_grams d) = Some g /\ says t g) /\
  (forall n s, find n (g_vars e) = Some s -> exists v, find n (d_vars d) = Some v /\ ((v = GNil /\ s = n) \/ exists t, s = app1 (n ++ x_assign) t /\ says t v)) /\
  (forall n, find n (g_vars e) <> None -> find n (g_grams e) = None).
Lemma REL0 : forall m, REL [] (d0 (AutoKw (mkKw [] None)) m) gd0.
Proof.
  intro m. unfold REL, same_keys, d0, gd0. cbn [d_grams d_vars d_tk g_grams g_vars g_tk map find flat_map names]. split; [auto|]. split; [constructor|]. split; [constructor|].
  split; [intros n [[]|[]]|]. split; [congruence|]. split; [discriminate|]. split; [discriminate|]. split; [discriminate|reflexivity].
Qed.
Lemma REL_rule : forall a r d d' e, REL a d e -> ok_gram (snd r) = true -> plain_gram (snd r) = true ->
  (forall n, In n (refs_gram (snd r)) -> declared n = true) ->
  (forall n, In n (refs_gram (snd r)) -> In n (names a) -> ~ early a n) ->
  e_rule marker r d = inl (tt, d') -> exists e', t_rule r e = inl (tt, e') /\ REL (a ++ [r]) d' e'.
Proof.
  intros a r d d' e (R1 & R2 & R3 & R4 & R5 & R6 & R7 & R8 & R9) Ho Hp Hdec Hlate E. unfold e_rule, GramSyntax.bind in E. unfold t_rule, GenProofs.bind.
  destruct (e_gram marker (snd r) d) as [[g d1]|] eqn:Eg; [|discriminate].
  assert (Hown : own (refs_gram (snd r)) e).
  { intros n s Hn Hf. destruct (R6 n s Hf) as (He & [Hs|Hs]); [exact Hs|]. exfalso. eapply Hlate; eauto. }
  destruct (f_gram marker w Hw declared Hd (snd r) Ho Hp d g d1 e Eg R1 Hown Hdec) as (t & e1 & -> & (K1 & D1 & G1 & P1 & V1 & S1 & N1 & U1) & Ht).
  assert (In1 : forall n, In n (names (a ++ [r])) <-> In n (names a) \/ n = fst r).
  { intro n. unfold names. rewrite map_app, in_app_iff. cbn [map In]. split; (intros [H|H]; [left; exact H|right]); [destruct H as [H|[]]; auto|auto]. }
  assert (E1 : forall n s, find n (g_vars e1) = Some s -> early (a ++ [r]) n).
  { intros n s H. apply early_snoc. destruct (N1 n s H) as [H1|(H1 & H2 & H3 & _ & _)]; [left; apply (R6 _ _ H1)|]. right. split; [exact H3|]. intro Hi.
    destruct (R4 n (or_introl Hi)); congruence. }
  assert (B1 : forall n s, find n (g_vars e1) = Some s -> s = n \/ In n (names a)).
  { intros n s H. destruct (N1 n s H) as [H1|(_ & _ & _ & H1 & _)]; [apply (R6 _ _ H1)|left; exact H1]. }
  assert (C1 : forall n s, find n (g_vars e1) = Some s -> exists v, find n (d_vars d1) = Some v /\ ((v = GNil /\ s = n) \/ exists t, s = app1 (n ++ x_assign) t /\ says t v)).
  { intros n s H. destruct (N1 n s H) as [H1|(_ & _ & _ & H1 & H2)]; [|exists GNil; auto]. destruct (R8 n s H1) as (v & Hv & X). exists v. split; [apply V1; exact Hv|exact X]. }
  assert (KN : forall n, In n (names a) \/ In n (flat_map (fun r => refs_gram (snd r)) (a ++ [r])) -> known_name e1 n).
  { assert (Old : forall n, known_name e n -> known_name e1 n).
    { intros n [H|H]; [left; congruence|right]. destruct (find n (g_vars e)) as [s|] eqn:F; [|congruence]. rewrite (S1 _ _ F). discriminate. }
    intros n [H|H]; [apply Old, R4; auto|]. rewrite flat_map_app in H. apply in_app_iff in H. destruct H as [H|H]; [apply Old, R4; auto|]. cbn [flat_map] in H. rewrite app_nil_r in H. apply (P1 n H). }
  assert (DJ : forall n, find n (g_vars e1) <> None -> find n (g_grams e1) = None).
  { intros n H. rewrite G1. destruct (find n (g_vars e1)) as [s|] eqn:F; [|congruence]. destruct (N1 n s F) as [H1|(_ & H1 & _)]; [apply R9; congruence|exact H1]. }
  pose proof K1 as (KA & KB & KC). unfold define in E. unfold t_define.
  pose proof (find_keys _ _ _ _ (fst r) KB) as FV. pose proof (find_keys _ _ _ _ (fst r) KA) as FG.
  destruct (find (fst r) (d_vars d1)) as [v|] eqn:Ev.
  - destruct (is_nil v) eqn:En; [|discriminate]. injection E as <-.
    destruct (find (fst r) (g_vars e1)) as [s|] eqn:Es; [|exfalso; destruct FV as [_ FV]; specialize (FV eq_refl); discriminate].
    eexists. split; [reflexivity|]. unfold REL, same_keys. cbn [d_grams d_vars d_tk set_var g_grams g_vars g_tk].
    assert (Ek : map fst (put_key (fst r) (app1 (fst r ++ x_assign) t) (g_vars e1)) = map fst (g_vars e1)) by (rewrite keys_put, Es; reflexivity).
    split; [split; [exact KA|split; [rewrite keys_update, Ek; exact KB|exact KC]]|].
    split; [rewrite Ek; auto|]. split; [congruence|]. split; [|split; [|split; [|split; [|split]]]].
    + intros n H. unfold known_name. cbn [g_grams g_vars]. rewrite find_put. destruct (beq n (fst r)) eqn:B; [right; discriminate|].
      apply KN. destruct H as [H|H]; [|auto]. apply In1 in H. destruct H as [H|H]; [auto|]. subst n. rewrite beq_refl in B. discriminate.
    + intros n H. apply In1. left. apply R5. congruence.
    + intros n s' H. rewrite find_put in H. destruct (beq n (fst r)) eqn:B.
      * apply beq_eq in B. subst n. split; [eapply E1; eauto|right; apply In1; auto].
      * split; [eapply E1; eauto|]. destruct (B1 _ _ H) as [H1|H1]; [auto|right; apply In1; auto].
    + intros n t0 H. rewrite G1 in H. rewrite D1. apply R7. exact H.
    + intros n s' H. rewrite find_put in H. rewrite find_update, Ev. destruct (beq n (fst r)) eqn:B; [|apply C1; exact H].
      apply beq_eq in B. subst n. injection H as <-. exists g. split; [reflexivity|]. right. exists t. auto.
    + intros n H. rewrite find_put in H. apply DJ. destruct (beq n (fst r)) eqn:B; [|exact H]. apply beq_eq in B. subst n. congruence.
  - destruct (find (fst r) (g_vars e1)) as [s|] eqn:Es; [destruct FV as [FV _]; specialize (FV eq_refl); discriminate|].
    destruct (find (fst r) (d_grams d1)) as [g0|] eqn:Eg0; [discriminate|]. injection E as <-.
    destruct (find (fst r) (g_grams e1)) as [t0|] eqn:Et0; [destruct FG as [FG _]; specialize (FG eq_refl); discriminate|].
    eexists. split; [reflexivity|]. unfold REL, same_keys. cbn [d_grams d_vars d_tk add_gram g_grams g_vars g_tk].
    assert (Ek : map fst (put_key (fst r) t (g_grams e1)) = map fst (g_grams e1) ++ [fst r]) by (rewrite keys_put, Et0; reflexivity).
    split; [split; [rewrite map_app, Ek, KA; reflexivity|split; [exact KB|exact KC]]|].
    split; [auto|]. split; [rewrite Ek; apply (Permutation_NoDup (Permutation_cons_append _ _)); constructor; [apply find_none; exact Et0|congruence]|]. split; [|split; [|split; [|split; [|split]]]].
    + intros n H. unfold known_name. cbn [g_grams g_vars]. rewrite find_put. destruct (beq n (fst r)) eqn:B; [left; discriminate|].
      apply KN. destruct H as [H|H]; [|auto]. apply In1 in H. destruct H as [H|H]; [auto|]. subst n. rewrite beq_refl in B. discriminate.
    + intros n H. rewrite find_put in H. apply In1. destruct (beq n (fst r)) eqn:B; [right; apply beq_eq; exact B|]. left. apply R5. congruence.
    + intros n s' H. split; [eapply E1; eauto|]. destruct (B1 _ _ H) as [H1|H1]; [auto|right; apply In1; auto].
    + intros n t1 H. rewrite find_put in H. rewrite find_app, D1. destruct (beq n (fst r)) eqn:B.
      * apply beq_eq in B. subst n. injection H as <-. rewrite <- D1, Eg0. exists g. auto.
      * rewrite G1 in H. destruct (R7 _ _ H) as (g1 & Hg1 & Hs). rewrite Hg1. exists g1. auto.
    + exact C1.
    + intros n H. rewrite find_put. destruct (beq n (fst r)) eqn:B; [apply beq_eq in B; subst n; congruence|apply DJ; exact H].
Qed.
Lemma REL_doc : forall rs a d d' e, REL a d e -> forallb (fun r => ok_gram (snd r)) rs = true -> forallb (fun r => plain_gram (snd r)) rs = true ->
  (forall n, In n (flat_map (fun r => refs_gram (snd r)) rs) -> declared n = true) ->
  (forall a1 r b n, a ++ rs = a1 ++ r :: b -> In n (refs_gram (snd r)) -> In n (names a1) -> ~ early a1 n) ->
  e_doc marker rs d = inl (tt, d') -> exists e', t_doc rs e = inl (tt, e') /\ REL (a ++ rs) d' e'.
Proof.
  induction rs as [|r rs IH]; intros a d d' e HR Ho Hp Hdec Hl E; cbn [e_doc t_doc] in *.
  - injection E as <-. exists e. rewrite app_nil_r. split; [reflexivity|exact HR].
  - cbn [forallb flat_map] in *. apply andb_true_iff in Ho, Hp. destruct Ho as [O1 O2]. destruct Hp as [P1 P2]. unfold GramSyntax.bind in E. unfold GenProofs.bind.
    destruct (e_rule marker r d) as [[[] d1]|] eqn:E1; [|discriminate].
    destruct (REL_rule a r d d1 e HR O1 P1) as (e1 & -> & HR1); [intros n Hn; apply Hdec, in_app_iff; auto|intros n; eapply Hl; reflexivity|exact E1|].
    destruct (IH (a ++ [r]) d1 d' e1 HR1 O2 P2) as (e2 & E2 & HR2); [intros n Hn; apply Hdec, in_app_iff; auto| |exact E|].
    + intros a1 r1 b n Hx. rewrite <- app_assoc in Hx. cbn [app] in Hx. eapply Hl. exact Hx.
    + exists e2. rewrite <- app_assoc in HR2. split; [exact E2|exact HR2].
Qed.
End Docs.

(** ** The text of the method *)
Lemma lines_cons : forall l rest, oneline l = true -> lines (l ++ [10] ++ rest) = l :: lines rest.
Proof.
  induction l as [|c l IH]; intros rest H; [reflexivity|]. cbn [oneline forallb] in H. apply andb_true_iff in H. destruct H as [H1 H2]. apply negb_true_iff in H1.
  cbn [app lines]. rewrite H1. change (l ++ 10 :: rest) with (l ++ [10] ++ rest). rewrite (IH _ H2). reflexivity.
Qed.
Lemma lines_flat : forall X (f : X -> list bytes) l rest, Forall (fun x => Forall (fun t => oneline t = true) (f x)) l ->
  lines (flat_map (fun x => flat_map (fun t => t ++ [10]) (f x)) l ++ rest) = flat_map f l ++ lines rest.
Proof.
  intros X f l rest H. induction H as [|x l Hx _ IH]; [reflexivity|]. cbn [flat_map]. rewrite <- !app_assoc, <- IH. clear IH.
  induction Hx as [|t ts Ht _ IH]; [reflexivity|]. cbn [flat_map app]. rewrite <- !app_assoc. rewrite lines_cons by exact Ht. rewrite IH. reflexivity.
Qed.
Section Output.
Context {A T : Type}.
Notation G := (gr A T).
Variable mark : bytes -> G -> G.
Variables vs gs : list (bytes * bytes).
Variable declared : bytes -> bool.
Hypothesis Hdec : forall n, declared n = mem n (map fst vs ++ map fst gs).
Variable Hgo : forall n, In n (map fst vs ++ map fst gs) -> go_name n = true.
Variables hv hg : bytes -> G.
Hypothesis Hv : forall n s, In (n, s) vs -> exists t, s = app1 (n ++ x_assign) t /\ reads declared mark t (hv n).
Hypothesis Hg : forall n t, In (n, t) gs -> reads declared mark t (hg n).

Lemma dec_go : forall n, declared n = true -> go_name n = true.
Proof. intros n H. apply Hgo. apply mem_in. rewrite <- Hdec. exact H. Qed.
Lemma name_word : forall n rest, go_name n = true -> match rest with [] => True | c :: _ => delim c = true end -> word (n ++ rest) = (n, rest).
Proof. intros n rest H Hr. apply word_app; [apply name_delim, go_name_bytes; exact H|exact Hr]. Qed.
Lemma oneline_name : forall n, go_name n = true -> oneline n = true.
Proof. intros n H. apply oneline_word, name_delim, go_name_bytes. exact H. Qed.
Lemma chop_assign : forall n, chop w_Assign (n ++ w_Assign) = Some n.
Proof.
  intro n. unfold chop. rewrite app_length. replace (length n + length w_Assign - length w_Assign)%nat with (length n) by lia.
  rewrite skipn_app, skipn_all, Nat.sub_diag. cbn [app skipn]. rewrite beq_refl, firstn_app, firstn_all, Nat.sub_diag. cbn [firstn]. rewrite app_nil_r. reflexivity.
Qed.
Lemma assign_word : forall n rest, go_name n = true -> word ((n ++ w_Assign) ++ [40] ++ rest) = (n ++ w_Assign, [40] ++ rest).
Proof. intros n rest H. apply word_app; [|reflexivity]. rewrite forallb_app, (name_delim _ (go_name_bytes _ H)). reflexivity. Qed.
Lemma reads_head : forall t g, reads declared mark t g -> expect 34 (t ++ [41]) = None.
Proof.
  intros [|c t] g [_ H]; [reflexivity|]. cbn [app expect]. destruct (c =? 34) eqn:E; [|reflexivity]. apply Z.eqb_eq in E. subst c. exfalso.
  specialize (H [] (S (length (34 :: t)))). rewrite app_nil_r in H. specialize (H Logic.I (Nat.lt_succ_diag_r _)). rewrite read_S in H. change (word (34 :: t)) with (@nil Z, 34 :: t) in H. cbn iota in H.
  change (expect 40 (34 :: t)) with (@None bytes) in H. cbn iota in H. unfold bare in H. rewrite (undeclared declared dec_go [] eq_refl) in H. discriminate.
Qed.
Lemma stmt_var : forall n t g, go_name n = true -> declared n = true -> reads declared mark t g -> read_stmt declared mark (app1 (n ++ x_assign) t) = Some (n, None, g).
Proof.
  intros n t g H1 H2 Ht. unfold read_stmt, app1. change x_assign with w_Assign. rewrite assign_word by exact H1. rewrite chop_assign. cbn [app expect]. rewrite Z.eqb_refl, H2, (reads_head t g Ht).
  rewrite (proj2 Ht [41]); [reflexivity|right; reflexivity|]. repeat (rewrite app_length; cbn [length]). lia.
Qed.
Definition named_stmt (n t : bytes) : bytes := n ++ s2b ".Assign(" ++ [34] ++ n ++ [34] ++ s2b ", " ++ t ++ s2b ")".
Lemma stmt_named : forall n t g, go_name n = true -> declared n = true -> reads declared mark t g -> read_stmt declared mark (named_stmt n t) = Some (n, Some n, g).
Proof.
  intros n t g H1 H2 Ht. unfold read_stmt. replace (named_stmt n t) with ((n ++ w_Assign) ++ [40] ++ [34] ++ n ++ [34; 44; 32] ++ t ++ [41]) by (unfold named_stmt; rewrite <- !app_assoc; reflexivity).
  rewrite assign_word by exact H1. rewrite chop_assign. cbn [app expect]. rewrite Z.eqb_refl, H2. cbn [expect]. rewrite Z.eqb_refl.
  rewrite (name_word n (34 :: 44 :: 32 :: t ++ [41]) H1 eq_refl). change (skip [34; 44; 32] (34 :: 44 :: 32 :: t ++ [41])) with (Some (t ++ [41])). cbn iota.
  rewrite (proj2 Ht [41]); [reflexivity|right; reflexivity|]. repeat (rewrite app_length; cbn [length]). lia.
Qed.
Definition decls : list (bytes * bool) := map (fun p => (fst p, false)) vs ++ map (fun p => (fst p, true)) gs.
Definition stmts : list (bytes * option bytes * G) := map (fun p => (fst p, None, hv (fst p))) vs ++ map (fun p => (fst p, Some (fst p), hg (fst p))) gs.
Definition body : bytes :=
  s2b "var (" ++ nl ++ flat_map (fun p => decl_line (s2b "GrVar") (fst p)) vs ++ flat_map (fun p => decl_line (s2b "GrNamed") (fst p)) gs ++ s2b ")" ++ nl
  ++ flat_map var_line vs ++ flat_map named_line gs.
Lemma output_body : gen_output vs gs = gen_head ++ body ++ gen_tail.
Proof. unfold gen_output, body. rewrite <- !app_assoc. reflexivity. Qed.
Definition dline (t : string) (n : bytes) : bytes := n ++ s2b " = new(tpl." ++ s2b t ++ s2b ")".
Lemma body_lines : lines body =
  s2b "var (" :: map (fun p => dline "GrVar" (fst p)) vs ++ map (fun p => dline "GrNamed" (fst p)) gs ++ [41] ::
  flat_map (fun p => [s2b "// GrVar " ++ fst p; snd p]) vs ++ flat_map (fun p => [s2b "// GrNamed " ++ fst p; named_stmt (fst p) (snd p)]) gs.
Proof.
  assert (Nv : forall p, In p vs -> go_name (fst p) = true) by (intros p Hp; apply Hgo, in_app_iff; left; apply in_map; exact Hp).
  assert (Ng : forall p, In p gs -> go_name (fst p) = true) by (intros p Hp; apply Hgo, in_app_iff; right; apply in_map; exact Hp).
  unfold body. change (s2b "var (" ++ nl ++ ?x) with (s2b "var (" ++ [10] ++ x). rewrite lines_cons by reflexivity. f_equal.
  assert (One : forall X (f : X -> bytes) l, flat_map (fun x => [f x]) l = map f l) by (intros X f; induction l as [|x l IH]; cbn; [reflexivity|rewrite IH; reflexivity]).
  assert (E1 : forall t l rest, (forall p, In p l -> go_name (fst p) = true) -> oneline (s2b t) = true -> lines (flat_map (fun p : bytes * bytes => decl_line (s2b t) (fst p)) l ++ rest) = map (fun p => dline t (fst p)) l ++ lines rest).
  { intros t l rest Hl Ht. rewrite <- One. rewrite <- lines_flat.
    - f_equal. f_equal. apply flat_map_ext. intro p. unfold decl_line, dline. cbn [flat_map]. rewrite app_nil_r, <- !app_assoc. reflexivity.
    - apply Forall_forall. intros p Hp. constructor; [|constructor]. unfold dline. rewrite !oneline_app, (oneline_name _ (Hl p Hp)), Ht. reflexivity. }
  rewrite (E1 "GrVar"%string vs _ Nv eq_refl). f_equal. rewrite (E1 "GrNamed"%string gs _ Ng eq_refl). f_equal.
  change (s2b ")" ++ nl ++ ?x) with ([41] ++ [10] ++ x). rewrite lines_cons by reflexivity. f_equal.
  assert (E2 : flat_map var_line vs = flat_map (fun p => flat_map (fun t => t ++ [10]) [s2b "// GrVar " ++ fst p; snd p]) vs).
  { apply flat_map_ext. intro p. unfold var_line. cbn [flat_map]. rewrite app_nil_r, <- !app_assoc. reflexivity. }
  assert (E3 : flat_map named_line gs = flat_map (fun p => flat_map (fun t => t ++ [10]) [s2b "// GrNamed " ++ fst p; named_stmt (fst p) (snd p)]) gs).
  { apply flat_map_ext. intro p. unfold named_line, named_stmt. cbn [flat_map]. rewrite app_nil_r, <- !app_assoc. reflexivity. }
  rewrite E2, E3. rewrite lines_flat. 2:{ apply Forall_forall. intros [n s] Hp. destruct (Hv _ _ Hp) as (t & -> & Ht & _). pose proof (Nv _ Hp) as Hn. cbn [fst snd] in *.
    constructor; [rewrite oneline_app, (oneline_name n Hn); reflexivity|constructor; [|constructor]]. unfold app1. rewrite !oneline_app, (oneline_name n Hn), Ht. reflexivity. }
  f_equal. rewrite <- (app_nil_r (flat_map _ gs)) at 1. rewrite lines_flat; [cbn [lines]; rewrite app_nil_r; reflexivity|].
  apply Forall_forall. intros [n s] Hp. destruct (Hg _ _ Hp) as (Ht & _). pose proof (Ng _ Hp) as Hn. cbn [fst snd] in *.
  constructor; [rewrite oneline_app, (oneline_name n Hn); reflexivity|constructor; [|constructor]]. unfold named_stmt. rewrite !oneline_app, (oneline_name n Hn), Ht. reflexivity.
Qed.
Lemma body_reads : read_body mark body = Some (decls, stmts).
Proof.
  unfold read_body. rewrite body_lines. change (beq (s2b "var (") (s2b "var (")) with true. cbn iota.
  assert (Nv : forall p, In p vs -> go_name (fst p) = true) by (intros p Hp; apply Hgo, in_app_iff; left; apply in_map; exact Hp).
  assert (Ng : forall p, In p gs -> go_name (fst p) = true) by (intros p Hp; apply Hgo, in_app_iff; right; apply in_map; exact Hp).
  assert (RD : forall n b, go_name n = true -> read_decl (dline (if b : bool then "GrNamed" else "GrVar")%string n) = Some (n, b)).
  { intros n b H. unfold read_decl, dline. rewrite (name_word n); [|exact H|destruct b; reflexivity]. rewrite H. destruct b; reflexivity. }
  assert (NB : forall n b, go_name n = true -> beq (dline (if b : bool then "GrNamed" else "GrVar")%string n) [41] = false).
  { intros n b H. destruct n as [|c [|c2 n]]; [discriminate| |]; cbn; rewrite andb_false_r; reflexivity. }
  assert (D2 : forall l rest, (forall p, In p l -> go_name (fst p) = true) -> forall xs r b, read_decls rest = Some (xs, r) ->
    read_decls (map (fun p : bytes * bytes => dline (if b : bool then "GrNamed" else "GrVar")%string (fst p)) l ++ rest) = Some (map (fun p => (fst p, b)) l ++ xs, r)).
  { induction l as [|p l IH]; intros rest Hl xs r b E; [exact E|]. cbn [map app read_decls]. rewrite (NB _ b (Hl p (or_introl eq_refl))), (RD _ b (Hl p (or_introl eq_refl))).
    rewrite (IH rest (fun q Hq => Hl q (or_intror Hq)) xs r b E). reflexivity. }
  rewrite (D2 vs _ Nv (map (fun p => (fst p, true)) gs ++ []) (flat_map (fun p => [s2b "// GrVar " ++ fst p; snd p]) vs ++ flat_map (fun p => [s2b "// GrNamed " ++ fst p; named_stmt (fst p) (snd p)]) gs) false).
  2:{ apply (D2 gs _ Ng [] _ true). reflexivity. }
  rewrite app_nil_r. fold decls.
  assert (Ed : forall n, mem n (map fst decls) = declared n).
  { intro n. unfold decls. rewrite Hdec, map_app, !map_map. reflexivity. }
  assert (Dv : forall p, In p vs -> declared (fst p) = true) by (intros p Hp; rewrite Hdec; apply mem_in, in_app_iff; left; apply in_map; exact Hp).
  assert (Dg : forall p, In p gs -> declared (fst p) = true) by (intros p Hp; rewrite Hdec; apply mem_in, in_app_iff; right; apply in_map; exact Hp).
  assert (Eq : forall ls, read_stmts (fun n => mem n (map fst decls)) mark ls = read_stmts declared mark ls).
  { assert (Er : forall f, (forall s, read (fun n => mem n (map fst decls)) mark f s = read declared mark f s) /\ (forall s, read_args (fun n => mem n (map fst decls)) mark f s = read_args declared mark f s)).
    { induction f as [|f [IH1 IH2]]; [split; reflexivity|]. split; intro s.
      - rewrite !read_S. destruct (word s) as [w0 r0]. unfold bare. rewrite Ed. destruct (expect 40 r0); [|reflexivity]. rewrite IH1, IH2. reflexivity.
      - rewrite !read_args_S, IH1. destruct (read declared mark f s) as [[g r0]|]; [|reflexivity]. destruct (expect 44 r0); [|reflexivity]. rewrite IH2. reflexivity. }
    induction ls as [|l ls IH]; [reflexivity|]. cbn [read_stmts]. rewrite IH. destruct (skip [47; 47] l); [reflexivity|].
    assert (Es : read_stmt (fun n => mem n (map fst decls)) mark l = read_stmt declared mark l).
    { unfold read_stmt. destruct (word l) as [w0 r0]. destruct (chop w_Assign w0) as [n|]; [|reflexivity]. destruct (expect 40 r0) as [r1|]; [|reflexivity]. rewrite Ed.
      destruct (declared n); [|reflexivity]. destruct (expect 34 r1) as [r2|]; [destruct (word r2) as [l0 r3]; destruct (skip [34; 44; 32] r3) as [r4|]; [|reflexivity]|]; rewrite (proj1 (Er _)); reflexivity. }
    rewrite Es. reflexivity. }
  rewrite Eq. clear Eq D2 RD NB Ed.
  assert (SK : forall n s, go_name n = true -> skip [47; 47] (n ++ s) = None).
  { intros [|c n] s H; [discriminate|]. cbn [app skip expect]. destruct (c =? 47) eqn:E; [|reflexivity]. apply Z.eqb_eq in E. subst c. cbv in H. discriminate. }
  assert (S2 : forall l, incl l gs -> read_stmts declared mark (flat_map (fun p => [s2b "// GrNamed " ++ fst p; named_stmt (fst p) (snd p)]) l) = Some (map (fun p => (fst p, Some (fst p), hg (fst p))) l)).
  { induction l as [|[n t] l IH]; intro Hl; [reflexivity|]. pose proof (Hl _ (or_introl eq_refl)) as Hp. cbn [flat_map app read_stmts map fst snd].
    change (skip [47; 47] (s2b "// GrNamed " ++ n)) with (Some (s2b " GrNamed " ++ n)). cbn iota. assert (Z1 : skip [47; 47] (named_stmt n t) = None) by (apply SK; exact (Ng _ Hp)). rewrite Z1.
    rewrite (stmt_named n t (hg n) (Ng _ Hp) (Dg _ Hp) (Hg _ _ Hp)), IH; [reflexivity|]. intros x Hx. apply Hl. right. exact Hx. }
  assert (S1 : forall l, incl l vs -> read_stmts declared mark (flat_map (fun p => [s2b "// GrVar " ++ fst p; snd p]) l ++ flat_map (fun p => [s2b "// GrNamed " ++ fst p; named_stmt (fst p) (snd p)]) gs)
    = Some (map (fun p => (fst p, None, hv (fst p))) l ++ map (fun p => (fst p, Some (fst p), hg (fst p))) gs)).
  { induction l as [|[n s] l IH]; intro Hl; [apply S2; apply incl_refl|]. pose proof (Hl _ (or_introl eq_refl)) as Hp. cbn [flat_map app read_stmts map fst snd].
    change (skip [47; 47] (s2b "// GrVar " ++ n)) with (Some (s2b " GrVar " ++ n)). cbn iota. destruct (Hv _ _ Hp) as (t & -> & Ht). assert (Z1 : skip [47; 47] (app1 (n ++ x_assign) t) = None) by (unfold app1; rewrite <- app_assoc; apply SK; exact (Nv _ Hp)). rewrite Z1.
    rewrite (stmt_var n t (hv n) (Nv _ Hp) (Dv _ Hp) Ht), IH; [reflexivity|]. intros x Hx. apply Hl. right. exact Hx. }
  rewrite (S1 vs (incl_refl _)). reflexivity.
Qed.
End Output.
