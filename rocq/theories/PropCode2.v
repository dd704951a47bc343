(** Property C37, continued: the rules that Code prints, compiled again, match what the printed rules match.
    Specification: [peg] (PegSpec) says what a grammar matches. *)
From Coq Require Import String.
From Verif Require Import Base Token Utf8 Utf8Proofs Scanner ScannerSpec ScannerProofs ScannerProofs2 ScannerProofs3 ScannerProofs4
  ScannerProofs5 ScanDet ScanRun ScanInit ScanObs ScanClean Tokenize TokenizeProofs PropScan PropScan2
  Grammar PegSpec MatchProofs Matcher Compiler GramSyntax CompilerProofs CompilerTop CompilerMore CompilerDen PrintBack PrintToks PropCompiler PropCode CodeLang MatchProofs2 MatchObs PropMatch.
Local Open Scope list_scope. Local Open Scope Z_scope.

(** ** Specification *)
Definition matches {A T : Type} (env : bytes -> option (gr A T)) (g : gr A T) (ts : list token) (n : nat) : Prop := exists l tr, peg env g ts (OOk n l) tr.
Definition fails {A T : Type} (env : bytes -> option (gr A T)) (g : gr A T) (ts : list token) : Prop := exists tr, peg env g ts OFail tr.

(** ** The compiled rules have no [!] *)
Section NoBang.
Context {A T : Type}.
Notation G := (gr A T).
Variables isL isD : Z -> bool.
Variable tk : tokener.
Variable code : bytes -> Z.
Variable tr : bool.
Variable mark : bytes -> G -> G.
Notation S_item := (sem_item code tr mark).
Notation S_factor := (sem_factor code tr mark).
Notation S_gram := (sem_gram code tr mark).
Notation Tg := (tg (A := A) (T := T) tk).
Definition nobangs (t : gram) : Prop := Forall (Forall (fun i => bangless (S_item i) = true)) t.
Lemma nobangs_gram : forall t, nobangs t -> bangless (S_gram t) = true.
Proof.
  intros t H. unfold sem_gram. apply group_bang; [reflexivity|]. apply Forall_forall. intros x Hx. apply in_map_iff in Hx. destruct Hx as (e & <- & He).
  unfold nobangs in H. rewrite Forall_forall in H. specialize (H e He). unfold sem_expr. apply group_bang; [reflexivity|].
  apply Forall_forall. intros y Hy. apply in_map_iff in Hy. destruct Hy as (i & <- & Hi). rewrite Forall_forall in H. apply H. exact Hi.
Qed.
Lemma nobangs_factor : forall g, tree_ok tk g -> nobangs (Tg g) -> bangless (S_factor (as_factor (shape_of g) (Tg g))) = true.
Proof.
  intros g (_ & _ & _ & O4) H. destruct (shape_of g) eqn:E; cbn [as_factor]; try (apply (nobangs_gram _ H)).
  destruct (O4 eq_refl) as (f & Hf). rewrite Hf in *. inversion H as [|? ? H1 _]; subst. inversion H1 as [|? ? H2 _]; subst. exact H2.
Qed.
Lemma nobangs_item : forall g, tree_ok tk g -> nobangs (Tg g) -> bangless (S_item (as_item (shape_of g) (Tg g))) = true.
Proof.
  intros g (_ & _ & O3 & _) H. destruct (shape_of g) eqn:E; cbn [as_item]; try (apply (nobangs_gram _ H)).
  - destruct (O3 (or_introl eq_refl)) as (f & ss & Hf). rewrite Hf in *. inversion H as [|? ? H1 _]; subst. inversion H1 as [|? ? H2 _]; subst. exact H2.
  - destruct (O3 (or_intror eq_refl)) as (f & ss & Hf). rewrite Hf in *. inversion H as [|? ? H1 _]; subst. inversion H1 as [|? ? H2 _]; subst. exact H2.
Qed.
Lemma nobangs_expr : forall g, tree_ok tk g -> nobangs (Tg g) -> Forall (fun i => bangless (S_item i) = true) (as_expr (shape_of g) (Tg g)).
Proof.
  intros g (_ & O2 & _) H. destruct (shape_of g) eqn:E; cbn [as_expr].
  { constructor; [exact (nobangs_gram _ H)|constructor]. }
  all: destruct (O2 ltac:(discriminate)) as (e & He); rewrite He in *; cbn [hd]; inversion H; assumption.
Qed.
Lemma nobangs_one : forall g f, Tg g = one f -> bangless (S_factor f) = true -> nobangs (Tg g).
Proof. intros g f -> H. repeat constructor. exact H. Qed.
Lemma prints_nobangs : forall g, prints isL isD tk g -> nobangs (Tg g).
Proof.
  induction g using gr_ind'; intro HP.
  - destruct HP.
  - eapply nobangs_one; [reflexivity|]. match goal with |- context [word_factor ?w] => destruct (word_factor_cases w) as [-> |[-> |(-> & _)]] end; try reflexivity.
    cbn [sem_factor]. repeat match goal with |- context [if ?x then _ else _] => destruct x end; reflexivity.
  - eapply nobangs_one; reflexivity.
  - eapply nobangs_one; [reflexivity|]. cbn [sem_factor sem_pre bangless]. apply nobangs_factor; [eapply prints_tree; exact HP|exact (IHg HP)].
  - eapply nobangs_one; [reflexivity|]. cbn [sem_factor sem_pre bangless]. apply nobangs_factor; [eapply prints_tree; exact HP|exact (IHg HP)].
  - destruct HP.
  - apply prints_and in HP. destruct HP as (_ & HP). cbn [tg]. constructor; [|constructor]. apply forall_flat. rewrite Forall_forall in *. intros g Hg.
    destruct (is_nil g) eqn:N; [constructor|]. apply nobangs_expr; [eapply prints_tree; exact (HP g Hg N)|exact (H g Hg (HP g Hg N))].
  - apply prints_or in HP. destruct HP as (_ & HP). cbn [tg]. unfold nobangs. apply forall_flat. rewrite Forall_forall in *. intros g Hg. exact (H g Hg (HP g Hg)).
  - eapply nobangs_one; [reflexivity|]. cbn [sem_factor sem_pre bangless]. apply nobangs_factor; [eapply prints_tree; exact HP|exact (IHg HP)].
  - destruct HP as (HP & _). eapply nobangs_one; [reflexivity|]. cbn [sem_factor sem_pre bangless]. apply nobangs_factor; [eapply prints_tree; exact HP|exact (IHg HP)].
  - eapply nobangs_one; [reflexivity|]. cbn [sem_factor sem_pre bangless]. apply nobangs_factor; [eapply prints_tree; exact HP|exact (IHg HP)].
  - destruct HP as (HPa & HPb & _). cbn [tg]. constructor; [|constructor]. constructor; [|constructor].
    pose proof (nobangs_item _ (prints_tree _ _ _ _ HPa) (IHg1 HPa)) as B1. pose proof (nobangs_factor _ (prints_tree _ _ _ _ HPb) (IHg2 HPb)) as B2.
    destruct (tree_item tk g1 (prints_tree _ _ _ _ HPa)) as (f & ss & Hf & _). rewrite Hf in *. cbn [add_suffix]. rewrite suffix_sem.
    match goal with |- context [if ?z then SList0 else SList] => destruct z end; (match goal with |- ?x = true => change x with (bangless (S_item (ITerm f ss)) && bangless (S_factor (as_factor (shape_of g2) (Tg g2)))) end; rewrite B1, B2; reflexivity).
  - eapply nobangs_one; [reflexivity|]. cbn [sem_factor]. repeat match goal with |- context [if ?x then _ else _] => destruct x end; reflexivity.
  - eapply nobangs_one; [reflexivity|]. cbn [sem_factor]. repeat match goal with |- context [if ?x then _ else _] => destruct x end; reflexivity.
  - exact (IHg HP).
  - exact (IHg HP).
Qed.
End NoBang.

Section Facts.
Context {A T : Type}.
Notation G := (gr A T).
Lemma bang_erase : forall g : G, bangless (erase g) = bangless g.
Proof.
  induction g using gr_ind'; cbn [erase bangless]; auto.
  - induction H as [|g gs Hg _ IH]; [reflexivity|]. cbn [map forallb]. rewrite Hg, IH. reflexivity.
  - induction H as [|g gs Hg _ IH]; [reflexivity|]. cbn [map forallb]. rewrite Hg, IH. reflexivity.
  - rewrite IHg1, IHg2. reflexivity.
Qed.
Lemma bang_seps : forall g : G, bangless g = true -> seps_ok g = true.
Proof.
  induction g using gr_ind'; cbn [bangless seps_ok]; intro B; auto.
  - induction H as [|g gs Hg _ IH]; [reflexivity|]. cbn [forallb] in *. apply andb_true_iff in B. rewrite Hg, IH by apply B. reflexivity.
  - induction H as [|g gs Hg _ IH]; [reflexivity|]. cbn [forallb] in *. apply andb_true_iff in B. rewrite Hg, IH by apply B. reflexivity.
  - apply andb_true_iff in B. rewrite IHg1, IHg2, bang_nil by apply B. reflexivity.
Qed.
Lemma prints_seps : forall isL isD tk (g : G), prints isL isD tk g -> seps_ok g = true.
Proof.
  intros isL isD tk. induction g using gr_ind'; intro HP; auto.
  - apply prints_and in HP. destruct HP as (_ & HP). cbn [seps_ok]. apply forallb_forall. rewrite Forall_forall in *. intros g Hg.
    destruct (is_nil g) eqn:N; [destruct g; try discriminate; reflexivity|]. exact (H g Hg (HP g Hg N)).
  - apply prints_or in HP. destruct HP as (_ & HP). cbn [seps_ok]. apply forallb_forall. rewrite Forall_forall in *. intros g Hg. exact (H g Hg (HP g Hg)).
  - destruct HP as (HP & _). exact (IHg HP).
  - destruct HP as (HPa & HPb & _). cbn [seps_ok]. rewrite IHg1, IHg2 by assumption.
    assert (HC : forall k l, names_token isL isD tk k l -> code_of tk l = k) by (intros k l H; apply known_code; apply H).
    destruct (prints_back isL isD tk (code_of tk) HC false (fun _ g => g) g2 HPb) as (_ & F). rewrite (full_nil _ F). reflexivity.
Qed.
Lemma uses_group : forall (c : list G -> G) L, (forall l, uses (c l) = flat_map uses l) -> uses (group c L) = flat_map uses L.
Proof. intros c [|x [|y l]] H; cbn [group]; rewrite ?H; try reflexivity. cbn [flat_map]. rewrite app_nil_r. reflexivity. Qed.
Lemma uses_norm : forall g : G, uses (norm g) = uses g.
Proof.
  assert (S : forall g : G, flat_map uses (seqs g) = uses g) by (intros []; cbn [seqs flat_map uses]; try rewrite app_nil_r; reflexivity).
  assert (L : forall g : G, flat_map uses (alts g) = uses g) by (intros []; cbn [alts flat_map uses]; try rewrite app_nil_r; reflexivity).
  induction g using gr_ind'; cbn [norm uses]; try congruence.
  - rewrite uses_group by reflexivity. induction H as [|g gs Hg _ IH]; [reflexivity|]. cbn [flat_map]. rewrite flat_map_app, S, Hg, IH. reflexivity.
  - rewrite uses_group by reflexivity. induction H as [|g gs Hg _ IH]; [reflexivity|]. cbn [flat_map]. rewrite flat_map_app, L, Hg, IH. reflexivity.
Qed.
Lemma named_uses : forall (g : G) v b, In (v, b) (named g) -> In v (uses g).
Proof.
  induction g using gr_ind'; intros v0 b0 Hin; cbn [named uses] in *; try (destruct Hin; fail); eauto.
  - rewrite Forall_forall in H. apply in_flat_map in Hin. destruct Hin as (g & Hg & Hin). apply in_flat_map. exists g. split; [exact Hg|eapply H; eauto].
  - rewrite Forall_forall in H. apply in_flat_map in Hin. destruct Hin as (g & Hg & Hin). apply in_flat_map. exists g. split; [exact Hg|eapply H; eauto].
  - apply in_app_or in Hin. apply in_or_app. destruct Hin; eauto.
  - destruct Hin as [[= -> ->]|[]]. left. reflexivity.
Qed.
Lemma tvars_uses : forall (g : G) v, In v (tvars g) -> In v (uses g) /\ In v (gvars g).
Proof.
  induction g using gr_ind'; intros v0 Hin; cbn [tvars uses gvars] in *; try (destruct Hin; fail); eauto.
  - rewrite Forall_forall in H. apply in_flat_map in Hin. destruct Hin as (g & Hg & Hin). destruct (H g Hg _ Hin). split; apply in_flat_map; exists g; auto.
  - rewrite Forall_forall in H. apply in_flat_map in Hin. destruct Hin as (g & Hg & Hin). destruct (H g Hg _ Hin). split; apply in_flat_map; exists g; auto.
  - apply in_app_or in Hin. destruct Hin as [Hin|Hin]; [destruct (IHg1 _ Hin)|destruct (IHg2 _ Hin)]; split; apply in_or_app; auto.
Qed.
Lemma find_nodup : forall X n (l : list (bytes * X)) v, NoDup (map fst l) -> In (n, v) l -> find n l = Some v.
Proof.
  intros X n l v. induction l as [|[k w] l IH]; intros ND H; [destruct H|]. cbn [map fst] in ND. inversion ND; subst. cbn [find]. destruct H as [[= -> ->]|H]; [rewrite beq_refl; reflexivity|].
  destruct (beq n k) eqn:E; [|auto]. apply beq_eq in E. subst. exfalso. match goal with H : ~ In _ _ |- _ => apply H end. apply in_map_iff. exists (k, v). auto.
Qed.
(** two sets of rules with the same normal forms *)
Lemma same_lang : forall (nenv env env' : bytes -> option G) (R R' : bytes -> G -> Prop),
  (forall n g, R n g -> refers env R g) -> (forall n g, R n g -> nenv n = Some (norm g)) ->
  (forall n g, R' n g -> refers env' R' g) -> (forall n g, R' n g -> nenv n = Some (norm g)) -> (forall n g, R' n g -> bangless g = true) ->
  forall n g g', R n g -> R' n g' -> forall ts, (forall k, matches env g ts k -> matches env' g' ts k) /\ (fails env g ts -> fails env' g' ts).
Proof.
  intros nenv env env' R R' C1 N1 C2 N2 B n g g' H1 H2 ts.
  assert (E : norm g = norm g') by (pose proof (N1 n g H1) as X; rewrite (N2 n g' H2) in X; congruence).
  destruct (to_norm nenv env R C1 N1) as (TO & _). split.
  - intros k (l & tr & P). destruct (TO _ _ _ _ P (C1 n g H1) Logic.I) as (f & F). rewrite E in F.
    destruct (of_norm nenv env' R' C2 N2 B f g' (C2 n g' H2) (B n g' H2) ts _ F) as ([k' l'| |s] & tr' & P' & Ro & Ea); try discriminate. injection Ea as ->. exists l', tr'. exact P'.
  - intros (tr & P). destruct (TO _ _ _ _ P (C1 n g H1) Logic.I) as (f & F). rewrite E in F.
    destruct (of_norm nenv env' R' C2 N2 B f g' (C2 n g' H2) (B n g' H2) ts _ F) as ([k' l'| |s] & tr' & P' & Ro & Ea); try discriminate; [|destruct Ro]. exists tr'. exact P'.
Qed.
End Facts.

Section Same.
Context {A T PM M : Type}.
Notation G := (gr A T).
Variable marker : G -> bytes -> M -> (G * M) + (PM * M).
Variable w : bytes -> G -> G.
Hypothesis Hw : forall g n m g' m', marker g n m = inl (g', m') -> erase g' = w n (erase g) /\ incl (named g') (named g).
Hypothesis Hv : forall g n m g' m', marker g n m = inl (g', m') -> incl (gvars g') (gvars g).
Variables isL isD : Z -> bool.
Hypothesis HL : isL RuneError = false.
Hypothesis HD : isD RuneError = false.

Lemma doc_no_true : forall rs d d', e_doc marker rs d = inl (tt, d') -> no_true d -> no_true d'.
Proof.
  induction rs as [|r rs IH]; intros d d' E Hn; cbn [e_doc] in E; [injection E as <-; exact Hn|].
  unfold bind in E. destruct (e_rule marker r d) as [[[] d1]|] eqn:E1; [|discriminate]. destruct (rule_value marker w Hw r d d1 E1 Hn) as (_ & N1 & _). exact (IH _ _ E N1).
Qed.

(** The text that Code prints for a set of rules, compiled again: each rule matches, and consumes, what the printed one does, and fails where it fails;
    and nothing else if no printed rule has a [!]. *)
Theorem C37_same_matches : forall tk (rs : list (bytes * G)) sp old m src root d env, tk_ok tk -> printable isL isD tk rs -> spacing true sp ->
  NoDup (map fst rs) -> (forall n, In n (flat_map (fun r => uses (snd r)) rs) -> In n (map fst rs)) ->
  (forall n g, In (n, g) rs -> (forall v b, In (v, b) (named g) -> In (v, b) rs) /\ (forall v, In v (tvars g) -> env v = find v rs)) ->
  print_doc tk sp rs = Val src -> compiles_to marker isL isD tk old m src (ClOk root d) ->
  forall n g, In (n, g) rs -> exists g', value d n = Some g' /\ forall ts,
    (forall k, matches env g ts k -> matches (cenv d) g' ts k) /\ (fails env g ts -> fails (cenv d) g' ts) /\
    (forallb (fun r => bangless (snd r)) rs = true -> (forall k, matches env g ts k <-> matches (cenv d) g' ts k) /\ (fails env g ts <-> fails (cenv d) g' ts)).
Proof.
  intros tk rs sp old m src root d env Hk HP HS ND HU HE Hsrc C.
  destruct (C37_reads_back isL isD HL HD tk rs sp old Hk HP HS) as (src' & Hsrc' & Htext & _). rewrite Hsrc in Hsrc'. injection Hsrc' as <-.
  destruct HP as (_ & HP). rewrite Forall_forall in HP.
  destruct (C33_only_rules_compile marker isL isD _ _ _ _ _ _ C) as (rs' & Hx' & Ed & Hroot). rewrite <- (C32_one_reading _ _ _ _ _ _ _ Htext Hx') in Ed.
  destruct (doc_value marker w Hw _ _ _ Ed (no_true_d0 tk m)) as ((_ & K) & _).
  pose proof (doc_no_true _ _ _ Ed (no_true_d0 tk m)) as NT.
  destruct (keeps_doc marker Hv _ _ _ _ Ed (reg_d0 tk m)) as ((RG & RV) & _ & _).
  assert (Hu : unassigned d = []).
  { pose proof (compiles_unique marker isL isD _ _ _ _ _ _ C (C32_compiles marker isL isD tk old m src _ Htext)) as X. rewrite Ed in X. unfold cl_finish in X. rewrite Hroot in X. destruct (unassigned d); [reflexivity|discriminate]. }
  destruct (C32_denotes marker isL isD w Hw tk old m src _ root d Htext C) as (_ & D).
  assert (V : forall n g, In (n, g) rs -> exists g', value d n = Some g' /\ norm g' = norm g /\ bangless g' = true /\ Forall (fun nh => find (fst nh) (d_grams d) = Some (snd nh)) (named g')).
  { intros n g Hin. destruct (in_split _ _ Hin) as (a & b & E).
    destruct (D (trees tk a) (n, tg tk g) (trees tk b)) as (g' & Hval & He & Hnm).
    - rewrite E. unfold trees. rewrite map_app. reflexivity.
    - cbn [fst]. rewrite E, map_app in ND. apply NoDup_remove_2 in ND. intro X. apply ND. apply in_or_app. right. unfold names, trees in X. rewrite map_map in X. exact X.
    - exists g'. cbn [fst snd] in *. destruct (HP _ Hin) as (_ & P). cbn [snd] in P. split; [exact Hval|]. split; [|split; [|exact Hnm]].
      + rewrite <- norm_erase, He.
        assert (HC : forall k l, names_token isL isD tk k l -> code_of (d_tk d) l = k) by (intros k l (_ & _ & H & _); apply known_code; apply K; cbn; apply known_init; exact H).
        destruct (prints_back isL isD tk (code_of (d_tk d)) HC (mem n_true (names (trees tk a))) w g P) as (B & _).
        apply back_gram; [eapply prints_tree; exact P|exact B].
      + rewrite <- bang_erase, He. apply nobangs_gram. eapply prints_nobangs. exact P. }
  set (nenv := fun n => option_map norm (find n rs)).
  set (R := fun n (g : G) => In (n, g) rs). set (R' := fun n (g' : G) => In n (map fst rs) /\ value d n = Some g').
  assert (IN : forall v, In v (map fst rs) -> exists g, In (v, g) rs) by (intros v Hin; apply in_map_iff in Hin; destruct Hin as ([k g] & <- & Hin); eauto).
  assert (RR : forall n g', R' n g' -> exists g, In (n, g) rs /\ norm g' = norm g /\ bangless g' = true /\ Forall (fun nh => find (fst nh) (d_grams d) = Some (snd nh)) (named g')).
  { intros n g' (Hn & Hval). destruct (IN n Hn) as (g & Hin). exists g. split; [exact Hin|]. destruct (V n g Hin) as (g2 & Hv2 & E). rewrite Hval in Hv2. injection Hv2 as <-. exact E. }
  assert (US : forall n g v, In (n, g) rs -> In v (uses g) -> In v (map fst rs)) by (intros n g v Hin Hin2; apply HU; apply in_flat_map; exists (n, g); auto).
  assert (C1 : forall n g, R n g -> refers env R g).
  { intros n g Hin. destruct (HE n g Hin) as (H1 & H2). split; [eapply prints_seps; exact (proj2 (HP _ Hin))|]. split; [exact H1|].
    intros v Hin2. destruct (IN v (US n g v Hin (proj1 (tvars_uses g v Hin2)))) as (b & Hb). exists b. split; [rewrite (H2 v Hin2); apply find_nodup; assumption|exact Hb]. }
  assert (N1 : forall n g, R n g -> nenv n = Some (norm g)) by (intros n g Hin; unfold nenv; rewrite (find_nodup _ _ _ _ ND Hin); reflexivity).
  assert (C2 : forall n g', R' n g' -> refers (cenv d) R' g').
  { intros n g' Hin. destruct (RR n g' Hin) as (g & Hg & E & B & Hnm). rewrite Forall_forall in Hnm.
    assert (UG : forall v, In v (uses g') -> In v (map fst rs)) by (intros v Hv0; apply (US n g v Hg); rewrite <- uses_norm, <- E, uses_norm; exact Hv0).
    split; [apply bang_seps; exact B|]. split.
    - intros v b Hb. split; [apply UG; eapply named_uses; exact Hb|]. unfold value. pose proof (Hnm _ Hb) as Hf; cbn [fst snd] in Hf; rewrite Hf. reflexivity.
    - intros v Hv0. destruct (tvars_uses g' v Hv0) as (Hu1 & Hg1).
      assert (KY : In v (vkeys d)).
      { destruct Hin as (_ & Hval). unfold value in Hval. destruct (find n (d_grams d)) eqn:Ef; [injection Hval as ->; eapply RG; [eapply find_in; exact Ef|exact Hg1]|eapply RV; [eapply find_in; exact Hval|exact Hg1]]. }
      assert (Ex : exists b, find v (d_vars d) = Some b).
      { unfold vkeys in KY. revert KY. generalize (d_vars d). induction l as [|[k x] l IH]; intro H; [destruct H|]. cbn [map find fst] in *. destruct (beq v k) eqn:Ek; [eauto|]. destruct H as [H|H]; [subst; rewrite beq_refl in Ek; discriminate|auto]. }
      destruct Ex as (b & Hb). exists b.
      assert (Nb : is_nil b = false).
      { destruct (is_nil b) eqn:Nb; [|reflexivity]. exfalso. apply find_in in Hb. unfold unassigned in Hu. apply map_eq_nil in Hu.
        assert (X : In (v, b) (filter (fun p => is_nil (snd p)) (d_vars d))) by (apply filter_In; auto). rewrite Hu in X. destruct X. }
      split; [unfold cenv; rewrite Hb; destruct b; try reflexivity; discriminate|]. split; [apply UG; exact Hu1|].
      unfold value. destruct (find v (d_grams d)) eqn:Ef; [|exact Hb]. exfalso. destruct NT as (_ & NT). rewrite NT in Hb by congruence. discriminate. }
  assert (N2 : forall n g', R' n g' -> nenv n = Some (norm g')).
  { intros n g' Hin. destruct (RR n g' Hin) as (g & Hg & E & _). rewrite E. apply N1. exact Hg. }
  assert (B2 : forall n g', R' n g' -> bangless g' = true) by (intros n g' Hin; destruct (RR n g' Hin) as (g & _ & _ & B & _); exact B).
  intros n g Hin. destruct (V n g Hin) as (g' & Hval & _). exists g'. split; [exact Hval|]. intro ts.
  assert (HR' : R' n g') by (split; [apply in_map_iff; exists (n, g); auto|exact Hval]).
  destruct (same_lang nenv env (cenv d) R R' C1 N1 C2 N2 B2 n g g' Hin HR' ts) as (X1 & X2). split; [exact X1|]. split; [exact X2|].
  intro HB. assert (B1 : forall n g, R n g -> bangless g = true) by (intros n0 g0 Hin0; rewrite forallb_forall in HB; exact (HB _ Hin0)).
  destruct (same_lang nenv (cenv d) env R' R C2 N2 C1 N1 B1 n g' g HR' Hin ts) as (Y1 & Y2). split; [intro k; split; auto|split; auto].
Qed.
End Same.

(** The same for calls of Match, whatever (not failing) actions and transactions [u] the two sides have. *)
Theorem C37_same_match_calls : forall (A T PM M : Type) (marker : gr A T -> bytes -> M -> (gr A T * M) + (PM * M)) (wr : bytes -> gr A T -> gr A T),
  (forall g n m g' m', marker g n m = inl (g', m') -> erase g' = wr n (erase g) /\ incl (named g') (named g)) ->
  (forall g n m g' m', marker g n m = inl (g', m') -> incl (gvars g') (gvars g)) ->
  forall isL isD, isL RuneError = false -> isD RuneError = false ->
  forall tk (rs : list (bytes * gr A T)) sp old m src root d env, tk_ok tk -> printable isL isD tk rs -> spacing true sp ->
  NoDup (map fst rs) -> (forall n, In n (flat_map (fun r => uses (snd r)) rs) -> In n (map fst rs)) ->
  (forall n g, In (n, g) rs -> (forall v b, In (v, b) (named g) -> In (v, b) rs) /\ (forall v, In v (tvars g) -> env v = find v rs)) ->
  print_doc tk sp rs = Val src -> compiles_to marker isL isD tk old m src (ClOk root d) ->
  forall n g, In (n, g) rs -> exists g', value d n = Some g' /\
    forall P U V (u : uclient A T P U V) s s', MatchProofs2.quiet u -> forall ts,
    (forall k, (exists s1, returns env (lift u) g ts s k None s1) -> exists s1, returns (cenv d) (lift u) g' ts s' k None s1) /\
    ((exists k e s1, returns env (lift u) g ts s k (Some e) s1) -> exists k e s1, returns (cenv d) (lift u) g' ts s' k (Some e) s1).
Proof.
  intros A T PM M marker wr Hw Hv isL isD HL HD tk rs sp old m src root d env H1 H2 H3 H4 H5 H6 H7 H8 n g Hin.
  destruct (C37_same_matches marker wr Hw Hv isL isD HL HD tk rs sp old m src root d env H1 H2 H3 H4 H5 H6 H7 H8 n g Hin) as (g' & Hval & X).
  exists g'. split; [exact Hval|]. intros P U V u s s' Q ts. destruct (X ts) as (X1 & X2 & _). split.
  - intros k Hk. apply (C17_success_iff A T P U V env u Q) in Hk. apply (C17_success_iff A T P U V (cenv d) u Q). exact (X1 k Hk).
  - intro Hk. apply (C17_failure_iff A T P U V env u Q) in Hk. apply (C17_failure_iff A T P U V (cenv d) u Q). exact (X2 Hk).
Qed.

(** ** Instances *)
Definition env37 (v : bytes) : option (gr Empty_set Empty_set) := find v rules37.
Definition tok_of (k : Z) : token := mkTok k 0 [].
Definition no_client : uclient Empty_set Empty_set Empty_set unit unit := mkUclient (fun _ _ _ x => inl x) (fun _ x => (tt, x)) (fun _ _ _ x => x).
Definition st37 : st unit := mkSt (fun _ => 0) tt.
Lemma no_client_quiet : MatchProofs2.quiet no_client.
Proof. intros a ts l x. exists x. reflexivity. Qed.
Lemma matches_run : forall env g ts k f s, gmatch env (lift no_client) f g ts st37 = Ret k None s -> matches env g ts k.
Proof. intros env g ts k f s H. apply (C17_success_iff _ _ _ _ _ env no_client no_client_quiet g ts st37 k). exists s, f. exact H. Qed.
Lemma fails_run : forall env g ts k e f s, gmatch env (lift no_client) f g ts st37 = Ret k (Some e) s -> fails env g ts.
Proof. intros env g ts k e f s H. apply (C17_failure_iff _ _ _ _ _ env no_client no_client_quiet g ts st37). exists k, e, s, f. exact H. Qed.
(** begin x : , 1 2.5 *)
Definition toks37 : list token := map tok_of [USER_TOKEN_BEGIN; IDENT; 58; 44; INT; FLOAT].
Example C37_same_instance :
  (forall n g, In (n, g) rules37 -> (forall v b, In (v, b) (named g) -> In (v, b) rules37) /\ (forall v, In v (tvars g) -> env37 v = find v rules37)) /\
  matches env37 doc37 toks37 6 /\ fails env37 item37 (map tok_of [44]) /\
  exists src root d g', print_doc kw37 [] rules37 = Val src /\ cl37 kw37 src (ClOk root d) /\ value d n_doc = Some g' /\ matches (cenv d) g' toks37 6.
Proof.
  assert (HE : forall n g, In (n, g) rules37 -> (forall v b, In (v, b) (named g) -> In (v, b) rules37) /\ (forall v, In v (tvars g) -> env37 v = find v rules37)).
  { intros n g [[= <- <-]|[[= <- <-]|[]]]; (split; [intros v b H; vm_compute in H; destruct H|reflexivity]). }
  assert (HM : matches env37 doc37 toks37 6) by (eapply (matches_run _ _ _ _ 40); vm_compute; reflexivity).
  split; [exact HE|]. split; [exact HM|]. split; [eapply (fails_run _ _ _ _ _ 40); vm_compute; reflexivity|].
  destruct C37_instance as (I1 & I2 & I3 & I4 & I5).
  assert (Hw : forall (g : gr Empty_set Empty_set) n m g' m', nomark g n m = inl (g', m') -> erase g' = erase g /\ incl (named g') (named g)) by (intros g n m g' m' [= <- <-]; split; [reflexivity|apply incl_refl]).
  assert (Hv : forall (g : gr Empty_set Empty_set) n m g' m', nomark g n m = inl (g', m') -> incl (gvars g') (gvars g)) by (intros g n m g' m' [= <- <-]; apply incl_refl).
  assert (HS : spacing true []) by constructor.
  eassert (X : exists src root d, print_doc kw37 [] rules37 = Val src /\ cl37 kw37 src (ClOk root d)).
  { do 3 eexists. split; [vm_compute; reflexivity|]. apply (compiles_run _ _ _ _ _ _ _ 400%nat); [vm_compute; reflexivity|discriminate]. }
  destruct X as (src & root & d & X1 & X2). exists src, root, d.
  destruct (C37_same_matches nomark (fun _ g => g) Hw Hv no_runes no_runes eq_refl eq_refl kw37 rules37 [] PropScan.fresh tt src root d env37 I1 I2 HS I3 I5 HE X1 X2 n_doc doc37 (or_intror (or_introl eq_refl)))
    as (g' & Hval & Y). exists g'. split; [exact X1|]. split; [exact X2|]. split; [exact Hval|]. exact (proj1 (Y toks37) 6%nat HM).
Qed.

(** Code leaves out the [!]: the rule compiled from the text matches what the printed rule stops at with an error. *)
Theorem C37_bang_matches_refuted : let g := GOr [GAnd [GTok IDENT; GNil; GTok INT]; GAnd [GTok IDENT; GTok FLOAT]] in let ts := map tok_of [IDENT; FLOAT] in
  print1 g = Val (s2b "doc = IDENT INT | IDENT FLOAT;") /\
  (exists k tr, peg no_env g ts (OStop k) tr) /\ (forall n, ~ matches no_env g ts n) /\
  exists root d, cl37 Plain (s2b "doc = IDENT INT | IDENT FLOAT;") (ClOk root d) /\ matches (cenv d) root ts 2.
Proof.
  intros g ts. assert (S : peg no_env g ts (OStop (SFailFast (GAnd [GTok IDENT; GNil; GTok INT]) ts)) []).
  { change (OStop (A := Empty_set) (T := Empty_set) (SFailFast (GAnd [GTok IDENT; GNil; GTok INT]) ts)) with (with_len 2 (OStop (A := Empty_set) (T := Empty_set) (SFailFast (GAnd [GTok IDENT; GNil; GTok INT]) ts))).
    apply (P_Or no_env [GAnd [GTok IDENT; GNil; GTok INT]; GAnd [GTok IDENT; GTok FLOAT]]). apply A_stop.
    change (OStop (A := Empty_set) (T := Empty_set) (SFailFast (GAnd [GTok IDENT; GNil; GTok INT]) ts)) with (with_len 3 (OStop (A := Empty_set) (T := Empty_set) (SFailFast (GAnd [GTok IDENT; GNil; GTok INT]) ts))).
    apply (P_And no_env [GTok IDENT; GNil; GTok INT]).
    apply (S_ok no_env _ ts (GTok IDENT) [GNil; GTok INT] false ts 1 (-1) (OStop _) [] []); [discriminate|apply P_Tok; left; reflexivity|].
    apply S_bang. apply S_failfast; [discriminate|]. apply P_Tok_fail. intros t r [= <- _] [H|(H & _)]; discriminate. }
  split; [vm_compute; reflexivity|]. split; [eexists; eexists; exact S|]. split.
  - intros n (l & tr & H). destruct (peg_det no_env _ _ _ _ _ _ H S) as (X & _). discriminate.
  - do 2 eexists. split; [apply (compiles_run _ _ _ _ _ _ _ 300%nat); [vm_compute; reflexivity|discriminate]|]. eapply (matches_run _ _ _ _ 40). vm_compute. reflexivity.
Qed.

Print Assumptions C37_same_matches.
Print Assumptions C37_same_match_calls.
Print Assumptions C37_bang_matches_refuted.
