(** Property C37: Code prints a rule that compiles back to the same rule.
    Specification: [norm] and [prints] (PrintBack.v), [text_of] and [compiles_to] (PropCompiler.v). *)
From Coq Require Import String.
From Verif Require Import Base Token Utf8 Utf8Proofs Scanner ScannerSpec ScannerProofs ScannerProofs2 ScannerProofs3 ScannerProofs4
  ScannerProofs5 ScanDet ScanRun ScanInit ScanObs ScanClean Tokenize TokenizeProofs PropScan PropScan2
  Grammar MatchProofs Matcher Compiler GramSyntax CompilerProofs CompilerTop CompilerMore CompilerDen PropCompiler PrintBack PrintToks.

(** ** Leaves of a tree *)
Fixpoint lv_factor (f : factor) : list factor :=
  match f with FPre _ f1 => lv_factor f1 | FParen g => flat_map (fun e => flat_map lv_item e) g | _ => [f] end
with lv_item (i : item) : list factor := match i with IBang => [] | ITerm f ss => lv_factor f ++ flat_map lv_suffix ss end
with lv_suffix (s : suffix) : list factor := match s with SList f | SList0 f => lv_factor f | SMark _ => [] end.
Definition lv_expr (e : expr) : list factor := flat_map lv_item e.
Definition lv_gram (g : gram) : list factor := flat_map lv_expr g.
Lemma flat_ext : forall X Y (f g : X -> list Y) l, Forall (fun x => f x = g x) l -> flat_map f l = flat_map g l.
Proof. intros X Y f g l H. induction H as [|x l E _ IH]; [reflexivity|]. cbn [flat_map]. congruence. Qed.
Lemma flat_flat : forall X Y Z (f : X -> list Y) (g : Y -> list Z) l, flat_map g (flat_map f l) = flat_map (fun x => flat_map g (f x)) l.
Proof. intros X Y Z f g l. induction l as [|x l IH]; [reflexivity|]. cbn [flat_map]. rewrite flat_map_app, IH. reflexivity. Qed.
Lemma lv_refs : (forall f, refs_factor f = flat_map refs_factor (lv_factor f)) /\ (forall i, refs_item i = flat_map refs_factor (lv_item i)) /\
  (forall s, refs_suffix s = flat_map refs_factor (lv_suffix s)).
Proof.
  apply syntax_ind; try (intros; cbn; rewrite ?app_nil_r; reflexivity); try (intros; assumption).
  - intros g H. cbn [refs_factor lv_factor]. rewrite flat_flat. apply flat_ext. eapply Forall_impl; [|exact H]. intros e He. rewrite flat_flat. apply flat_ext. exact He.
  - intros f ss Hf Hs. cbn [refs_item lv_item]. rewrite flat_map_app, <- Hf, flat_flat. f_equal. apply flat_ext. exact Hs.
Qed.
Lemma forallb_flat : forall X Y (p : Y -> bool) (f : X -> list Y) l, forallb p (flat_map f l) = forallb (fun x => forallb p (f x)) l.
Proof. intros X Y p f l. induction l as [|x l IH]; [reflexivity|]. cbn [flat_map forallb]. rewrite forallb_app, IH. reflexivity. Qed.
Lemma forallb_ext' : forall X (f g : X -> bool) l, Forall (fun x => f x = g x) l -> forallb f l = forallb g l.
Proof. intros X f g l H. induction H as [|x l E _ IH]; [reflexivity|]. cbn [forallb]. congruence. Qed.
Lemma lv_legal : forall kw, (forall f, legal_factor kw f = forallb (legal_factor kw) (lv_factor f)) /\ (forall i, legal_item kw i = forallb (legal_factor kw) (lv_item i)) /\
  (forall s, legal_suffix kw s = forallb (legal_factor kw) (lv_suffix s)).
Proof.
  intro kw. apply syntax_ind; try (intros; cbn [lv_factor forallb]; rewrite andb_true_r; reflexivity); try (intros; reflexivity); try (intros; assumption).
  - intros g H. cbn [legal_factor lv_factor]. rewrite forallb_flat. apply forallb_ext'. eapply Forall_impl; [|exact H]. intros e He. rewrite forallb_flat. apply forallb_ext'. exact He.
  - intros f ss Hf Hs. cbn [legal_item lv_item]. rewrite forallb_app, <- Hf, forallb_flat. f_equal. apply forallb_ext'. exact Hs.
Qed.
Lemma lv_refs_gram : forall g, refs_gram g = flat_map refs_factor (lv_gram g).
Proof. intro g. unfold refs_gram, lv_gram. rewrite flat_flat. apply flat_ext. apply Forall_forall. intros e _. unfold refs_expr, lv_expr. rewrite flat_flat. apply flat_ext. apply Forall_forall. intros i _. apply lv_refs. Qed.
Lemma lv_legal_gram : forall kw g, legal_gram kw g = forallb (legal_factor kw) (lv_gram g).
Proof. intros kw g. unfold legal_gram, lv_gram. rewrite forallb_flat. apply forallb_ext'. apply Forall_forall. intros e _. unfold legal_expr, lv_expr. rewrite forallb_flat. apply forallb_ext'. apply Forall_forall. intros i _. apply lv_legal. Qed.

(** the rule names a grammar uses *)
Fixpoint uses {A T : Type} (g : gr A T) : list bytes :=
  match g with
  | GNil | GTok _ | GTrue | GEOF => []
  | GPeek g1 | GNot g1 | GRep0 _ g1 | GRep1 _ g1 | GRep01 _ g1 | GAct g1 _ | GTrans g1 _ => uses g1
  | GAnd gs | GOr gs => flat_map uses gs
  | GList _ a b _ => uses a ++ uses b
  | GVar v | GNamed v _ => [v]
  end.

Section Leaves.
Context {A T : Type}.
Notation G := (gr A T).
Variables isL isD : Z -> bool.
Variable tk : tokener.
Notation prints := (@prints A T isL isD tk).
Notation tg := (@tg A T tk).
(** a leaf of the printed tree is 1, a rule used or a token known *)
Definition good_leaf (us : list bytes) (f : factor) : Prop :=
  f = FInt [49] \/ (exists v, In v us /\ f = FIdent v /\ upper v = false /\ v <> []) \/ (exists k l, names_token isL isD tk k l /\ f = word_factor l).
Lemma good_mono : forall us us' f, incl us us' -> good_leaf us f -> good_leaf us' f.
Proof. intros us us' f I0 [H|[(v & H & H')|H]]; [left; exact H|right; left; exists v; auto|right; right; exact H]. Qed.
Lemma leaf_expr : forall g, tree_ok tk g -> incl (lv_expr (as_expr (shape_of g) (tg g))) (lv_gram (tg g)).
Proof.
  intros g (O1 & O2 & O3 & O4). destruct (shape_of g) eqn:E; cbn [as_expr].
  { unfold lv_expr at 1. cbn [flat_map lv_item lv_factor]. rewrite !app_nil_r. apply incl_refl. }
  all: destruct (O2 ltac:(discriminate)) as (e & ->); cbn [hd]; unfold lv_gram; cbn [flat_map]; rewrite app_nil_r; apply incl_refl.
Qed.
Lemma leaf_item : forall g, tree_ok tk g -> incl (lv_item (as_item (shape_of g) (tg g))) (lv_gram (tg g)).
Proof.
  intros g (O1 & O2 & O3 & O4). destruct (shape_of g) eqn:E; cbn [as_item].
  1, 2: cbn [flat_map lv_item lv_factor]; rewrite !app_nil_r; apply incl_refl.
  all: destruct (O3 ltac:(auto)) as (f & ss & ->); cbn [hd]; unfold lv_gram, lv_expr; cbn [flat_map]; rewrite !app_nil_r; apply incl_refl.
Qed.
Lemma leaf_factor : forall g, tree_ok tk g -> incl (lv_factor (as_factor (shape_of g) (tg g))) (lv_gram (tg g)).
Proof.
  intros g (O1 & O2 & O3 & O4). destruct (shape_of g) eqn:E; cbn [as_factor]; try apply incl_refl.
  destruct (O4 eq_refl) as (f & ->). unfold lv_gram, lv_expr. cbn [flat_map lv_item]. rewrite !app_nil_r. apply incl_refl.
Qed.
Lemma leaves_good : forall g, prints g -> Forall (good_leaf (uses g)) (lv_gram (tg g)).
Proof.
  assert (One : forall g f, tg g = one f -> lv_gram (tg g) = lv_factor f).
  { intros g f ->. unfold one, lv_gram, lv_expr. cbn [flat_map lv_item]. rewrite !app_nil_r. reflexivity. }
  assert (Pre : forall g h o, tg g = one (FPre o (as_factor (shape_of h) (tg h))) -> uses g = uses h -> prints h ->
    Forall (good_leaf (uses h)) (lv_gram (tg h)) -> Forall (good_leaf (uses g)) (lv_gram (tg g))).
  { intros g h o E U HP H. rewrite (One _ _ E), U. cbn [lv_factor]. rewrite Forall_forall in *. intros f Hf. apply H. eapply leaf_factor; [eapply prints_tree; exact HP|exact Hf]. }
  induction g using gr_ind'; intro HP; try (destruct HP; fail).
  - rewrite (One (GTok k) (word_factor (word tk k)) eq_refl). destruct HP as (l & Hl). assert (W : word tk k = l) by (unfold PrintBack.word; destruct Hl as (-> & _); reflexivity). rewrite W.
    assert (X : lv_factor (word_factor l) = [word_factor l]).
    { unfold word_factor. destruct l as [|c l]; [reflexivity|]. repeat match goal with |- context [match ?x with _ => _ end] => is_var x; destruct x end; reflexivity. }
    rewrite X. constructor; [|constructor]. right. right. eauto.
  - constructor; [|constructor]. left. reflexivity.
  - eapply (Pre (GPeek g) g); try reflexivity; auto.
  - eapply (Pre (GNot g) g); try reflexivity; auto.
  - apply prints_and in HP. destruct HP as (_ & H2). unfold lv_gram. cbn [PrintBack.tg flat_map]. rewrite app_nil_r. unfold lv_expr. rewrite flat_flat. apply forall_flat.
    rewrite Forall_forall in *. intros g Hg. destruct (is_nil g) eqn:N; [constructor|]. pose proof (H g Hg (H2 g Hg N)) as X. rewrite Forall_forall in *.
    intros f Hf. apply (good_mono (uses g)); [intros v Hv; cbn [uses]; apply in_flat_map; eauto|]. apply X. eapply leaf_expr; [eapply prints_tree; apply H2; eauto|exact Hf].
  - apply prints_or in HP. destruct HP as (_ & H2). unfold lv_gram. cbn [PrintBack.tg]. rewrite flat_flat. apply forall_flat.
    rewrite Forall_forall in *. intros g Hg. pose proof (H g Hg (H2 g Hg)) as X. rewrite Forall_forall in *.
    intros f Hf. apply (good_mono (uses g)); [intros v Hv; cbn [uses]; apply in_flat_map; eauto|]. apply X. exact Hf.
  - eapply (Pre (GRep0 _ g) g); try reflexivity; auto.
  - destruct HP as (HP & _). eapply (Pre (GRep1 _ g) g); try reflexivity; auto.
  - eapply (Pre (GRep01 _ g) g); try reflexivity; auto.
  - destruct HP as (Ha & Hb & _). specialize (IHg1 Ha). specialize (IHg2 Hb). rewrite Forall_forall in *. unfold lv_gram, lv_expr. cbn [PrintBack.tg flat_map]. rewrite !app_nil_r.
    pose proof (leaf_item g1 (prints_tree _ _ _ _ Ha)) as LI. pose proof (leaf_factor g2 (prints_tree _ _ _ _ Hb)) as LF.
    destruct (tree_item _ _ (prints_tree _ _ _ _ Ha)) as (f0 & ss & Hf & _). rewrite Hf in *. cbn [add_suffix lv_item] in *. rewrite flat_map_app, app_assoc.
    intros f Hin. apply in_app_or in Hin. destruct Hin as [Hin|Hin].
    + apply (good_mono (uses g1)); [intros v Hv; cbn [uses]; apply in_or_app; auto|]. apply IHg1. apply LI. exact Hin.
    + apply (good_mono (uses g2)); [intros v Hv; cbn [uses]; apply in_or_app; auto|]. apply IHg2. apply LF.
      match goal with H : context [if ?b then SList0 else SList] |- _ => destruct b end; cbn [flat_map lv_suffix] in Hin; rewrite app_nil_r in Hin; exact Hin.
  - constructor; [|constructor]. right. left. destruct HP as (U & _ & ((N & _) & _)). eexists. split; [left; reflexivity|]. auto.
  - constructor; [|constructor]. right. left. destruct HP as (U & _ & ((N & _) & _)). eexists. split; [left; reflexivity|]. auto.
  - exact (IHg HP).
  - exact (IHg HP).
Qed.
Lemma known_legal : forall k l, names_token isL isD tk k l -> legal_lit (is_kw tk) l = true.
Proof.
  intros k l (_ & _ & H & N). unfold legal_lit. destruct tk as [|kw]; cbn [tk_ltot is_kw] in *.
  - injection H as <-. apply Z.eqb_neq in N. rewrite N. reflexivity.
  - unfold KwLtot in H. destruct (Lit2Token l =? ILLEGAL) eqn:E; [|reflexivity]. cbn [negb orb andb] in *.
    destruct l as [|q r]; [discriminate|]. destruct (q =? 34) eqn:Q; [|injection H as <-; unfold ILLEGAL in *; congruence].
    destruct r; [discriminate|reflexivity].
Qed.
Lemma word_factor_cases : forall l, word_factor l = FChar l \/ word_factor l = FString l \/ word_factor l = FIdent l /\ word_kind l = IDENT.
Proof. intro l. unfold word_factor, word_kind. destruct l as [|c l]; [auto|]. repeat match goal with |- context [match ?x with _ => _ end] => is_var x; destruct x end; auto. Qed.
Lemma tree_legal : forall g, prints g -> legal_gram (is_kw tk) (tg g) = true.
Proof.
  intros g HP. rewrite lv_legal_gram. apply forallb_forall. intros f Hf. pose proof (leaves_good g HP) as X. rewrite Forall_forall in X.
  destruct (X f Hf) as [-> |[(v & _ & -> & U & N)|(k & l & Hl & ->)]].
  - reflexivity.
  - cbn [legal_factor]. rewrite U. destruct v; [contradiction|reflexivity].
  - pose proof (known_legal _ _ Hl) as L. destruct (word_factor_cases l) as [-> |[-> |(-> & K)]]; cbn [legal_factor]; try exact L.
    destruct Hl as (_ & (_ & HU) & _). destruct (HU K) as (_ & ((N & _) & _)). rewrite L, orb_true_r. destruct l; [contradiction|reflexivity].
Qed.
Lemma tree_refs : forall g, prints g -> incl (refs_gram (tg g)) (uses g).
Proof.
  intros g HP n Hn. rewrite lv_refs_gram in Hn. apply in_flat_map in Hn. destruct Hn as (f & Hf & Hn). pose proof (leaves_good g HP) as X. rewrite Forall_forall in X.
  destruct (X f Hf) as [-> |[(v & Hv & -> & U & N)|(k & l & Hl & ->)]].
  - destruct Hn.
  - cbn [refs_factor] in Hn. destruct (rule_ref v); [|destruct Hn]. destruct Hn as [<- |[]]. exact Hv.
  - exfalso. destruct (word_factor_cases l) as [E |[E |(E & K)]]; rewrite E in Hn; [destruct Hn|destruct Hn|]. cbn [refs_factor] in Hn.
    destruct Hl as (_ & (_ & HU) & _). destruct (HU K) as (U & _). unfold rule_ref in Hn. rewrite U in Hn. destruct Hn.
Qed.
End Leaves.

Lemma nil_sem : forall A T code tr (mark : bytes -> gr A T -> gr A T),
  (forall f, nil_factor f = true -> sem_factor code tr mark f = GNil) /\ (forall i, nil_item i = true -> sem_item code tr mark i = GNil) /\ (forall s : suffix, True).
Proof.
  intros A T code tr mark. apply syntax_ind; try discriminate; try (intros; exact Logic.I).
  - intros g H N. cbn [nil_factor] in N. destruct g as [|[|i [|]] [|]]; try discriminate. inversion H as [|? ? H1 _]; subst. inversion H1 as [|? ? H2 _]; subst. exact (H2 N).
  - reflexivity.
  - intros f ss Hf _ N. cbn [nil_item] in N. destruct ss; [|discriminate]. exact (Hf N).
Qed.

(** ** Printing *)
Section Print.
Context {A T : Type}.
Notation G := (gr A T).
(** a rule printed: blanks, its name, [=], its code, [;] *)
Definition print_rule (tk : tokener) (sp : bytes) (r : bytes * G) : mayp bytes :=
  match Code (tk_ttol tk) (snd r) with Val c => Val (sp ++ fst r ++ s2b " = " ++ c ++ s2b ";") | Crash => Crash end.
Fixpoint print_doc (tk : tokener) (sp : bytes) (rs : list (bytes * G)) : mayp bytes :=
  match rs with
  | [] => Val []
  | r :: rs' => match print_rule tk sp r, print_doc tk sp rs' with Val x, Val y => Val (x ++ y) | _, _ => Crash end
  end.
Variables isL isD : Z -> bool.
Hypothesis HL : isL RuneError = false.
Hypothesis HD : isD RuneError = false.
Variable tk : tokener.
Definition printable (rs : list (bytes * G)) : Prop := rs <> [] /\ Forall (fun r => plain_word isL isD tk (fst r) /\ prints isL isD tk (snd r)) rs.
Definition rule_toks (sp : bytes) (r : bytes * G) : list written :=
  mkWr sp IDENT (fst r) (fst r) :: mkWr [32] ASSIGN [] [61] :: pad [32] (toks tk 0 (snd r)) ++ [mkWr [] SEMICOLON [59] [59]].
Definition trees (rs : list (bytes * G)) : list rule := map (fun r => (fst r, tg tk (snd r))) rs.

Lemma rule_txt : forall sp r, prints isL isD tk (snd r) -> print_rule tk sp r = Val (txt (rule_toks sp r)).
Proof.
  intros sp r HP. unfold print_rule, Code. rewrite (marshal_toks isL isD tk _ HP). f_equal. unfold rule_toks.
  assert (C : forall w l, txt (w :: l) = (w_gap w ++ w_text w) ++ txt l) by reflexivity. rewrite !C, txt_app, txt_pad, C by (eapply toks_ne; exact HP).
  cbn [w_gap w_text]. rewrite <- !app_assoc. reflexivity.
Qed.
Lemma doc_txt : forall sp rs, Forall (fun r => plain_word isL isD tk (fst r) /\ prints isL isD tk (snd r)) rs -> print_doc tk sp rs = Val (txt (flat_map (rule_toks sp) rs)).
Proof.
  intros sp rs H. induction H as [|r rs (_ & HP) _ IH]; [reflexivity|]. cbn [print_doc flat_map]. rewrite (rule_txt _ _ HP), IH, txt_app. reflexivity.
Qed.
Lemma byte_encode : forall r, scalar r -> Forall byte (EncodeRune r).
Proof.
  intros r (H1 & H2 & H3). unfold EncodeRune.
  destruct (_ || _ || _) eqn:E; [exfalso; lia|]. clear E.
  pose proof (Z.mod_pos_bound r 64). pose proof (Z.mod_pos_bound (r / 64) 64). pose proof (Z.mod_pos_bound (r / 4096) 64).
  assert (Q : forall k n, 0 < k -> r < k * n -> 0 <= r / k < n) by (intros k n K L; split; [apply Z.div_pos; lia|apply Z.div_lt_upper_bound; lia]).
  destruct (r <? 128) eqn:E1; [|destruct (r <? 2048) eqn:E2; [|destruct (r <? 65536) eqn:E3]].
  - constructor; [unfold byte; lia|constructor].
  - specialize (Q 64 32 ltac:(lia) ltac:(lia)). constructor; [unfold byte; lia|]. constructor; [unfold byte; lia|constructor].
  - specialize (Q 4096 16 ltac:(lia) ltac:(lia)). constructor; [unfold byte; lia|]. constructor; [unfold byte; lia|]. constructor; [unfold byte; lia|constructor].
  - specialize (Q 262144 5 ltac:(lia) ltac:(lia)). constructor; [unfold byte; lia|]. constructor; [unfold byte; lia|]. constructor; [unfold byte; lia|]. constructor; [unfold byte; lia|constructor].
Qed.
Lemma clean_byte : forall l, clean l -> Forall byte l.
Proof. intros l H. induction H as [|r l H _ IH]; [constructor|]. apply Forall_app. split; [apply byte_encode; exact H|exact IH]. Qed.

Lemma tokens_sigs : forall ws o, Forall (fine isL isD tk true) ws -> sigs (map (tk_scan tk) (tokens_from o ws)) = sg ws.
Proof.
  intros ws o H. revert o. induction H as [|w ws (W & _ & K) _ IH]; intro o; [reflexivity|]. cbn [tokens_from map sg sigs]. f_equal; [|apply IH].
  assert (X : forall p, tk_scan tk (mkTok (w_kind w) p (w_lit w)) = mkTok (w_kind w) p (w_lit w)); [|rewrite X; reflexivity].
  intro p. destruct (Z.eq_dec (w_kind w) IDENT) as [E|E]; [rewrite E; apply K; exact E|]. destruct tk as [|kw]; [reflexivity|]. cbn [tk_scan]. unfold KwScan. cbn [tkind].
  apply Z.eqb_neq in E. rewrite E. reflexivity.
Qed.
Lemma rule_fine : forall sp r, spacing true sp -> plain_word isL isD tk (fst r) -> prints isL isD tk (snd r) -> Forall (fine isL isD tk true) (rule_toks sp r).
Proof.
  intros sp r S (P1 & P2 & P3) HP. constructor; [split; [apply Wr_ident; assumption|split; [exact S|intros _; exact P3]]|].
  constructor; [apply fine_op; [constructor; [left; unfold blank; auto|constructor]|vm_compute; tauto|discriminate|discriminate]|].
  apply Forall_app. split; [apply fine_pad, toks_fine; exact HP|]. constructor; [|constructor]. split; [apply Wr_semi|split; [constructor|discriminate]].
Qed.
Lemma rule_apart : forall sp r tail, prints isL isD tk (snd r) -> all_apart (rule_toks sp r) tail.
Proof.
  intros sp r tail HP. cbn [rule_toks all_apart]. split; [apply Ap_space; unfold written_text; cbn; unfold ws; auto|].
  split; [apply stop_apart; rewrite wt_app; apply stop_pad; eapply toks_ne; exact HP|].
  apply apart_app. split; [apply apart_pad; eapply toks_apart; [exact HP|]; right; exists 59; eexists; split; [reflexivity|auto]|].
  split; [|exact Logic.I]. apply op_apart; [vm_compute; tauto|discriminate|discriminate|]. intros c r0 _ Hc. vm_compute in Hc. exact Hc.
Qed.
Lemma rule_sg : forall sp r, prints isL isD tk (snd r) -> sg (rule_toks sp r) = r_rule (fst r, tg tk (snd r)).
Proof.
  intros sp r HP. unfold rule_toks, r_rule. cbn [sg map fst snd w_kind w_lit has_lit]. f_equal. f_equal. fold (sg (pad [32] (toks tk 0 (snd r)) ++ [mkWr [] SEMICOLON [59] [59]])).
  rewrite sg_app, sg_pad, (toks_sg isL isD tk _ HP). reflexivity.
Qed.

(** what Code prints is read as the tree it was printed from *)
Theorem C37_reads_back : forall rs sp old, tk_ok tk -> printable rs -> spacing true sp ->
  exists src, print_doc tk sp rs = Val src /\ text_of isL isD tk old src (trees rs) /\ Forall byte src.
Proof.
  intros rs sp old Hk (N & H) S. set (ws := flat_map (rule_toks sp) rs). exists (txt ws). split; [apply doc_txt; exact H|].
  assert (F : Forall (fine isL isD tk true) ws) by (apply forall_flat; eapply Forall_impl; [|exact H]; intros r (H1 & H2); apply rule_fine; assumption).
  assert (AP : forall tail, all_apart ws tail).
  { unfold ws. clear - H. induction H as [|r rs (_ & HP) _ IH]; intro tail; [exact Logic.I|]. cbn [flat_map]. apply apart_app. split; [apply rule_apart; exact HP|apply IH]. }
  assert (WT : written_text ws [] = txt ws) by (unfold written_text; rewrite app_nil_r; reflexivity).
  assert (B : Forall byte (txt ws)).
  { rewrite <- WT. specialize (AP []). revert AP. clear - F HL HD. induction F as [|w ws (W & S & _) F IH]; intro AP; [constructor|]. destruct AP as (A1 & A2). rewrite wt_cons.
    apply Forall_app. split; [|apply Forall_app; split; [|apply IH; exact A2]].
    - eapply Forall_impl; [|exact S]. intros b [Hb|(-> & Hb)]; [unfold blank in Hb; unfold byte; lia|discriminate].
    - apply clean_byte. apply (writable_lexeme isL isD _ _ _ _ W A1). }
  split; [|exact B].
  pose proof (C08_tokens_apart_read_back isL isD HL HD false true tk old ws []) as R. rewrite WT in R. cbn zeta in R.
  specialize (R Hk B (Forall_impl _ (fun w (Hw : fine isL isD tk true w) => proj1 Hw) F) (Forall_nil _)
    (Forall_impl _ (fun w (Hw : fine isL isD tk true w) => proj1 (proj2 Hw)) F) (AP [])).
  split.
  - unfold ok_doc, trees. apply andb_true_iff. split; [destruct rs; [contradiction|reflexivity]|]. apply forallb_forall. intros x Hx.
    apply in_map_iff in Hx. destruct Hx as (r' & <- & Hr). rewrite Forall_forall in H. destruct (H _ Hr) as (_ & HP). apply (prints_tree _ _ _ _ HP).
  - eexists _, _. split; [exact R|]. assert (LS : forall p, last_semi true ws p = []).
    { intro p. unfold ws. destruct rs as [|r rs] using rev_ind; [contradiction|]. rewrite flat_map_app. cbn [flat_map]. rewrite app_nil_r. unfold rule_toks at 2. rewrite app_comm_cons, app_comm_cons, app_assoc. unfold last_semi. rewrite rev_unit. reflexivity. }
    rewrite LS, app_nil_r, (tokens_sigs ws 0 F). unfold ws, r_doc, trees. clear - H. induction H as [|r rs (_ & HP) _ IH]; [reflexivity|]. cbn [flat_map map]. rewrite sg_app, (rule_sg _ _ HP), IH. reflexivity.
Qed.
End Print.

Lemma norm_erase : forall A T (g : gr A T), norm (erase g) = norm g.
Proof.
  intros A T. induction g using gr_ind'; cbn [erase norm]; try congruence.
  - f_equal. rewrite flat_map_concat_map, map_map, <- flat_map_concat_map. apply flat_ext. eapply Forall_impl; [|exact H]. intros g Hg. cbn. rewrite Hg. reflexivity.
  - f_equal. rewrite flat_map_concat_map, map_map, <- flat_map_concat_map. apply flat_ext. eapply Forall_impl; [|exact H]. intros g Hg. cbn. rewrite Hg. reflexivity.
Qed.
Lemma known_init : forall tk l k, known tk l k -> known (tk_init tk) l k.
Proof.
  intros [|kw] l k H; [exact H|]. unfold known in *. cbn [tk_init tk_ltot] in *. unfold KwInit. destruct (kw_map kw) eqn:E; [exact H|].
  unfold KwLtot, kw_find in *. rewrite E in H. cbn [kw_map lookup]. destruct (negb (Lit2Token l =? ILLEGAL)); [injection H as <-; reflexivity|].
  destruct l as [|q r]; [discriminate|]. destruct (q =? 34); [|injection H as <-; reflexivity]. destruct r; discriminate.
Qed.

Section Recompile.
Context {A T PM M : Type}.
Notation G := (gr A T).
Variable marker : G -> bytes -> M -> (G * M) + (PM * M).
Hypothesis Htotal : forall g n m, exists g' m', marker g n m = inl (g', m') /\ g' <> GNil.
Variable w : bytes -> G -> G.
Hypothesis Hw : forall g n m g' m', marker g n m = inl (g', m') -> erase g' = w n (erase g) /\ incl (named g') (named g).
Variables isL isD : Z -> bool.
Hypothesis HL : isL RuneError = false.
Hypothesis HD : isD RuneError = false.

(** The rules printed by Code, one after the other, compile, and to the same rules. *)
Theorem C37_recompiles : forall tk (rs : list (bytes * G)) sp old m, tk_ok tk -> printable isL isD tk rs -> spacing true sp ->
  NoDup (map fst rs) ->
  (exists a g b, rs = a ++ (n_doc, g) :: b /\ ~ In n_doc (flat_map (fun r => uses (snd r)) (a ++ [(n_doc, g)]))) ->
  (forall n, In n (flat_map (fun r => uses (snd r)) rs) -> In n (map fst rs)) ->
  exists src root d, print_doc tk sp rs = Val src /\ compiles_to marker isL isD tk old m src (ClOk root d) /\ value d n_doc = Some root /\
  forall n g, In (n, g) rs -> exists g', value d n = Some g' /\ norm g' = norm g.
Proof.
  intros tk rs sp old m Hk HP HS ND HD1 HU. destruct (C37_reads_back isL isD HL HD tk rs sp old Hk HP HS) as (src & Hsrc & Htext & _). exists src.
  destruct HP as (_ & HP). rewrite Forall_forall in HP.
  assert (N1 : names (trees tk rs) = map fst rs) by (unfold names, trees; rewrite map_map; reflexivity).
  assert (RF : forall l, incl l rs -> incl (flat_map (fun r => refs_gram (snd r)) (trees tk l)) (flat_map (fun r => uses (snd r)) l)).
  { intros l Hl n Hn. apply in_flat_map in Hn. destruct Hn as (x & Hx & Hn). apply in_map_iff in Hx. destruct Hx as (r & <- & Hr). apply in_flat_map. exists r. split; [exact Hr|].
    eapply tree_refs; [apply HP; apply Hl; exact Hr|exact Hn]. }
  assert (C : exists root d, compiles_to marker isL isD tk old m src (ClOk root d)).
  { apply (C35_compiles_iff marker isL isD Htotal tk old m src (trees tk rs) Hk Htext).
    - apply forallb_forall. intros x Hx. apply in_map_iff in Hx. destruct Hx as (r & <- & Hr). apply (tree_legal isL isD). apply HP. exact Hr.
    - apply forallb_forall. intros x Hx. apply in_map_iff in Hx. destruct Hx as (r & <- & Hr). cbn [snd]. apply negb_true_iff. destruct (HP _ Hr) as (_ & P).
      destruct (nil_gram (tg tk (snd r))) eqn:E; [|reflexivity]. exfalso.
      assert (HC : forall k l, names_token isL isD tk k l -> code_of tk l = k) by (intros k l H; apply known_code; apply H).
      destruct (prints_back isL isD tk (code_of tk) HC false (fun _ g => g) (snd r) P) as (B & F).
      pose proof (back_gram tk (code_of tk) false (fun _ g => g) (snd r) (prints_tree _ _ _ _ P) B) as BG. pose proof (full_nil _ F) as FN.
      destruct (tg tk (snd r)) as [|[|i [|]] [|]]; try discriminate. cbn [nil_gram] in E.
      assert (X : sem_gram (code_of tk) false (fun _ g => g) [[i]] = (GNil : G)) by (exact (proj1 (proj2 (nil_sem A T (code_of tk) false (fun _ g => g))) i E)).
      pose proof (eq_trans (eq_sym (f_equal norm X)) BG) as BG'. cbn [norm] in BG'. rewrite <- BG' in FN. discriminate.
    - rewrite N1. split; [exact ND|]. split.
      + destruct HD1 as (a & g & b & E & Hno). exists (trees tk a), (tg tk g), (trees tk b). split; [rewrite E; unfold trees; rewrite map_app; reflexivity|].
        intro X. apply Hno. apply (RF (a ++ [(n_doc, g)])); [rewrite E; intros r Hr; apply in_app_or in Hr; apply in_or_app; destruct Hr as [Hr|[Hr|[]]]; [left; exact Hr|right; left; exact Hr]|].
        unfold trees in *. rewrite map_app. exact X.
      + intros n Hn. apply HU. apply (RF rs (incl_refl _)). exact Hn. }
  destruct C as (root & d & C). exists root, d. split; [exact Hsrc|]. split; [exact C|].
  destruct (C32_denotes marker isL isD w Hw tk old m src _ root d Htext C) as (V & D). split; [exact V|].
  intros n g Hin. destruct (in_split _ _ Hin) as (a & b & E).
  destruct (D (trees tk a) (n, tg tk g) (trees tk b)) as (g' & Hv & He & _).
  - rewrite E. unfold trees. rewrite map_app. reflexivity.
  - cbn [fst]. rewrite E, map_app in ND. apply NoDup_remove_2 in ND. intro X. apply ND. apply in_or_app. right. unfold names, trees in X. rewrite map_map in X. exact X.
  - exists g'. split; [exact Hv|]. rewrite <- norm_erase, He. cbn [fst snd] in *. destruct (HP _ Hin) as (_ & P).
    destruct (C33_only_rules_compile marker isL isD _ _ _ _ _ _ C) as (rs' & Hx' & Ed & _). rewrite <- (C32_one_reading _ _ _ _ _ _ _ Htext Hx') in Ed.
    destruct (doc_value marker w Hw _ _ _ Ed (no_true_d0 tk m)) as ((_ & K) & _).
    assert (HC : forall k l, names_token isL isD tk k l -> code_of (d_tk d) l = k).
    { intros k l (_ & _ & H & _). apply known_code. apply K. cbn. apply known_init. exact H. }
    destruct (prints_back isL isD tk (code_of (d_tk d)) HC (mem n_true (names (trees tk a))) w g P) as (B & _).
    apply back_gram; [eapply prints_tree; exact P|exact B].
Qed.
End Recompile.

(** ** Instances *)
Definition ascii_letter (c : Z) : bool := (97 <=? c) && (c <=? 122) || (65 <=? c) && (c <=? 90) || (c =? 95).
Lemma ascii_word : forall isL isD l, l <> [] -> forallb ascii_letter l = true -> ident isL isD l /\ clean l.
Proof.
  intros isL isD l N H.
  assert (A : Forall (fun c => 0 < c < 128 /\ letter isL c) l).
  { apply Forall_forall. intros c Hc. rewrite forallb_forall in H. specialize (H c Hc). unfold ascii_letter in H. unfold letter. lia. }
  clear H. split.
  - split; [exact N|]. split; [destruct A as [|c l (B & C) A]; [contradiction|]; rewrite first_ascii by lia; exact C|].
    clear N. induction A as [|c l (B & C) A IH]; [constructor|]. apply Chars_cons; [discriminate|rewrite first_ascii by lia; left; exact C|].
    assert (W : width (c :: l) = 1%nat) by (unfold width, DecodeRune; replace (c <? 128) with true by lia; reflexivity). rewrite W. exact IH.
  - apply clean_of_ascii. eapply Forall_impl; [|exact A]. intros c (B & _). exact B.
Qed.
Definition kw37 : tokener := AutoKw (mkKw [s2b """begin"""] (Some [(s2b "begin", USER_TOKEN_BEGIN)])).
Definition item37 : gr Empty_set Empty_set := GOr [GTok IDENT; GRep1 1 (GOr [GTok INT; GTok FLOAT])].
Definition doc37 : gr Empty_set Empty_set :=
  GAnd [GTok USER_TOKEN_BEGIN; GNil; GList 2 (GAnd [GVar (s2b "item"); GRep01 3 (GTok 58)]) (GTok 44) true; GAnd [GNot (GTok 41); GTrue]].
Definition rules37 : list (bytes * gr Empty_set Empty_set) := [(s2b "item", item37); (n_doc, doc37)].
Example C37_instance_text : print_doc kw37 [] rules37 =
  Val (s2b "item = IDENT | +(INT | FLOAT);doc = ""begin"" (item ?':') %= ',' ~')' 1;").
Proof. vm_compute. reflexivity. Qed.
Example C37_instance : tk_ok kw37 /\ printable no_runes no_runes kw37 rules37 /\ NoDup (map fst rules37) /\
  (exists a g b, rules37 = a ++ (n_doc, g) :: b /\ ~ In n_doc (flat_map (fun r => uses (snd r)) (a ++ [(n_doc, g)]))) /\
  (forall n, In n (flat_map (fun r => uses (snd r)) rules37) -> In n (map fst rules37)).
Proof.
  assert (W : forall l, l <> [] -> forallb ascii_letter l = true -> l <> s2b "begin" -> plain_word no_runes no_runes kw37 l).
  { intros l N H B. destruct (ascii_word no_runes no_runes l N H) as (W1 & W2). split; [exact W1|]. split; [exact W2|]. intro p. unfold kw37, tk_scan, KwScan, kw_find. cbn [tkind tlit kw_map lookup]. apply beq_neq in B. rewrite B. reflexivity. }
  assert (U : forall k l, tk_ttol kw37 k = Val l -> word_kind l = IDENT -> upper l = true -> forallb ascii_letter l = true -> l <> s2b "begin" -> tk_ltot kw37 l = Val (k, kw37) -> k <> ILLEGAL ->
    exists l, names_token no_runes no_runes kw37 k l).
  { intros k l H1 H2 H3 H4 H5 H6 H7. exists l. split; [exact H1|]. split; [|auto]. assert (N : l <> []) by (intros ->; discriminate). split; [|auto]. rewrite H2. destruct (ascii_word no_runes no_runes l N H4). apply Wr_ident; assumption. }
  assert (C : forall k c, tk_ttol kw37 k = Val [39; c; 39] -> 0 < c < 128 -> c <> 39 -> c <> 92 -> c <> 10 -> tk_ltot kw37 [39; c; 39] = Val (k, kw37) -> k <> ILLEGAL ->
    exists l, names_token no_runes no_runes kw37 k l).
  { intros k c H1 H2 H3 H4 H5 H6 H7. exists [39; c; 39]. split; [exact H1|]. split; [|auto]. split; [|discriminate]. apply (Wr_char _ _ [c]).
    - change [c] with ([c] ++ []). apply GQ_char; try (rewrite first_ascii by lia; assumption); [discriminate| |constructor].
      unfold width, DecodeRune. replace (c <? 128) with true by lia. reflexivity.
    - apply clean_of_ascii. constructor; [lia|constructor]. }
  split; [intros x v; unfold kw_find; cbn [kw_map lookup]; destruct (beq x (s2b "begin")); [intros [= <-]; apply Z.le_refl|discriminate]|].
  assert (HB : exists l, names_token no_runes no_runes kw37 USER_TOKEN_BEGIN l).
  { exists (s2b """begin"""). split; [reflexivity|]. split; [|split; [vm_compute; reflexivity|discriminate]]. split; [|discriminate].
    apply (Wr_string _ _ 5 (s2b "begin")); [|apply clean_of_ascii; repeat constructor; lia].
    change (s2b "begin") with ([98] ++ [101] ++ [103] ++ [105] ++ [110] ++ []). repeat (apply GQ_char; [discriminate|reflexivity|discriminate|discriminate|discriminate|]). constructor. }
  split; [split; [discriminate|]; constructor; [|constructor; [|constructor]]|split; [|split]].
  - split; [apply W; [discriminate|reflexivity|discriminate]|]. cbn [snd]. unfold item37. cbn [prints].
    split; [discriminate|]. split; [eapply U; try reflexivity; discriminate|]. split; [|exact Logic.I]. split; [|reflexivity]. split; [discriminate|].
    split; [eapply U; try reflexivity; discriminate|]. split; [eapply U; try reflexivity; discriminate|exact Logic.I].
  - split; [apply W; [discriminate|reflexivity|discriminate]|]. cbn [snd]. unfold doc37. cbn [prints].
    split; [reflexivity|]. split; [intros _; exact HB|]. split; [discriminate|]. split; [intros _; split; [|split; [|reflexivity]]|].
    + split; [reflexivity|]. split; [intros _; split; [reflexivity|]; split; [discriminate|]; apply W; [discriminate|reflexivity|discriminate]|].
      split; [|exact Logic.I]. intros _. eapply C; try reflexivity; try discriminate; lia.
    + eapply C; try reflexivity; try discriminate; lia.
    + split; [|exact Logic.I]. intros _. split; [reflexivity|]. split; [intros _; eapply C; try reflexivity; try discriminate; lia|]. split; [intros _; exact Logic.I|exact Logic.I].
  - repeat constructor; cbn; intuition discriminate.
  - exists [(s2b "item", item37)], doc37, []. split; [reflexivity|]. vm_compute. intuition discriminate.
  - intros n Hn. vm_compute in Hn. vm_compute. tauto.
Qed.

(** ** What does not read back *)
Definition print1 (g : gr Empty_set Empty_set) : mayp bytes := print_doc Plain [] [(n_doc, g)].
Definition cl37 (tk : tokener) (src : bytes) := compiles_to nomark no_runes no_runes tk PropScan.fresh tt src.
(** a list separated by a list is printed without parentheses and read from the left ... *)
Theorem C37_list_separator_refuted : let g := GList 0 (GTok IDENT) (GList 1 (GTok INT) (GTok FLOAT) false) false in
  print1 g = Val (s2b "doc = IDENT % INT % FLOAT;") /\
  exists root d, cl37 Plain (s2b "doc = IDENT % INT % FLOAT;") (ClOk root d) /\ norm root = GList 0 (GList 0 (GTok IDENT) (GTok INT) false) (GTok FLOAT) false /\ norm root <> norm g.
Proof.
  split; [vm_compute; reflexivity|]. do 2 eexists. split; [apply (compiles_run _ _ _ _ _ _ _ 300%nat); [vm_compute; reflexivity|discriminate]|]. vm_compute. split; [reflexivity|discriminate].
Qed.
(** ... + under + is printed as one operator, which is no grammar ... *)
Theorem C37_plus_plus_refuted : print1 (GRep1 0 (GRep1 1 (GTok IDENT))) = Val (s2b "doc = ++IDENT;") /\
  exists e, cl37 Plain (s2b "doc = ++IDENT;") (ClMatchErr e).
Proof. split; [vm_compute; reflexivity|]. eexists. apply (compiles_run _ _ _ _ _ _ _ 300%nat); [vm_compute; reflexivity|discriminate]. Qed.
(** ... a sequence of nothing but ! is printed as nothing, a ! outside a sequence crashes ... *)
Theorem C37_bang_refuted : print1 (GAnd [GNil; GNil]) = Val (s2b "doc = ;") /\ (exists e, cl37 Plain (s2b "doc = ;") (ClMatchErr e)) /\
  print1 (GOr [GNil; GTok IDENT]) = Crash.
Proof. split; [vm_compute; reflexivity|]. split; [|vm_compute; reflexivity]. eexists. apply (compiles_run _ _ _ _ _ _ _ 300%nat); [vm_compute; reflexivity|discriminate]. Qed.
(** ... the end of the text is printed as EOF, which is read as a token ... *)
Theorem C37_eof_refuted : print1 GEOF = Val (s2b "doc = EOF;") /\ exists d, cl37 Plain (s2b "doc = EOF;") (ClOk (GTok EOF) d).
Proof. split; [vm_compute; reflexivity|]. eexists. apply (compiles_run _ _ _ _ _ _ _ 300%nat); [vm_compute; reflexivity|discriminate]. Qed.
(** ... and a rule that has the name of a keyword of the grammar is not read as a rule again. *)
Definition src37 : bytes := s2b "begin = IDENT; doc = ""begin"" begin;".
Theorem C37_keyword_rule_refuted : exists root d, cl37 (AutoKw new_akw) src37 (ClOk root d) /\
  print_doc (d_tk d) [] [(s2b "begin", GTok IDENT); (n_doc, root)] = Val (s2b "begin = IDENT;doc = ""begin"" begin;") /\
  exists e, cl37 (d_tk d) (s2b "begin = IDENT;doc = ""begin"" begin;") (ClMatchErr e).
Proof.
  do 2 eexists. split; [apply (compiles_run _ _ _ _ _ _ _ 300%nat); [vm_compute; reflexivity|discriminate]|]. split; [vm_compute; reflexivity|].
  eexists. apply (compiles_run _ _ _ _ _ _ _ 300%nat); [vm_compute; reflexivity|discriminate].
Qed.

Print Assumptions C37_reads_back.
Print Assumptions C37_recompiles.
Print Assumptions C37_list_separator_refuted.
Print Assumptions C37_plus_plus_refuted.
Print Assumptions C37_bang_refuted.
Print Assumptions C37_eof_refuted.
Print Assumptions C37_keyword_rule_refuted.
