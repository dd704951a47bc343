(** Compiling with a Marker that accepts or rejects a mark by its name: it succeeds exactly when compiling with the
    Marker that accepts all does and every mark in the text is accepted, with the same result. *)
From Coq Require Import String.
From Verif Require Import Base Token Grammar Scanner Tokenize Matcher Compiler GramSyntax CompilerProofs CompilerBack CompilerTop CompilerMore PropCompiler.

Section Check.
Context {A T PM M : Type}.
Notation G := (gr A T).
Variable act : bytes -> A.
(** attaches an action to every marked rule *)
Definition all_marks (g : G) (n : bytes) (m : M) : (G * M) + (PM * M) := inl (GAct g (act n), m).
Variable marker : G -> bytes -> M -> (G * M) + (PM * M).
Variable okm : bytes -> bool.
Hypothesis accepts : forall g n m, okm n = true -> marker g n m = all_marks g n m.
Hypothesis rejects : forall g n m, okm n = false -> exists p, marker g n m = inr p.
Notation el := (el (A := A) (T := T) (PM := PM) (M := M)).

(** the first succeeds exactly when the second does and the marks are accepted *)
Definition checks {Y : Type} (a b : el Y) (ns : list bytes) : Prop := forall d y d', a d = inl (y, d') <-> b d = inl (y, d') /\ forallb okm ns = true.
Lemma checks_same : forall Y (a : el Y), checks a a [].
Proof. intros Y a d y d'. cbn. tauto. Qed.
Lemma checks_bind : forall X Y (a b : el X) (j k : X -> el Y) m n, checks a b m -> (forall x, checks (j x) (k x) n) -> checks (bind a j) (bind b k) (m ++ n).
Proof.
  intros X Y a b j k m n H1 H2 d y d'. rewrite forallb_app, Bool.andb_true_iff. unfold bind. split.
  - destruct (a d) as [(x, d1)|p] eqn:E; [|discriminate]. apply H1 in E. destruct E as (-> & E1). intro E. apply H2 in E. tauto.
  - destruct (b d) as [(x, d1)|p] eqn:E; [|intros (D & _); discriminate D]. intros (E1 & N1 & N2). rewrite (proj2 (H1 d x d1) (conj E N1)). apply H2. auto.
Qed.
Lemma checks_bind0 : forall X Y (a b : el X) (k : X -> el Y) m, checks a b m -> checks (bind a k) (bind b k) m.
Proof. intros X Y a b k m H. rewrite <- (app_nil_r m). apply checks_bind; [exact H|intro; apply checks_same]. Qed.
Lemma checks_each : forall X Y (f g : X -> el Y) r l, Forall (fun x => checks (f x) (g x) (r x)) l -> checks (each f l) (each g l) (flat_map r l).
Proof.
  intros X Y f g r. induction l as [|x l IH]; intro HF; cbn [each flat_map]; [apply checks_same|]. inversion HF as [|? ? H1 H2]; subst.
  apply checks_bind; [exact H1|]. intro y. apply checks_bind0. apply IH. exact H2.
Qed.
Lemma checks_all : (forall f, checks (e_factor marker f) (e_factor all_marks f) (marks_factor f)) /\ (forall i, checks (e_item marker i) (e_item all_marks i) (marks_item i)) /\
  (forall s g, checks (e_suffix marker s g) (e_suffix all_marks s g) (marks_suffix s)).
Proof.
  apply syntax_ind.
  - intro n. apply checks_same.
  - intro l. apply checks_same.
  - intro l. apply checks_same.
  - intros l. apply checks_same.
  - intros o f IH. cbn [e_factor marks_factor]. apply checks_bind0. exact IH.
  - intros g IH. cbn [e_factor marks_factor]. apply checks_bind0.
    apply (checks_each _ _ _ _ (fun e => flat_map marks_item e)). rewrite Forall_forall in *. intros e He. apply checks_bind0. apply checks_each. apply IH. exact He.
  - cbn [e_item marks_item]. apply checks_same.
  - intros f ss IHf IHs. cbn [marks_item]. change (checks (bind (e_factor marker f) (go_suffixes marker ss)) (bind (e_factor all_marks f) (go_suffixes all_marks ss)) (marks_factor f ++ flat_map marks_suffix ss)).
    apply checks_bind; [exact IHf|]. induction IHs as [|s ss Hs _ IH]; intro g; cbn [go_suffixes flat_map]; [apply checks_same|]. apply checks_bind; [apply Hs|exact IH].
  - intros f IH g. cbn [e_suffix marks_suffix]. apply checks_bind0. exact IH.
  - intros f IH g. cbn [e_suffix marks_suffix]. apply checks_bind0. exact IH.
  - intros n g d y d'. cbn [e_suffix marks_suffix forallb]. unfold the_mark. destruct (okm n) eqn:E.
    + rewrite (accepts _ _ _ E). cbn. tauto.
    + destruct (rejects g n (d_m d) E) as ((p, m) & ->). cbn. split; [discriminate|]. intros (_ & D). discriminate D.
Qed.
Lemma checks_doc : forall rs, checks (e_doc marker rs) (e_doc all_marks rs) (marks_doc rs).
Proof.
  induction rs as [|r rs IH]; cbn [e_doc]; [apply checks_same|]. unfold marks_doc. cbn [flat_map]. apply checks_bind; [|intro; exact IH].
  unfold e_rule. apply checks_bind0. unfold e_gram, marks_gram. apply checks_bind0.
  apply (checks_each _ _ _ _ (fun e => flat_map marks_item e)). apply Forall_forall. intros e _. unfold e_expr. apply checks_bind0. apply checks_each. apply Forall_forall. intros i _. apply checks_all.
Qed.

Variables isL isD : Z -> bool.
Lemma checked : forall tk old m src root d,
  compiles_to marker isL isD tk old m src (ClOk root d) <->
  compiles_to all_marks isL isD tk old m src (ClOk root d) /\ exists rs, text_of isL isD tk old src rs /\ Forall (fun n => okm n = true) (marks_doc rs).
Proof.
  assert (U : forall mk tk old m src rs root d d', text_of isL isD tk old src rs -> e_doc mk rs (d0 tk m) = inl (tt, d) -> find n_doc (d_grams d) = Some root ->
    (compiles_to (A := A) (T := T) (PM := PM) (M := M) mk isL isD tk old m src (ClOk root d') <-> unassigned d = [] /\ d = d')).
  { intros mk tk old m src rs root d d' Hx E F. pose proof (C32_compiles mk isL isD tk old m src rs Hx) as K. rewrite E in K. unfold cl_finish in K. rewrite F in K. split.
    - intro H. pose proof (compiles_unique _ _ _ _ _ _ _ _ _ H K) as Q. destruct (unassigned d); [|discriminate Q]. injection Q as <-. auto.
    - intros (Q & <-). rewrite Q in K. exact K. }
  intros tk old m src root d. split.
  - intro H. destruct (C33_only_rules_compile _ _ _ _ _ _ _ _ _ H) as (rs & Hx & E & F). pose proof (proj1 (checks_doc rs _ _ _) E) as (E1 & N).
    apply (U _ _ _ _ _ _ _ _ _ Hx E F) in H. split; [|exists rs; split; [exact Hx|apply Forall_forall; apply forallb_forall; exact N]].
    apply (U _ _ _ _ _ _ _ _ _ Hx E1 F). exact H.
  - intros (H & rs & Hx & N). destruct (C33_only_rules_compile _ _ _ _ _ _ _ _ _ H) as (rs' & Hx' & E & F).
    rewrite (C32_one_reading _ _ _ _ _ _ _ Hx' Hx) in E. assert (E1 : e_doc marker rs (d0 tk m) = inl (tt, d)) by (apply checks_doc; split; [exact E|]; apply forallb_forall; apply Forall_forall; exact N).
    apply (U _ _ _ _ _ _ _ _ _ Hx E F) in H. apply (U _ _ _ _ _ _ _ _ _ Hx E1 F). exact H.
Qed.
End Check.
