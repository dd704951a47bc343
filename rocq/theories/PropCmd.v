(** Properties C83 (tplconv) and C84 (tplgen). *)
From Coq Require Import String Permutation.
From Verif Require Import Base Token Utf8 Cmd.
Local Open Scope list_scope.
Local Open Scope Z_scope.

(** ** Specification *)
(** [e] is the extension of the path [p]: what follows the last dot of its last element. *)
Definition extension (p e : bytes) : Prop := exists pre, p = pre ++ 46 :: e /\ ~ In 46 e /\ ~ In 47 e.

Lemma ext_rev_spec : forall r acc, ext_rev r acc = [] \/ exists pre e, r = rev e ++ 46 :: pre /\ ext_rev r acc = 46 :: e ++ acc /\ ~ In 46 e /\ ~ In 47 e.
Proof.
  induction r as [|c r IH]; intros acc; cbn [ext_rev]; [left; reflexivity|].
  destruct (c =? 47) eqn:E1; [left; reflexivity|]. destruct (c =? 46) eqn:E2.
  - apply Z.eqb_eq in E2. subst c. right. exists r, []. split; [reflexivity|]. split; [reflexivity|]. split; intros [].
  - destruct (IH (c :: acc)) as [H|(pre & e & E & H & N1 & N2)]; [left; exact H|]. right. exists pre, (e ++ [c]).
    apply Z.eqb_neq in E1. apply Z.eqb_neq in E2. split; [rewrite rev_app_distr, E; reflexivity|]. split; [rewrite H, <- app_assoc; reflexivity|].
    split; intros Hi; apply in_app_or in Hi; destruct Hi as [Hi|[Hi|[]]]; auto.
Qed.
Lemma ext_rev_app : forall e pre acc, ~ In 46 e -> ~ In 47 e -> ext_rev (rev e ++ 46 :: pre) acc = 46 :: e ++ acc.
Proof.
  intros e. induction e as [|c e IH] using rev_ind; intros pre acc N1 N2; [reflexivity|].
  rewrite rev_app_distr. cbn [rev app ext_rev]. destruct (c =? 47) eqn:E1; [apply Z.eqb_eq in E1; exfalso; apply N2, in_or_app; right; left; exact E1|].
  destruct (c =? 46) eqn:E2; [apply Z.eqb_eq in E2; exfalso; apply N1, in_or_app; right; left; exact E2|].
  rewrite IH; [rewrite <- app_assoc; reflexivity| |]; intros Hi; [apply N1|apply N2]; apply in_or_app; left; exact Hi.
Qed.
Lemma Ext_spec : forall p e, Ext p = 46 :: e <-> extension p e.
Proof.
  intros p e. unfold Ext, extension. split.
  - intros H. destruct (ext_rev_spec (rev p) []) as [H1|(pre & e' & E & H1 & N1 & N2)]; rewrite H in H1; [discriminate|].
    injection H1 as H1. rewrite app_nil_r in H1. subst e'. exists (rev pre).
    apply (f_equal (@rev Z)) in E. rewrite rev_involutive, rev_app_distr in E. cbn [rev] in E. rewrite rev_involutive, <- app_assoc in E. auto.
  - intros (pre & E & N1 & N2). subst p. rewrite rev_app_distr. cbn [rev]. rewrite <- app_assoc. cbn [app]. rewrite ext_rev_app, app_nil_r; auto.
Qed.
Lemma Ext_dot : forall p, Ext p = [] \/ exists e, Ext p = 46 :: e.
Proof. intros p. unfold Ext. destruct (ext_rev_spec (rev p) []) as [H|(pre & e & _ & H & _)]; rewrite H; eauto. Qed.
Lemma Ext_none : forall p, Ext p = [] <-> forall e, ~ extension p e.
Proof.
  intros p. split.
  - intros H e He. apply Ext_spec in He. congruence.
  - intros H. destruct (Ext_dot p) as [E|(e & E)]; [exact E|]. apply Ext_spec in E. destruct (H e E).
Qed.

Section Tplconv.
Context {E D T : Type}.
Variable New : bytes -> res E.
Variable SafeParse : E -> bytes -> path -> res D.
Variable marshal : D -> bytes + bytes.
Variable parse_template : path -> bytes -> T + bytes.
Variable execute : T -> D -> list bytes * option bytes.
Variable join : list path -> path.
Variable creatable : path -> option bytes.
Variable write : bytes -> bytes -> bytes * option bytes.
Variable bad_tpl : path -> bytes -> bytes.
Variable no_file : path -> bytes.
Variables format ext root : bytes.
Variable help : bytes.
Notation processFile := (processFile New SafeParse marshal parse_template execute join creatable write bad_tpl no_file format ext root).
Notation tplconv := (tplconv New SafeParse marshal parse_template execute join creatable write bad_tpl no_file format ext root help).
Notation outFile := (outFile ext).
Notation render := (render marshal parse_template execute join write no_file format root).
Notation open_output := (open_output creatable ext).
Notation printJson := (printJson marshal).

(** The document the template for [f]'s extension extracts from [f]. *)
Definition input_template (e : bytes) : path := join [root; s2b "input"; e ++ s2b ".tpl"].
Definition output_template : path := join [root; s2b "output"; format].
Definition extracts (w : world) (f : path) (doc : D) : Prop := exists input e tpl eng,
  files w f = Some input /\ extension f e /\ files w (input_template e) = Some tpl /\ New tpl = Ok eng /\ SafeParse eng input f = Ok doc.
(** The output format: JSON, or the file of a template. *)
Definition template_format : Prop := extension format (s2b "htm") \/ extension format (s2b "html").
Definition known_format : Prop := format = s2b "json" \/ template_format.

Lemma extracts_run : forall w f, (exists doc, extracts w f doc /\ processFile w f = match open_output w f with (w', inr e) => (w', Err e) | (w', inl dest) => render w' dest doc end) \/
  (forall doc, ~ extracts w f doc) /\ fst (processFile w f) = w /\ snd (processFile w f) <> Ok tt.
Proof.
  intros w f. unfold Cmd.processFile.
  destruct (files w f) as [input|] eqn:E1; [|right; split; [|split; [reflexivity|discriminate]]; intros doc (i & e & t & g & H & _); congruence].
  destruct (Ext_dot f) as [E2|(e & E2)]; rewrite E2.
  { right. split; [|split; [reflexivity|discriminate]]. intros doc (i & e & t & g & _ & H & _). apply Ext_spec in H. congruence. }
  assert (U : forall e', extension f e' -> e' = e) by (intros e' H; apply Ext_spec in H; congruence). fold (input_template e). change t_input with (s2b "input"). change t_tpl with (s2b ".tpl"). fold (input_template e).
  destruct (files w (input_template e)) as [tpl|] eqn:E3; [|right; split; [|split; [reflexivity|discriminate]]; intros doc (i & e' & t & g & _ & H & H3 & _); rewrite (U _ H) in H3; congruence].
  destruct (New tpl) as [eng|er|] eqn:E4; try (right; split; [|split; [reflexivity|discriminate]]; intros doc (i & e' & t & g & _ & H & H3 & H4 & _); rewrite (U _ H) in H3; congruence).
  destruct (SafeParse eng input f) as [doc|er|] eqn:E5; try (right; split; [|split; [reflexivity|discriminate]]; intros doc (i & e' & t & g & H1 & H & H3 & H4 & H5); rewrite (U _ H) in H3; congruence).
  left. exists doc. split; [|reflexivity]. exists input, e, tpl, eng. apply Ext_spec in E2. auto.
Qed.
Lemma extracts_fun : forall w f d d', extracts w f d -> extracts w f d' -> d = d'.
Proof.
  intros w f d d' (i & e & t & g & A1 & A2 & A3 & A4 & A5) (i' & e' & t' & g' & B1 & B2 & B3 & B4 & B5).
  apply Ext_spec in A2. apply Ext_spec in B2. rewrite A2 in B2. injection B2 as B2. subst e'. congruence.
Qed.
Lemma extracts_go : forall w f doc, extracts w f doc -> processFile w f = match open_output w f with (w', inr e) => (w', Err e) | (w', inl dest) => render w' dest doc end.
Proof.
  intros w f doc H. destruct (extracts_run w f) as [(d & H1 & H2)|(N & _)]; [|destruct (N doc H)]. rewrite (extracts_fun _ _ _ _ H H1). exact H2.
Qed.

(** *** C83: which effects tplconv has *)
(** A file without a document leaves everything as it was. *)
Theorem C83_unread : forall w f, (forall doc, ~ extracts w f doc) -> fst (processFile w f) = w /\ snd (processFile w f) <> Ok tt.
Proof. intros w f H. destruct (extracts_run w f) as [(d & H1 & _)|(_ & H1)]; [destruct (H d H1)|exact H1]. Qed.

(** ... and is refused with a message that says why: it cannot be read, its name has no extension, no template is there for it, the template is wrong, or the text does not match. *)
Theorem C83_refused : forall w f,
  (files w f = None -> processFile w f = (w, Err (no_file f))) /\
  (forall input, files w f = Some input ->
    ((forall e, ~ extension f e) -> processFile w f = (w, Err (s2b "unknown file format: " ++ f))) /\
    (forall e, extension f e ->
      (files w (input_template e) = None -> processFile w f = (w, Err (s2b "unknown file format: ." ++ e))) /\
      (forall tpl, files w (input_template e) = Some tpl ->
        (forall msg, New tpl = Err msg -> processFile w f = (w, Err (bad_tpl (input_template e) msg))) /\
        (forall eng msg, New tpl = Ok eng -> SafeParse eng input f = Err msg -> processFile w f = (w, Err msg))))).
Proof.
  intros w f. unfold Cmd.processFile. split; [intros ->; reflexivity|]. intros input ->. split; [intros H; apply Ext_none in H; rewrite H; reflexivity|].
  intros e He. apply Ext_spec in He. rewrite He. change t_input with (s2b "input"). change t_tpl with (s2b ".tpl"). fold (input_template e). split; [intros ->; reflexivity|].
  intros tpl ->. split; [intros msg ->; reflexivity|]. intros eng msg -> ->. reflexivity.
Qed.

Lemma put_other : forall w p c q, q <> p -> files (put w (Some p) c) q = files w q.
Proof. intros w p c q H. cbn [put set_file files]. destruct (beq q p) eqn:B; [apply beq_eq in B; contradiction|reflexivity]. Qed.
Definition dest_frame (dest : option path) (w w' : world) : Prop :=
  stderr w' = stderr w /\ match dest with
  | None => forall q, files w' q = files w q
  | Some p => stdout w' = stdout w /\ forall q, q <> p -> files w' q = files w q
  end.
Lemma frame_refl : forall dest w, dest_frame dest w w.
Proof. intros [p|] w; repeat split; auto. Qed.
Lemma frame_trans : forall dest w1 w2 w3, dest_frame dest w1 w2 -> dest_frame dest w2 w3 -> dest_frame dest w1 w3.
Proof. intros [p|] w1 w2 w3 (A0 & A) (B0 & B); (split; [congruence|]); [|intros q; rewrite B; apply A]. destruct A as (A1 & A2), B as (B1 & B2). split; [congruence|]. intros q Hq. rewrite B2, A2; auto. Qed.
Lemma frame_put : forall dest w c, dest_frame dest w (put w dest c).
Proof. intros [p|] w c; (split; [reflexivity|]); [split; [reflexivity|]; intros q H; apply put_other; exact H|reflexivity]. Qed.
Lemma frame_write_all : forall dest ds e w, dest_frame dest w (fst (write_all write w dest ds e)).
Proof.
  intros dest ds e. induction ds as [|d ds IH]; intros w; cbn [write_all]; [apply frame_refl|].
  unfold write_to. destruct (write (held w dest) d) as [c [x|]]; [apply frame_put|]. eapply frame_trans; [apply frame_put|apply IH].
Qed.
Lemma frame_render : forall dest w doc, dest_frame dest w (fst (render w dest doc)).
Proof.
  intros dest w doc. unfold Cmd.render. destruct (Ext format) as [|d o].
  - destruct (is_internal format); [|apply frame_refl]. unfold write_to. destruct (write _ _) as [c x]. apply frame_put.
  - destruct (is_template _); [|apply frame_refl]. destruct (files w _); [|apply frame_refl]. destruct (parse_template _ _) as [t|]; [|apply frame_refl].
    destruct (execute t doc) as [ds e]. pose proof (frame_write_all dest ds e w) as H. destruct (write_all write w dest ds e) as [w' [x|]]; exact H.
Qed.
(** Without -ext no file changes; with it only [f].ext does, and nothing is printed. *)
Theorem C83_frame : forall w f, let w' := fst (processFile w f) in
  (ext = [] -> forall p, files w' p = files w p) /\
  (ext <> [] -> stdout w' = stdout w /\ forall p, p <> f ++ s2b "." ++ ext -> files w' p = files w p).
Proof.
  intros w f w'. subst w'. destruct (extracts_run w f) as [(doc & _ & E1)|(_ & E1 & _)]; [|rewrite E1; split; auto]. rewrite E1. unfold Cmd.open_output.
  destruct ext as [|x e']; [split; [|congruence]; intros _; exact (proj2 (frame_render None w doc))|]. split; [discriminate|]. intros _. change (f ++ s2b "." ++ x :: e') with (Cmd.outFile (x :: e') f).
  destruct (creatable (Cmd.outFile (x :: e') f)) as [er|]; [split; auto|]. cbn [fst]. destruct (frame_render (Some (Cmd.outFile (x :: e') f)) (set_file w (Cmd.outFile (x :: e') f) (Some [])) doc) as (_ & F1 & F2).
  split; [exact F1|]. intros p Hp. rewrite F2 by exact Hp. apply (put_other w (Cmd.outFile (x :: e') f) []). exact Hp.
Qed.

(** *** What it writes *)
Lemma internal_json : is_internal format = true <-> format = s2b "json".
Proof. apply beq_eq. Qed.
Lemma json_no_ext : format = s2b "json" -> Ext format = [].
Proof. intros ->. reflexivity. Qed.
Lemma template_ext : template_format <-> is_template (Ext format) = true.
Proof.
  unfold template_format, is_template. rewrite orb_true_iff, !beq_eq, <- !Ext_spec. reflexivity.
Qed.
Lemma render_json : forall w dest doc, format = s2b "json" -> render w dest doc = (put w dest (fst (write (held w dest) (printJson doc))), Ok tt).
Proof. intros w dest doc H. unfold Cmd.render. rewrite (json_no_ext H), (proj2 internal_json H). unfold write_to. destruct (write _ _). reflexivity. Qed.
Lemma render_unknown : forall w dest doc, ~ known_format -> exists e, render w dest doc = (w, Err e).
Proof.
  intros w dest doc H. unfold Cmd.render. destruct (Ext format) as [|d o] eqn:Ex.
  - destruct (is_internal format) eqn:I; [|eauto]. apply internal_json in I. destruct (H (or_introl I)).
  - destruct (is_template (d :: o)) eqn:I; [|eauto]. rewrite <- Ex in I. apply template_ext in I. destruct (H (or_intror I)).
Qed.
Lemma held_new : forall w p, held (set_file w p (Some [])) (Some p) = [].
Proof. intros w p. cbn. rewrite beq_refl. reflexivity. Qed.
Lemma open_ext : forall w f, ext <> [] -> creatable (outFile f) = None -> open_output w f = (set_file w (outFile f) (Some []), inl (Some (outFile f))).
Proof. intros w f H C. unfold Cmd.open_output. destruct ext; [congruence|]. rewrite C. reflexivity. Qed.

(** JSON: the document's text is written; the run of the file succeeds whatever became of the writing. *)
Theorem C83_json : forall w f doc, format = s2b "json" -> extracts w f doc ->
  (ext = [] -> processFile w f = (set_stdout w (fst (write (stdout w) (printJson doc))), Ok tt)) /\
  (ext <> [] -> creatable (f ++ s2b "." ++ ext) = None ->
     snd (processFile w f) = Ok tt /\ files (fst (processFile w f)) (f ++ s2b "." ++ ext) = Some (fst (write [] (printJson doc)))).
Proof.
  intros w f doc Hf H. rewrite (extracts_go w f doc H). split.
  - intros ->. unfold Cmd.open_output. rewrite render_json by exact Hf. reflexivity.
  - intros Hx Hc. change (f ++ s2b "." ++ ext) with (outFile f) in *. rewrite (open_ext w f Hx Hc), render_json by exact Hf. rewrite held_new. split; [reflexivity|].
    cbn [fst put set_file files]. rewrite beq_refl. reflexivity.
Qed.
(** Templates: what the template produces until its first error, or until a write fails, is written; the run of the file succeeds
    exactly if there was no error. *)
Fixpoint written (c : bytes) (ds : list bytes) (e : option bytes) : bytes * option bytes :=
  match ds with
  | [] => (c, e)
  | d :: ds' => match write c d with (c', Some x) => (c', Some x) | (c', None) => written c' ds' e end
  end.
Lemma write_all_written : forall dest ds e w, (match dest with None => True | Some p => files w p <> None end) ->
  let (w', e') := write_all write w dest ds e in let (c, x) := written (held w dest) ds e in e' = x /\ held w' dest = c /\ (match dest with None => True | Some p => files w' p = Some c end).
Proof.
  intros dest ds e. induction ds as [|d ds IH]; intros w Hw; cbn [write_all written].
  { split; [reflexivity|]. split; [reflexivity|]. destruct dest as [p|]; [|exact Logic.I]. cbn. destruct (files w p); congruence. }
  unfold write_to. destruct (write (held w dest) d) as [c [x|]] eqn:Ew.
  - split; [reflexivity|]. destruct dest as [p|]; cbn; [rewrite beq_refl; auto|auto].
  - specialize (IH (put w dest c)). assert (Hc : held (put w dest c) dest = c) by (destruct dest as [p|]; cbn; [rewrite beq_refl|]; reflexivity). rewrite Hc in IH.
    apply IH. destruct dest as [p|]; [|exact Logic.I]. cbn. rewrite beq_refl. discriminate.
Qed.
Theorem C83_template : forall w f doc src t ds e, template_format -> extracts w f doc ->
  parse_template output_template src = inl t -> execute t doc = (ds, e) ->
  (ext = [] -> files w output_template = Some src ->
     stdout (fst (processFile w f)) = fst (written (stdout w) ds e) /\ (snd (processFile w f) = Ok tt <-> snd (written (stdout w) ds e) = None)) /\
  (ext <> [] -> creatable (f ++ s2b "." ++ ext) = None -> f ++ s2b "." ++ ext <> output_template -> files w output_template = Some src ->
     files (fst (processFile w f)) (f ++ s2b "." ++ ext) = Some (fst (written [] ds e)) /\ (snd (processFile w f) = Ok tt <-> snd (written [] ds e) = None)).
Proof.
  intros w f doc src t ds e Hf H Hp He. rewrite (extracts_go w f doc H). apply template_ext in Hf.
  assert (R : forall w1 dest, files w1 output_template = Some src -> render w1 dest doc = match write_all write w1 dest ds e with (w', None) => (w', Ok tt) | (w', Some x) => (w', Err x) end).
  { intros w1 dest H1. unfold Cmd.render. fold output_template. change t_outdir with (s2b "output"). fold output_template. destruct (Ext format) as [|d o]; [discriminate|]. rewrite Hf, H1, Hp, He. reflexivity. }
  split.
  - intros -> Hs. unfold Cmd.open_output. rewrite (R w None Hs). pose proof (write_all_written None ds e w Logic.I) as W.
    destruct (write_all write w None ds e) as [w' e']. cbn [held] in W. destruct (written (stdout w) ds e) as [c x]. destruct W as (-> & W & _). destruct x; (split; [exact W|split; [discriminate || reflexivity|discriminate || reflexivity]]).
  - intros Hx Hc Hn Hs. change (f ++ s2b "." ++ ext) with (outFile f) in *. rewrite (open_ext w f Hx Hc). set (w1 := set_file w (outFile f) (Some [])).
    assert (H1 : files w1 output_template = Some src). { unfold w1. cbn. destruct (beq output_template (outFile f)) eqn:B; [apply beq_eq in B; congruence|exact Hs]. }
    rewrite (R w1 _ H1). pose proof (write_all_written (Some (outFile f)) ds e w1) as W. unfold w1 in W at 1. cbn [set_file files] in W. rewrite beq_refl in W. specialize (W ltac:(discriminate)).
    destruct (write_all write w1 (Some (outFile f)) ds e) as [w' e']. unfold w1 in W. rewrite held_new in W. destruct (written [] ds e) as [c x]. destruct W as (-> & _ & W). destruct x; (split; [exact W|split; [discriminate || reflexivity|discriminate || reflexivity]]).
Qed.
(** A failure does not leave the output file as it was: with an unknown format it is emptied first, whatever it held. *)
Theorem C83_unknown_format : forall w f doc, ~ known_format -> extracts w f doc -> ext <> [] -> creatable (f ++ s2b "." ++ ext) = None ->
  snd (processFile w f) <> Ok tt /\ files (fst (processFile w f)) (f ++ s2b "." ++ ext) = Some [].
Proof.
  intros w f doc Hf H Hx Hc. rewrite (extracts_go w f doc H). change (f ++ s2b "." ++ ext) with (outFile f) in *. rewrite (open_ext w f Hx Hc).
  destruct (render_unknown (set_file w (outFile f) (Some [])) (Some (outFile f)) doc Hf) as (e & ->). split; [discriminate|]. cbn. rewrite beq_refl. reflexivity.
Qed.

(** *** The command: files one after the other, up to the first that fails *)
Inductive converted : world -> list path -> world -> Prop :=
| conv_nil : forall w, converted w [] w
| conv_cons : forall w a w1 rest w2, processFile w a = (w1, Ok tt) -> converted w1 rest w2 -> converted w (a :: rest) w2.
Lemma process_all_ok : forall args w w', process_all New SafeParse marshal parse_template execute join creatable write bad_tpl no_file format ext root w args = (w', 0) <-> converted w args w'.
Proof.
  induction args as [|a args IH]; intros w w'; cbn [process_all].
  - split; [intros H; injection H as <-; constructor|]. intros H. inversion H. reflexivity.
  - destruct (processFile w a) as [w1 [[]|e|]] eqn:P.
    + rewrite IH. split; [intros H; econstructor; eassumption|]. intros H. inversion H; subst. assert (w1 = w2) by congruence. subst. assumption.
    + split; [discriminate|]. intros H. inversion H; subst. congruence.
    + split; [discriminate|]. intros H. inversion H; subst. congruence.
Qed.
Lemma process_all_fail : forall args w w' n, n <> 0 -> (process_all New SafeParse marshal parse_template execute join creatable write bad_tpl no_file format ext root w args = (w', n) <->
  n = 2 /\ exists pre a post w1 w2, args = pre ++ a :: post /\ converted w pre w1 /\ (processFile w1 a = (w2, Crash) /\ w' = w2 \/ exists e, processFile w1 a = (w2, Err e) /\ w' = say w2 e)).
Proof.
  intros args. induction args as [|a args IH]; intros w w' n Hn; cbn [process_all].
  - split; [congruence|]. intros (_ & pre & a & post & w1 & w2 & H & _). destruct pre; discriminate.
  - destruct (processFile w a) as [w1 [[]|e|]] eqn:P.
    + rewrite (IH w1 w' n Hn). split; intros (N & pre & b & post & v1 & v2 & H & C & R); (split; [exact N|]).
      * exists (a :: pre), b, post, v1, v2. split; [rewrite H; reflexivity|]. split; [econstructor; eassumption|exact R].
      * destruct pre as [|a' pre]; injection H as Ha Hr; subst.
        { inversion C; subst. exfalso. destruct R as [(R & _)|(e & R & _)]; congruence. }
        inversion C as [|? ? w1' ? ? Q C']; subst. assert (w1' = w1) by congruence. subst. exists pre, b, post, v1, v2. auto.
    + split.
      * intros H. injection H as <- <-. split; [reflexivity|]. exists [], a, args, w, w1. split; [reflexivity|]. split; [constructor|]. right. eauto.
      * intros (N & pre & b & post & v1 & v2 & H & C & R). destruct pre as [|a' pre]; injection H as Ha Hr; subst.
        { inversion C; subst. destruct R as [(R & _)|(e' & R & ->)]; [congruence|]. rewrite P in R. injection R as -> ->. reflexivity. }
        inversion C; subst. congruence.
    + split.
      * intros H. injection H as <- <-. split; [reflexivity|]. exists [], a, args, w, w1. split; [reflexivity|]. split; [constructor|]. left. auto.
      * intros (N & pre & b & post & v1 & v2 & H & C & R). destruct pre as [|a' pre]; injection H as Ha Hr; subst.
        { inversion C; subst. destruct R as [(R & ->)|(e' & R & ->)]; [|congruence]. rewrite P in R. injection R as ->. reflexivity. }
        inversion C; subst. congruence.
Qed.
Theorem C83_main : forall w args w' n, tplconv w args = (w', n) <->
  args = [] /\ w' = say w help /\ n = 1 \/
  args <> [] /\ n = 0 /\ converted w args w' \/
  n = 2 /\ exists pre a post w1 w2, args = pre ++ a :: post /\ converted w pre w1 /\
    (processFile w1 a = (w2, Crash) /\ w' = w2 \/ exists e, processFile w1 a = (w2, Err e) /\ w' = say w2 e).
Proof.
  intros w args w' n. unfold Cmd.tplconv. destruct args as [|a args].
  - split; [intros H; injection H as <- <-; left; auto|]. intros [(_ & -> & ->)|[(H & _)|(_ & pre & a & post & _ & _ & H & _)]]; [reflexivity|congruence|destruct pre; discriminate].
  - split.
    + intros H. right. destruct (Z.eq_dec n 0) as [->|Hn]; [left; split; [discriminate|]; split; [reflexivity|]; apply process_all_ok; exact H|right; apply process_all_fail; auto].
    + intros [(H & _)|[(_ & -> & H)|(-> & H)]]; [discriminate|apply process_all_ok; exact H|apply process_all_fail; [discriminate|auto]].
Qed.

(** Converting several files gives each the output it gets when converted alone, as long as no output is one of the files read. *)
Definition reads (f p : path) : Prop := p = f \/ (exists e, extension f e /\ p = input_template e) \/ p = output_template.
Lemma write_all_dep : forall p ds e w v, held w (Some p) = held v (Some p) -> snd (write_all write w (Some p) ds e) = snd (write_all write v (Some p) ds e) /\
  (files w p = files v p -> files (fst (write_all write w (Some p) ds e)) p = files (fst (write_all write v (Some p) ds e)) p).
Proof.
  intros p ds e. induction ds as [|d ds IH]; intros w v H; cbn [write_all]; [auto|]. unfold write_to. rewrite <- H.
  destruct (write (held w (Some p)) d) as [c [x|]].
  - cbn. rewrite beq_refl. auto.
  - assert (Hh : held (put w (Some p) c) (Some p) = held (put v (Some p) c) (Some p)) by (cbn; rewrite beq_refl; reflexivity).
    destruct (IH _ _ Hh) as (A & B). split; [exact A|]. intros _. apply B. cbn. rewrite beq_refl. reflexivity.
Qed.
Lemma process_dep : forall w v f, ext <> [] -> ~ reads f (outFile f) -> (forall p, reads f p -> files w p = files v p) ->
  snd (processFile w f) = snd (processFile v f) /\ (snd (processFile w f) = Ok tt -> files (fst (processFile w f)) (outFile f) = files (fst (processFile v f)) (outFile f)).
Proof.
  intros w v f Hx Ho H.
  assert (Hw : forall w' v' doc, (forall p, reads f p -> files w' p = files v' p) -> extracts w' f doc -> extracts v' f doc).
  { intros w' v' doc Hd (i & e & t & g & A1 & A2 & A3 & A4 & A5). exists i, e, t, g. rewrite <- !Hd; [auto|right; left; eauto|left; reflexivity]. }
  unfold Cmd.processFile. rewrite <- (H f) by (left; reflexivity). destruct (files w f) as [input|]; [|split; [reflexivity|discriminate]].
  destruct (Ext_dot f) as [E2|(e & E2)]; rewrite E2; [split; [reflexivity|discriminate]|]. change t_input with (s2b "input"). change t_tpl with (s2b ".tpl"). fold (input_template e).
  rewrite <- (H (input_template e)) by (right; left; exists e; split; [apply Ext_spec; exact E2|reflexivity]).
  destruct (files w (input_template e)) as [tpl|]; [|split; [reflexivity|discriminate]]. destruct (New tpl) as [eng|er|]; try (split; [reflexivity|discriminate]).
  destruct (SafeParse eng input f) as [doc|er|]; try (split; [reflexivity|discriminate]).
  unfold Cmd.open_output. destruct ext as [|x0 e0] eqn:Ee; [congruence|]. rewrite <- Ee in *. clear Hx. destruct (creatable (outFile f)) as [er|]; [split; [reflexivity|discriminate]|].
  set (w1 := set_file w (outFile f) (Some [])). set (v1 := set_file v (outFile f) (Some [])).
  assert (Hh : held w1 (Some (outFile f)) = held v1 (Some (outFile f))) by (unfold w1, v1; rewrite !held_new; reflexivity).
  assert (Hfl : files w1 (outFile f) = files v1 (outFile f)) by (unfold w1, v1; cbn; rewrite beq_refl; reflexivity).
  assert (Hot : files w1 output_template = files v1 output_template).
  { unfold w1, v1. cbn. destruct (beq output_template (outFile f)) eqn:B; [reflexivity|]. apply H. right. right. reflexivity. }
  clearbody w1 v1. unfold Cmd.render. destruct (Ext format) as [|d o].
  - destruct (is_internal format); [|auto]. unfold write_to. rewrite <- Hh. destruct (write _ _) as [c x']. cbn. rewrite beq_refl. auto.
  - destruct (is_template (d :: o)); [|auto]. change t_outdir with (s2b "output"). fold output_template. rewrite <- Hot. destruct (files w1 output_template) as [src|]; [|auto].
    destruct (parse_template output_template src) as [t|]; [|auto]. destruct (execute t doc) as [ds er]. destruct (write_all_dep (outFile f) ds er w1 v1 Hh) as (A & B). specialize (B Hfl).
    destruct (write_all write w1 (Some (outFile f)) ds er) as [w2 [x1|]], (write_all write v1 (Some (outFile f)) ds er) as [v2 [x2|]]; cbn in *; try congruence; split; congruence || auto.
Qed.
Theorem C83_separately : forall args w w', ext <> [] -> converted w args w' ->
  (forall f g, In f args -> In g args -> ~ reads g (f ++ s2b "." ++ ext)) ->
  forall f, In f args -> snd (processFile w f) = Ok tt /\ files w' (f ++ s2b "." ++ ext) = files (fst (processFile w f)) (f ++ s2b "." ++ ext).
Proof.
  intros args w w' Hx H. induction H as [w|w a w1 rest w2 P C IH]; intros Hr f Hf; [destruct Hf|]. change (f ++ s2b "." ++ ext) with (outFile f).
  assert (Fr : forall g p, reads g p -> In g (a :: rest) -> files w1 p = files w p).
  { intros g p Hp Hg. destruct (C83_frame w a) as (_ & F). destruct (F Hx) as (_ & F'). rewrite P in F'. apply F'. intros ->. apply (Hr a g); [left; reflexivity|exact Hg|exact Hp]. }
  assert (Dec : In f rest \/ ~ In f rest) by (destruct (in_dec (list_eq_dec Z.eq_dec) f rest); auto).
  destruct Dec as [Hi|Hi].
  - destruct (IH (fun f g H1 H2 => Hr f g (or_intror H1) (or_intror H2)) f Hi) as (A & B). change (f ++ s2b "." ++ ext) with (outFile f) in B.
    destruct (process_dep w1 w f Hx (Hr f f Hf Hf) (fun p Hp => Fr f p Hp Hf)) as (A' & B'). rewrite <- A', B. auto.
  - destruct Hf as [<-|Hf]; [|contradiction]. rewrite P. split; [reflexivity|]. cbn [fst].
    clear IH Fr P. assert (Hrest : forall g, In g rest -> outFile g <> outFile a).
    { intros g Hg Eq. apply app_inv_tail in Eq. subst. contradiction. }
    induction C as [w1|w1 b w3 rest w2 P C IH]; [reflexivity|]. rewrite IH.
    + destruct (C83_frame w1 b) as (_ & F). destruct (F Hx) as (_ & F'). rewrite P in F'. apply F'. intros Eq. apply (Hrest b); [left; reflexivity|symmetry; exact Eq].
    + intros f' g' [H1|H1] [H2|H2]; apply Hr; try (left; assumption); try (right; right; assumption).
    + intros Hi'. apply Hi. right. exact Hi'.
    + intros g Hg. apply Hrest. right. exact Hg.
Qed.
End Tplconv.

(** ** Instances: the extractor of Extractor.v, a file whose template asks for numbers; documents are shown as their tags. *)
From Verif Require Import Scanner Tokenize Grammar Matcher Compiler Interp Extractor PropScan PropExtract.
Local Open Scope list_scope.
(** an engine is given by the template it was made of *)
Definition xc_new (t : bytes) : Cmd.res bytes :=
  match Cl (xmarker (M := unit)) no_runes no_runes 300 (AutoKw new_akw) PropScan.fresh tt t with ClOk _ _ => Ok t | ClPanic _ => Crash | _ => Err (s2b "no grammar") end.
Definition xc_parse (t code : bytes) (f : path) : Cmd.res (jmap (@xval Empty_set)) :=
  match Cl (xmarker (M := unit)) no_runes no_runes 300 (AutoKw new_akw) PropScan.fresh tt t with
  | ClOk root d =>
      match Extractor.SafeParse gv no_runes no_runes false false (fun _ => true) root d 300 PropScan.fresh code ex_new with PDoc m _ => Ok m | PError _ _ => Err (s2b "no match") | _ => Crash end
  | _ => Crash
  end.
Definition xc_show (m : jmap (@xval Empty_set)) : bytes := match m with Some l => flat_map fst l | None => [] end.
Definition xc_join (l : list path) : path := match l with [a; b; c] => a ++ [47] ++ b ++ [47] ++ c | _ => [] end.
Definition xc_disk (c d : bytes) : bytes * option bytes := (c ++ d, None).
Definition xc_full (c d : bytes) : bytes * option bytes := (c, Some (s2b "no space left on device")).
(** a template is the text it writes before the document *)
Definition xc_exec (t : bytes) (m : jmap (@xval Empty_set)) : list bytes * option bytes := ([t; xc_show m], None).
Definition xc_w0 : world := mkW (fun p =>
  if beq p (s2b "h/input/num.tpl") then Some (s2b "doc = +(INT/v_Int);") else
  if beq p (s2b "h/output/o.html") then Some (s2b "<p>") else
  if beq p (s2b "a.num") then Some (s2b "1 2") else
  if beq p (s2b "b.num") then Some (s2b "x") else
  if beq p (s2b "a.num.out") then Some (s2b "old") else None) [] [].
Definition xc_proc (wr : bytes -> bytes -> bytes * option bytes) (format ext : string) : world -> path -> world * Cmd.res unit :=
  Cmd.processFile xc_new xc_parse (fun m => inl (xc_show m)) (fun _ t => inl t) xc_exec xc_join (fun _ => None) wr (fun _ e => e) (fun p => p) (s2b format) (s2b ext) (s2b "h").
Definition xc_conv (format ext : string) (args : list string) : world * Z :=
  Cmd.tplconv xc_new xc_parse (fun m => inl (xc_show m)) (fun _ t => inl t) xc_exec xc_join (fun _ => None) xc_disk (fun _ e => e) (fun p => p) (s2b format) (s2b ext) (s2b "h") (s2b "Usage") xc_w0 (map s2b args).
Example C83_instance : extracts xc_new xc_parse xc_join (s2b "h") xc_w0 (s2b "a.num") (Some [(s2b "v", JVal (XInt 1))]) /\
  files (fst (xc_proc xc_disk "json" "out" xc_w0 (s2b "a.num"))) (s2b "a.num.out") = Some (s2b "v") /\
  files (fst (xc_proc xc_disk "o.html" "out" xc_w0 (s2b "a.num"))) (s2b "a.num.out") = Some (s2b "<p>v") /\
  stdout (fst (xc_proc xc_disk "json" "" xc_w0 (s2b "a.num"))) = s2b "v" /\
  template_format (s2b "o.html") /\ ~ known_format (s2b "o.txt") /\
  (forall doc, ~ extracts xc_new xc_parse xc_join (s2b "h") xc_w0 (s2b "b.num") doc) /\
  snd (xc_conv "json" "out" ["a.num"; "a.num"]%string) = 0 /\ snd (xc_conv "json" "out" ["a.num"; "b.num"; "a.num"]%string) = 2 /\ snd (xc_conv "json" "out" []) = 1.
Proof.
  split. { exists (s2b "1 2"), (s2b "num"), (s2b "doc = +(INT/v_Int);"), (s2b "doc = +(INT/v_Int);"). split; [vm_compute; reflexivity|]. split; [exists (s2b "a"); split; [reflexivity|]; split; vm_compute; intuition congruence|].
    split; [vm_compute; reflexivity|]. split; vm_compute; reflexivity. }
  split; [vm_compute; reflexivity|]. split; [vm_compute; reflexivity|]. split; [vm_compute; reflexivity|].
  split. { right. exists (s2b "o"). split; [reflexivity|]. split; vm_compute; intuition congruence. }
  split. { intros [H|[H|H]]; [discriminate| |]; apply Ext_spec in H; vm_compute in H; discriminate. }
  split. { intros doc (i & e & t & g & A1 & A2 & A3 & A4 & A5). apply Ext_spec in A2. vm_compute in A2. injection A2 as <-. vm_compute in A1, A3. injection A1 as <-. injection A3 as <-.
    vm_compute in A4. injection A4 as <-. vm_compute in A5. discriminate. }
  split; [vm_compute; reflexivity|]. split; vm_compute; reflexivity.
Qed.
(** A failed conversion may destroy what the output file held, *)
Theorem C83_keeps_old_refuted : snd (xc_proc xc_disk "xml" "out" xc_w0 (s2b "a.num")) <> Ok tt /\
  files xc_w0 (s2b "a.num.out") = Some (s2b "old") /\ files (fst (xc_proc xc_disk "xml" "out" xc_w0 (s2b "a.num"))) (s2b "a.num.out") = Some [].
Proof. split; [vm_compute; discriminate|]. split; vm_compute; reflexivity. Qed.
(** JSON output is reported as written on a full disk, and the same template output is not. *)
Theorem C83_full_disk_refuted : snd (xc_proc xc_full "json" "out" xc_w0 (s2b "a.num")) = Ok tt /\ files (fst (xc_proc xc_full "json" "out" xc_w0 (s2b "a.num"))) (s2b "a.num.out") = Some [] /\
  snd (xc_proc xc_full "o.html" "out" xc_w0 (s2b "a.num")) <> Ok tt.
Proof. split; [vm_compute; reflexivity|]. split; [vm_compute; reflexivity|vm_compute; discriminate]. Qed.
(** Converting files separately and together differs when one's output is another's input. *)
Theorem C83_separately_refuted : snd (xc_proc xc_disk "json" "num" xc_w0 (s2b "a.num")) = Ok tt /\
  snd (xc_proc xc_disk "json" "num" (fst (xc_proc xc_disk "json" "num" xc_w0 (s2b "a.num"))) (s2b "a.num.num")) = Err (s2b "no match") /\
  snd (xc_proc xc_disk "json" "num" xc_w0 (s2b "a.num.num")) = Err (s2b "a.num.num").
Proof. split; [vm_compute; reflexivity|]. split; vm_compute; reflexivity. Qed.

Print Assumptions C83_unread.
Print Assumptions C83_refused.
Print Assumptions C83_frame.
Print Assumptions C83_json.
Print Assumptions C83_template.
Print Assumptions C83_unknown_format.
Print Assumptions C83_main.
Print Assumptions C83_separately.
Print Assumptions C83_keeps_old_refuted.
Print Assumptions C83_full_disk_refuted.
Print Assumptions C83_separately_refuted.
