(** Property C64: GenStaticCode.  Specification file: GenSpec.v (a reader for the Go text, and [faithful]). *)
From Coq Require Import String Permutation.
From Verif Require Import Base Token Utf8 Utf8Proofs Scanner ScannerSpec ScannerProofs ScanRun Tokenize TokenizeProofs Grammar Matcher MatcherProofs PropScan PegSpec MatchProofs MatchProofs2 PegTools Compiler GramSyntax CompilerProofs CompilerBack CompilerTop CompilerMore CompilerDen PropCompiler.
From Verif Require Import Gen GenSpec GenProofs GenRead GenTop.
Local Open Scope Z_scope.

Definition scanner : tokener := AutoKw (mkKw [] None).
(** GenStaticCode's result: what it is from some number of steps on. *)
Definition generates (isL isD : Z -> bool) (old : sc) (src : bytes) (r : genres) : Prop :=
  r <> GenFuel /\ exists F, forall f, (F <= f)%nat -> GenStaticCode isL isD f old src = r.
Lemma generates_unique : forall isL isD old src r r', generates isL isD old src r -> generates isL isD old src r' -> r = r'.
Proof. intros isL isD old src r r' (_ & F & H) (_ & F' & H'). rewrite <- (H (Nat.max F F')), <- (H' (Nat.max F F')) by lia. reflexivity. Qed.
Lemma generates_run : forall isL isD old src f r, GenStaticCode isL isD f old src = r -> r <> GenFuel -> generates isL isD old src r.
Proof.
  intros isL isD old src f r H Hr. split; [exact Hr|]. exists f. intros f' Hf. rewrite <- H, !gen_unfold.
  rewrite gen_unfold in H. destruct (Tokenize isL isD false true _ old src) as [ts eof| |]; try reflexivity.
  rewrite (gmatch_mono meta_env (lift gclient) f f' Hf); [reflexivity|]. intro E. rewrite E in H. congruence.
Qed.

(** GenStaticCode ends on every source, *)
Theorem C64_terminates : forall isL isD old src, Forall byte src -> exists r, generates isL isD old src r.
Proof.
  intros isL isD old src Hb. assert (Hk : tk_ok scanner) by (intros x v H; discriminate).
  destruct (Tokenize_spec isL isD false true src Hb scanner old Hk) as (n & ts & t & s' & _ & _ & _ & _ & [(_ & _ & E)|(es & e & _ & E)]).
  - destruct (meta_total (map (tk_scan scanner) ts)) as (o & tr & P). destruct (proj1 (sim_all meta_env gclient) _ _ _ _ P) as (F & HF).
    set (s0 := mkSt (fun _ => 0) (mkGs [] gd0)) in *.
    assert (NF : gmatch meta_env (lift gclient) F m_doc (map (tk_scan scanner) ts) s0 <> OutOfFuel).
    { specialize (HF F (Nat.le_refl _) s0). intro Hx. rewrite Hx in HF. destruct HF as [(p & s1 & E1 & _)|HF]; [discriminate|].
      destruct o; [destruct HF as (s1 & E1 & _)|destruct HF as (k & e & s1 & E1 & _)|destruct HF as (p & s1 & E1 & _)]; discriminate. }
    exists (GenStaticCode isL isD F old src). apply (generates_run isL isD old src F); [reflexivity|]. unfold scanner in *.
    rewrite gen_unfold, E. fold s0. destruct (gmatch _ _ F m_doc _ _) as [k [e|] s1|p s1|]; try discriminate; try congruence.
    destruct (skipn k _); [|discriminate]. unfold gen_finish. destruct (find _ _); discriminate.
  - exists (GenTokErr e). apply (generates_run isL isD old src 0%nat); [|discriminate]. unfold scanner in *. rewrite gen_unfold, E. reflexivity.
Qed.
(** reports the scanning errors Cl reports, *)
Theorem C64_token_error : forall (A T PM M : Type) marker isL isD old (m : M) src e,
  compiles_to (A := A) (T := T) (PM := PM) marker isL isD scanner old m src (ClTokErr e) <-> generates isL isD old src (GenTokErr e).
Proof.
  intros A T PM M marker isL isD old m src e. split; intros (_ & F & H); (split; [discriminate|]); exists F; intros f Hf; specialize (H f Hf); unfold scanner in *.
  - rewrite cl_unfold in H. rewrite gen_unfold. destruct (Tokenize isL isD false true _ old src) as [ts eof|ts e'|]; [|congruence|discriminate]. exfalso.
    destruct (gmatch _ _ _ _ _ _) as [n [e1|] s1|p s1|]; try discriminate. destruct (skipn n ts); [|discriminate]. unfold cl_finish in H. destruct (find _ _); [|discriminate]. destruct (unassigned _); discriminate.
  - rewrite gen_unfold in H. rewrite cl_unfold. destruct (Tokenize isL isD false true _ old src) as [ts eof|ts e'|]; [|congruence|discriminate]. exfalso.
    destruct (gmatch _ _ _ _ _ _) as [n [e1|] s1|p s1|]; try discriminate. destruct (skipn n ts); [|discriminate]. unfold gen_finish in H. destruct (find _ _); discriminate.
Qed.

(** the grammar [d] has for a name, in a table of Cl's result *)
Definition in_table {A T : Type} (l : list (bytes * gr A T)) (n : bytes) : gr A T := match find n l with Some g => erase g | None => GNil end.
(** and, for a faithful source Cl accepts, writes a program that declares Cl's variables and named rules and assigns to each the grammar
    that Cl builds for it, in whatever order Go iterates over the maps. *)
Theorem C64_faithful : forall (A T PM M : Type) (marker : gr A T -> bytes -> M -> (gr A T * M) + (PM * M)) w,
  (forall g n m g' m', marker g n m = inl (g', m') -> erase g' = w n (erase g)) ->
  forall isL isD old m src rs root d, text_of isL isD scanner old src rs -> faithful rs -> compiles_to marker isL isD scanner old m src (ClOk root d) ->
  exists vars grams, generates isL isD old src (GenOk vars grams) /\
    map fst vars = map fst (d_vars d) /\ map fst grams = map fst (d_grams d) /\ NoDup (map fst vars ++ map fst grams) /\
    forall vs gs, Permutation vars vs -> Permutation grams gs ->
    exists body, gen_output vs gs = gen_head ++ body ++ gen_tail /\
      read_body w body = Some
        (map (fun p => (fst p, false)) vs ++ map (fun p => (fst p, true)) gs,
         map (fun p => (fst p, None, in_table (d_vars d) (fst p))) vs ++ map (fun p => (fst p, Some (fst p), in_table (d_grams d) (fst p))) gs).
Proof.
  intros A T PM M marker w Hw isL isD old m src rs root d Hx [Hf Hl] Hc. unfold scanner in *.
  destruct (C33_only_rules_compile _ _ _ _ _ _ _ _ _ Hc) as (rs' & Hx' & E & Hd). rewrite <- (C32_one_reading _ _ _ _ _ _ _ Hx Hx') in E. clear Hx' rs'.
  assert (Hu : unassigned d = []).
  { pose proof (compiles_unique _ _ _ _ _ _ _ _ _ Hc (C32_compiles marker isL isD _ old m src rs Hx)) as X. rewrite E in X. unfold cl_finish in X. rewrite Hd in X. destruct (unassigned d); [reflexivity|discriminate]. }
  destruct Hx as (Ho & ts & eof & Ht & Hs).
  assert (Hn : forall r, In r rs -> go_name (fst r) = true /\ plain_gram (snd r) = true) by (intros r Hr; rewrite forallb_forall in Hf; specialize (Hf r Hr); apply andb_true_iff in Hf; exact Hf).
  assert (Hp : forallb (fun r => plain_gram (snd r)) rs = true) by (apply forallb_forall; intros r Hr; apply Hn; exact Hr).
  assert (Hr : forall n, In n (flat_map (fun r => refs_gram (snd r)) rs) -> go_name n = true).
  { intros n H. apply in_flat_map in H. destruct H as (r & H1 & H2). eapply refs_gram_go; [apply Hn; exact H1|exact H2]. }
  assert (Ho2 : forallb (fun r => ok_gram (snd r)) rs = true) by (unfold ok_doc in Ho; apply andb_true_iff in Ho; apply Ho).
  (* once with any name of Go, to know which names are declared *)
  destruct (REL_doc marker w Hw go_name (fun n H => H) rs [] _ d gd0 (REL0 w go_name m) Ho2 Hp Hr Hl E) as (e & Ee & HR0).
  cbn [app] in HR0.
  set (declared := fun n => mem n (map fst (g_vars e) ++ map fst (g_grams e))).
  assert (Keys : forall n, known_name e n <-> declared n = true).
  { intro n. unfold known_name, declared. rewrite mem_in, in_app_iff. destruct (find n (g_grams e)) as [x|] eqn:E1; destruct (find n (g_vars e)) as [y|] eqn:E2;
      [| |split; [|right; discriminate]|]; try (split; [|left; discriminate]); intros _ || idtac.
    - right. apply find_in in E1. apply in_map_iff. exists (n, x). auto.
    - right. apply find_in in E1. apply in_map_iff. exists (n, x). auto.
    - left. apply find_in in E2. apply in_map_iff. exists (n, y). auto.
    - apply find_none in E1, E2. split; [intros [H|H]; congruence|intros [H|H]; contradiction]. }
  destruct HR0 as (K1 & U1 & U2 & N1 & N2 & N3 & _ & _ & _).
  assert (Hdg : forall n, declared n = true -> go_name n = true).
  { intros n H. apply Keys in H. destruct H as [H|H].
    - apply N2 in H. unfold names in H. apply in_map_iff in H. destruct H as (r & <- & H). apply Hn. exact H.
    - destruct (find n (g_vars e)) as [s|] eqn:F; [|congruence]. destruct (N3 _ _ F) as ((a1 & r & a2 & -> & H1 & _) & _). eapply refs_gram_go; [apply Hn; apply in_app_iff; right; left; reflexivity|exact H1]. }
  assert (Hdr : forall n, In n (flat_map (fun r => refs_gram (snd r)) rs) -> declared n = true) by (intros n H; apply Keys, N1; auto).
  (* and again with these *)
  destruct (REL_doc marker w Hw declared Hdg rs [] _ d gd0 (REL0 w declared m) Ho2 Hp Hdr Hl E) as (e' & Ee' & HR).
  assert (e' = e) by congruence. subst e'. cbn [app] in HR. destruct HR as (_ & _ & _ & _ & _ & _ & HG & HV & HD).
  exists (g_vars e), (g_grams e). destruct K1 as (KA & KB & _).
  split; [|split; [congruence|split; [congruence|split]]].
  - split; [discriminate|]. destruct (gen_doc isL isD old src ts eof rs Ht Ho Hs) as (F & HF). exists F. intros f Hff. rewrite (HF f Hff), Ee. unfold gen_finish.
    pose proof (find_keys _ _ _ _ n_doc KA) as FK. destruct (find n_doc (g_grams e)); [reflexivity|]. destruct FK as [_ FK]. rewrite (FK eq_refl) in Hd. discriminate.
  - assert (DJ : forall n, In n (map fst (g_vars e)) -> ~ In n (map fst (g_grams e))).
    { intros n H. apply find_none, HD. intro H1. apply find_none in H1. contradiction. }
    clear -U1 U2 DJ. induction (g_vars e) as [|p l IH]; [exact U2|]. cbn [map app] in *. inversion U1 as [|? ? Hi Hl]; subst. constructor.
    + rewrite in_app_iff. intros [H|H]; [contradiction|]. exact (DJ _ (or_introl eq_refl) H).
    + apply IH; [exact Hl|]. intros n H. apply DJ. right. exact H.
  - intros vs gs Pv Pg. exists (body vs gs). split; [apply output_body|].
    assert (Nv : NoDup (map fst vs)) by (apply (Permutation_NoDup (Permutation_map fst Pv)); exact U1).
    assert (Fv : forall n s, In (n, s) vs -> find n (g_vars e) = Some s).
    { intros n s H. apply (Permutation_in _ (Permutation_sym Pv)) in H. clear -U1 H. induction (g_vars e) as [|[k v] l IH]; [contradiction|]. inversion U1 as [|? ? Hi Hl]; subst. cbn [find].
      destruct H as [[= -> ->]|H]; [rewrite beq_refl; reflexivity|]. destruct (beq n k) eqn:B; [|auto]. apply beq_eq in B. subst k. exfalso. apply Hi. apply in_map_iff. exists (n, s). auto. }
    assert (Fg : forall n s, In (n, s) gs -> find n (g_grams e) = Some s).
    { intros n s H. apply (Permutation_in _ (Permutation_sym Pg)) in H. clear -U2 H. induction (g_grams e) as [|[k v] l IH]; [contradiction|]. inversion U2 as [|? ? Hi Hl]; subst. cbn [find].
      destruct H as [[= -> ->]|H]; [rewrite beq_refl; reflexivity|]. destruct (beq n k) eqn:B; [|auto]. apply beq_eq in B. subst k. exfalso. apply Hi. apply in_map_iff. exists (n, s). auto. }
    apply (body_reads w vs gs declared).
    + intro n. unfold declared. assert (X : Permutation (map fst (g_vars e) ++ map fst (g_grams e)) (map fst vs ++ map fst gs)) by (apply Permutation_app; apply Permutation_map; assumption).
      apply eq_true_iff_eq. rewrite !mem_in. split; apply Permutation_in; [exact X|apply Permutation_sym; exact X].
    + intros n H. apply Hdg. unfold declared. apply mem_in. apply in_app_iff in H. apply in_app_iff. destruct H as [H|H]; [left|right]; (eapply Permutation_in; [apply Permutation_map, Permutation_sym; eassumption|exact H]).
    + intros n s H. apply Fv in H. destruct (HV n s H) as (v & Hv & X). unfold in_table. rewrite Hv. destruct X as [(-> & _)|X]; [|exact X]. exfalso.
      apply find_in in Hv. assert (Y : In n (unassigned d)) by (unfold unassigned; apply in_map_iff; exists (n, GNil); split; [reflexivity|apply filter_In; split; [exact Hv|reflexivity]]). rewrite Hu in Y. contradiction.
    + intros n t H. apply Fg in H. destruct (HG n t H) as (g & Hg & X). unfold in_table. rewrite Hg. exact X.
Qed.

(** ** A faithful source *)
Definition wrap (g : gr bytes Empty_set) (n : bytes) (m : unit) : (gr bytes Empty_set * unit) + (Empty_set * unit) := inl (GAct g n, m).
Definition wrapped (n : bytes) (g : gr bytes Empty_set) : gr bytes Empty_set := GAct g n.
Definition old0 : sc := PropScan.fresh.
Definition cl_of (text : string) := Cl wrap no_runes no_runes 300 scanner old0 tt (s2b text).
Definition gen_of (text : string) := GenStaticCode no_runes no_runes 300 old0 (s2b text).
(** the middle of what GenStaticCode returns, with the maps in order of insertion *)
Definition middle (text : string) : bytes := match gen_of text with GenOk v g => body v g | _ => [] end.
Definition ex_text : string := "term = factor *('*' factor/mul | '/' factor/quo); doc = term % ',' ; factor = INT/push | '(' term ')' | ?'-' @CHAR ~(FLOAT ! 1) ;".
Definition id (s : string) : item := ITerm (FIdent (s2b s)) [].
Definition ch (c : Z) : item := ITerm (FChar [39; c; 39]) [].
Definition ex_rules : list rule := [
  (s2b "term", [[id "factor"; ITerm (FPre PStar (FParen [[ch 42; ITerm (FIdent (s2b "factor")) [SMark (s2b "mul")]]; [ch 47; ITerm (FIdent (s2b "factor")) [SMark (s2b "quo")]]])) []]]);
  (s2b "doc", [[ITerm (FIdent (s2b "term")) [SList (FChar [39; 44; 39])]]]);
  (s2b "factor", [[ITerm (FIdent (s2b "INT")) [SMark (s2b "push")]]; [ch 40; id "term"; ch 41];
     [ITerm (FPre POpt (FChar [39; 45; 39])) []; ITerm (FPre PPeek (FIdent (s2b "CHAR"))) []; ITerm (FPre PNot (FParen [[id "FLOAT"; IBang; ITerm (FInt [49]) []]])) []]])].
Example ex_is_text : text_of no_runes no_runes scanner old0 (s2b ex_text) ex_rules.
Proof. split; [reflexivity|]. eexists _, _. split; [vm_compute; reflexivity|reflexivity]. Qed.
Example ex_faithful : faithful ex_rules.
Proof.
  split; [reflexivity|]. intros a r b n E Hi Hn (a1 & r1 & a2 & Ea & H1 & H2).
  destruct a as [|x [|y [|z a]]]; unfold ex_rules in E; cbn [app] in E; injection E; [intros; contradiction| | |intros; destruct a; discriminate].
  - intros _ Er Ex. subst r x. destruct a1 as [|x1 a1]; cbn [app] in Ea; injection Ea; [|intros; destruct a1; discriminate].
    intros _ Er1. subst r1. vm_compute in Hi, H1. destruct Hi as [<-|[]]. repeat destruct H1 as [H1|H1]; discriminate || contradiction.
  - intros _ Er Ey Ex. subst r x y. vm_compute in Hi. destruct Hi as [<-|[]]. destruct a1 as [|x1 a1]; cbn [app] in Ea; injection Ea.
    + intros _ Er1. subst r1. vm_compute in H1. repeat destruct H1 as [H1|H1]; discriminate || contradiction.
    + intros _ Ex1. subst x1. apply H2. left. reflexivity.
Qed.
Example ex_compiles : exists root d, compiles_to wrap no_runes no_runes scanner old0 tt (s2b ex_text) (ClOk root d) /\
  read_body wrapped (middle ex_text) = Some
    ([(s2b "factor", false); (s2b "term", true); (s2b "doc", true)],
     [(s2b "factor", None, in_table (d_vars d) (s2b "factor")); (s2b "term", Some (s2b "term"), in_table (d_grams d) (s2b "term")); (s2b "doc", Some (s2b "doc"), in_table (d_grams d) (s2b "doc"))]) /\
  in_table (d_grams d) (s2b "doc") = GList 0 (GVar (s2b "term")) (GTok 44) false.
Proof.
  eexists _, _. split; [eapply (compiles_run wrap no_runes no_runes scanner old0 tt (s2b ex_text) 300); [vm_compute; reflexivity|discriminate]|].
  split; vm_compute; reflexivity.
Qed.

(** ** The other sources Cl accepts *)
(** Cl accepts the text, the generator returns a program for it, and that is no Go. *)
Definition no_go (text : string) : Prop :=
  exists root d vs gs, cl_of text = ClOk root d /\ gen_of text = GenOk vs gs /\ gen_output vs gs = gen_head ++ body vs gs ++ gen_tail /\ read_body wrapped (body vs gs) = None.
Ltac refute := eexists _, _, _, _; split; [vm_compute; reflexivity|split; [vm_compute; reflexivity|split; [apply output_body|vm_compute; reflexivity]]].
(** +G is written tpl.tpl.Repeat1(G) *)
Theorem C64_plus_refuted : no_go "doc = +INT;".
Proof. refute. Qed.
(** a rule used before and after its definition is written x.Assign(...) where it is used after *)
Theorem C64_late_use_refuted : no_go "a = x; x = INT; doc = a x;".
Proof. refute. Qed.
(** true makes a variable of that name, and a statement that is an expression *)
Theorem C64_true_refuted : no_go "doc = true;".
Proof. refute. Qed.
(** names of rules become names of variables *)
Theorem C64_names_refuted : no_go "type = INT; doc = type;" /\ no_go "tpl = INT; doc = tpl;".
Proof. split; refute. Qed.
(** Quoted operators and keywords are all written tpl.Gr(tpl.STRING): a program, for another grammar. *)
Theorem C64_operators_refuted : exists root d vs gs, cl_of "doc = ""<="";" = ClOk root d /\ gen_of "doc = ""<="";" = GenOk vs gs /\
  read_body wrapped (body vs gs) = Some ([(n_doc, true)], [(n_doc, Some n_doc, GTok STRING)]) /\ in_table (d_grams d) n_doc = GTok LE.
Proof. eexists _, _, _, _. split; [vm_compute; reflexivity|split; [vm_compute; reflexivity|split; vm_compute; reflexivity]]. Qed.
(** Cl rejects a rule that is used and not defined; the generator does not. *)
Theorem C64_unassigned_refuted : exists vs gs, cl_of "doc = x;" = ClUnassigned [s2b "x"] /\ gen_of "doc = x;" = GenOk vs gs /\ read_body wrapped (body vs gs) = None.
Proof. eexists _, _. split; [vm_compute; reflexivity|split; vm_compute; reflexivity]. Qed.

Print Assumptions C64_terminates.
Print Assumptions C64_token_error.
Print Assumptions C64_faithful.
Print Assumptions C64_plus_refuted.
Print Assumptions C64_late_use_refuted.
Print Assumptions C64_true_refuted.
Print Assumptions C64_names_refuted.
Print Assumptions C64_operators_refuted.
Print Assumptions C64_unassigned_refuted.
