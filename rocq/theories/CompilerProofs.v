(** The compiler's stack machine, driven by its meta grammar, elaborates syntax trees (C31-C36). *)
From Coq Require Import String.
From Verif Require Import Base Token Utf8 Scanner Tokenize Grammar Matcher PegSpec MatchProofs MatchProofs2 MatchProofs3 Wf PegTools Compiler GramSyntax.

(** ** Induction over syntax trees *)
Section Ind.
Variables (Pf : factor -> Prop) (Pi : item -> Prop) (Ps : suffix -> Prop).
Hypothesis Hident : forall n, Pf (FIdent n).
Hypothesis Hchar : forall l, Pf (FChar l).
Hypothesis Hstring : forall l, Pf (FString l).
Hypothesis Hint : forall l, Pf (FInt l).
Hypothesis Hpre : forall o f, Pf f -> Pf (FPre o f).
Hypothesis Hparen : forall g, Forall (Forall Pi) g -> Pf (FParen g).
Hypothesis Hbang : Pi IBang.
Hypothesis Hterm : forall f ss, Pf f -> Forall Ps ss -> Pi (ITerm f ss).
Hypothesis Hlist : forall f, Pf f -> Ps (SList f).
Hypothesis Hlist0 : forall f, Pf f -> Ps (SList0 f).
Hypothesis Hmark : forall n, Ps (SMark n).
Fixpoint factor_ind' (f : factor) : Pf f :=
  match f with
  | FIdent n => Hident n
  | FChar l => Hchar l
  | FString l => Hstring l
  | FInt l => Hint l
  | FPre o f1 => Hpre o f1 (factor_ind' f1)
  | FParen g => Hparen g
      ((fix go g := match g return Forall (Forall Pi) g with
        | [] => Forall_nil _
        | e :: g' => Forall_cons e ((fix go2 e := match e return Forall Pi e with [] => Forall_nil _ | i :: e' => Forall_cons i (item_ind' i) (go2 e') end) e) (go g')
        end) g)
  end
with item_ind' (i : item) : Pi i :=
  match i with
  | IBang => Hbang
  | ITerm f ss => Hterm f ss (factor_ind' f)
      ((fix go ss := match ss return Forall Ps ss with [] => Forall_nil _ | s :: ss' => Forall_cons s (suffix_ind' s) (go ss') end) ss)
  end
with suffix_ind' (s : suffix) : Ps s :=
  match s with
  | SList f => Hlist f (factor_ind' f)
  | SList0 f => Hlist0 f (factor_ind' f)
  | SMark n => Hmark n
  end.
Lemma syntax_ind : (forall f, Pf f) /\ (forall i, Pi i) /\ (forall s, Ps s).
Proof. split; [exact factor_ind'|]. split; [exact item_ind'|exact suffix_ind']. Qed.
End Ind.

(** ** First tokens *)
Definition first_factor : list Z := [IDENT; CHAR; STRING; INT; 42; 43; 63; 126; 64; 40].
Definition first_item : list Z := 33 :: first_factor.
Definition first_suffix : list Z := [37; REM_ASSIGN; 47].
Definition hd_in (ks : list Z) (l : list sig) : Prop := match l with s :: _ => In (fst s) ks | [] => False end.

Lemma r_factor_first : forall f, hd_in first_factor (r_factor f).
Proof. destruct f as [| | | |[] ?|]; simpl; auto 12. Qed.
Lemma r_item_first : forall i, hd_in first_item (r_item i).
Proof. destruct i as [|f ss]; [left; reflexivity|]. cbn [r_item]. pose proof (r_factor_first f) as H. destruct (r_factor f); [contradiction|]. right. exact H. Qed.
Lemma r_suffix_first : forall s, hd_in first_suffix (r_suffix s).
Proof. destruct s; simpl; auto. Qed.

Definition sigs (ts : list token) : list sig := map sig_of ts.
Lemma sigs_app : forall ts a b, sigs ts = a ++ b -> exists ts1 ts2, ts = ts1 ++ ts2 /\ sigs ts1 = a /\ sigs ts2 = b.
Proof.
  intros ts a. revert ts. induction a as [|s a IH]; intros ts b H.
  - exists [], ts. auto.
  - destruct ts as [|t ts]; [discriminate|]. injection H as H1 H2. destruct (IH ts b H2) as (ts1 & ts2 & -> & E1 & E2).
    exists (t :: ts1), ts2. unfold sigs in *. cbn [map app]. rewrite E1, H1. auto.
Qed.
Lemma sigs_cons : forall ts s b, sigs ts = s :: b -> exists t ts', ts = t :: ts' /\ sig_of t = s /\ sigs ts' = b.
Proof. intros [|t ts] s b H; [discriminate|]. injection H as H1 H2. eauto. Qed.
Lemma sigs_nil : forall ts, sigs ts = [] -> ts = [].
Proof. intros [|t ts] H; [reflexivity|discriminate]. Qed.
Lemma sig_kind : forall t k l, sig_of t = (k, l) -> tkind t = k.
Proof. intros t k l H. unfold sig_of in H. congruence. Qed.
Lemma sig_lit : forall t k l, sig_of t = (k, l) -> has_lit k = true -> tlit t = l.
Proof. intros t k l H Hk. unfold sig_of in H. injection H as <- <-. rewrite Hk. reflexivity. Qed.

(** the first of several items decides the next token *)
Lemma hdk_sigs : forall ts rest s b, sigs ts = s :: b -> hdk (ts ++ rest) = Some (fst s).
Proof. intros ts rest s b H. apply sigs_cons in H. destruct H as (t & ts' & -> & <- & _). reflexivity. Qed.
Lemma hd_in_hdk : forall ks ts rest l, hd_in ks l -> sigs ts = l -> exists k, hdk (ts ++ rest) = Some k /\ In k ks.
Proof. intros ks ts rest [|s l] H E; [contradiction|]. exists (fst s). split; [eapply hdk_sigs; exact E|exact H]. Qed.

(** ** Effects of traces *)
Section Forward.
Context {A T PM M : Type}.
Notation G := (gr A T).
Notation D := (dst A T M).
Variable marker : G -> bytes -> M -> (G * M) + (PM * M).
Notation u := (cclient marker).
Notation runs := (run (T := Empty_set) u).
Notation par := (parses meta_env).
Notation rp := (parses_rep meta_env).
Notation tr_t := (list (@ev cact Empty_set)).

(** [effect pre tr m post]: running [tr] does what [m] says, from stack [pre s] to stack [post y s] *)
Definition effect {Y : Type} (pre : list G -> list G) (tr : tr_t) (m : el Y) (post : Y -> list G -> list G) : Prop :=
  forall s (d : D) vs,
    match m d with
    | inl (y, d') => runs tr vs (mkC (pre s) d) = inl (vs, mkC (post y s) d')
    | inr p => exists x', runs tr vs (mkC (pre s) d) = inr (PUser p, x')
    end.
Notation same := (fun s : list G => s).
Notation push := (fun (x : G) (s : list G) => x :: s).

Lemma effect_bind : forall X Y pre tr1 (m : el X) post1 tr2 (k : X -> el Y) post2,
  effect pre tr1 m post1 -> (forall x, effect (post1 x) tr2 (k x) post2) -> effect pre (tr1 ++ tr2) (bind m k) post2.
Proof.
  intros X Y pre tr1 m post1 tr2 k post2 H1 H2 s d vs. unfold bind. specialize (H1 s d vs). rewrite run_app.
  destruct (m d) as [[x d']|p].
  - rewrite H1. apply H2.
  - destruct H1 as (x' & ->). eauto.
Qed.
Lemma effect_ret : forall Y (y : Y) pre post, (forall s, pre s = post y s) -> effect pre [] (ret y) post.
Proof. intros Y y pre post H s d vs. unfold ret. cbn [run]. rewrite H. reflexivity. Qed.
Lemma effect_ext : forall Y pre tr (m m' : el Y) post, (forall d, m d = m' d) -> effect pre tr m post -> effect pre tr m' post.
Proof. intros Y pre tr m m' post E H s d vs. specialize (H s d vs). rewrite E in H. exact H. Qed.
(** one more action after a computed value *)
Lemma effect_step : forall X Y pre tr (m : el X) post1 a ts l (k : X -> el Y) post2,
  effect pre tr m post1 -> (forall x, effect (post1 x) [EvAct a ts l] (k x) post2) -> effect pre (tr ++ [EvAct a ts l]) (bind m k) post2.
Proof. intros. eapply effect_bind; eauto. Qed.

Lemma eff_token : forall a t rest, a = CGr -> effect same [EvAct a [t] rest] (the_token (tlit t)) push.
Proof.
  intros a t l -> s d vs. cbn [run]. unfold the_token. cbn [u_act cclient c_action lit0]. unfold c_token. cbn [cd stk].
  destruct (tk_ltot (d_tk d) (tlit t)) as [[tok k]|]; [|eexists; reflexivity].
  destruct (tok =? ILLEGAL); [eexists; reflexivity|reflexivity].
Qed.
Lemma eff_name : forall t l, effect same [EvAct CIdent [t] l] (the_name (tlit t)) push.
Proof.
  intros t l s d vs. cbn [run]. unfold the_name. cbn [u_act cclient c_action lit0]. unfold c_ident. cbn [cd stk].
  destruct (tlit t) as [|ch r] eqn:E; [eexists; reflexivity|].
  destruct ((65 <=? ch) && (ch <=? 90)).
  - unfold the_token, c_token. cbn [cd stk]. destruct (tk_ltot (d_tk d) (ch :: r)) as [[tok k]|]; [|eexists; reflexivity].
    destruct (tok =? ILLEGAL); [eexists; reflexivity|reflexivity].
  - destruct (find (ch :: r) (d_grams d)); [reflexivity|]. destruct (find (ch :: r) (d_vars d)); [reflexivity|].
    destruct (beq (ch :: r) n_true); reflexivity.
Qed.
Lemma eff_int : forall t l, effect same [EvAct CGrTrue [t] l] (if beq (tlit t) [49] then ret GTrue else fails (CPIllegal (tlit t))) push.
Proof.
  intros t l s d vs. cbn [run]. cbn [u_act cclient c_action lit0]. destruct (beq (tlit t) [49]); [reflexivity|]. eexists. reflexivity.
Qed.
Definition pre_act (o : preop) : cact := match o with PStar => CRepeat0 | PPlus => CRepeat1 | POpt => CRepeat01 | PNot => CNot | PPeek => CPeek end.
Lemma eff_pre : forall o g ts l, effect (push g) [EvAct (pre_act o) ts l] (prefix o g) push.
Proof. intros o g ts l s d vs. destruct o; reflexivity. Qed.
Lemma eff_list : forall g b ts l, effect (fun s => b :: g :: s) [EvAct CList ts l] (bind fresh (fun i => ret (GList i g b false))) push.
Proof. intros g b ts l s d vs. reflexivity. Qed.
Lemma eff_list0 : forall g b ts l, effect (fun s => b :: g :: s) [EvAct CList0 ts l] (bind fresh (fun i => ret (GList i g b true))) push.
Proof. intros g b ts l s d vs. reflexivity. Qed.
Lemma eff_mark : forall g t l, effect (push g) [EvAct CMark [t] l] (the_mark marker g (tlit t)) push.
Proof.
  intros g t l s d vs. cbn [run u_act cclient c_action lit0 stk]. unfold the_mark. cbn [cd].
  destruct (marker g (tlit t) (d_m d)) as [[g' m]|[p m]]; [reflexivity|]. eexists. reflexivity.
Qed.
Lemma eff_group : forall a mk ts gs, (a = CAnd /\ mk = (fun gs => GAnd gs)) \/ (a = COr /\ mk = (fun gs : list G => GOr gs)) -> gs <> [] ->
  effect (fun s => rev gs ++ s) [EvAct a ts (Z.of_nat (length gs))] (ret (group mk gs)) push.
Proof.
  intros a mk ts gs Ha Hne s d vs. unfold ret.
  assert (E : forall x, u_act u a ts (Z.of_nat (length gs)) x = c_multi mk (Z.of_nat (length gs)) x) by (intro x; destruct Ha as [[-> ->]|[-> ->]]; reflexivity).
  cbn [run]. rewrite E. unfold c_multi, group.
  destruct gs as [|g [|g2 gs]]; [congruence|reflexivity|]. set (l := g :: g2 :: gs).
  assert (L : (2 <= Z.of_nat (length l))) by (unfold l; cbn [length]; lia).
  destruct (Z.eqb_spec (Z.of_nat (length l)) 1) as [Hx|_]; [lia|]. cbn [stk cd].
  destruct (Z.ltb_spec (Z.of_nat (length l)) 1) as [Hx|_]; [lia|]. cbn [orb].
  rewrite app_length, rev_length.
  destruct (Z.ltb_spec (Z.of_nat (length l + length s)) (Z.of_nat (length l))) as [Hx|_]; [lia|].
  rewrite Nat2Z.id. cbn [ok].
  rewrite <- (rev_length l) at 1 2. rewrite firstn_here, skipn_here, rev_involutive. unfold l. reflexivity.
Qed.

(** ** The meta grammar parses what the syntax tree spells *)
Definition Ff (f : factor) : Prop := forall ts rest, ok_factor f = true -> sigs ts = r_factor f ->
  exists tr, par m_factor ts rest (-1) tr /\ forall pre, effect pre tr (e_factor marker f) (fun x s => x :: pre s).
Definition Fs (x : suffix) : Prop := forall ts rest, ok_suffix x = true -> sigs ts = r_suffix x ->
  exists tr, par m_suffix ts rest 3 tr /\ forall g, effect (push g) tr (e_suffix marker x g) push.
Definition Fi (i : item) : Prop := forall ts rest, ok_item i = true -> sigs ts = r_item i ->
  rej meta_env 1 m_suffix (hdk rest) = true ->
  exists tr, par m_item ts rest 2 tr /\ forall pre, effect pre tr (e_item marker i) (fun x s => x :: pre s).


Lemma eff_at : forall Y pre tr (m : el Y) post q, effect pre tr m post -> effect (fun s => pre (q s)) tr m (fun y s => post y (q s)).
Proof. intros Y pre tr m post q H s d vs. apply (H (q s)). Qed.
Lemma eff_map : forall X Y pre tr (m : el X) post (f : X -> Y) post',
  effect pre tr m post -> (forall x s, post x s = post' (f x) s) -> effect pre tr (bind m (fun x => ret (f x))) post'.
Proof.
  intros X Y pre tr m post f post' H E s d vs. specialize (H s d vs). unfold bind, ret. destruct (m d) as [[x d']|p]; [|exact H].
  rewrite <- E. exact H.
Qed.

Lemma skipn_past : forall (X : Type) (a : list X) x b, skipn (S (length a)) (a ++ x :: b) = b.
Proof. induction a as [|y a IH]; intros x b; [reflexivity|]. apply (IH x b). Qed.
Lemma seq_one : forall g ts rest l tr, g <> GNil -> par g ts rest l tr -> parses_seq meta_env [g] ts rest tr.
Proof.
  intros g ts rest l tr Hg H. pose proof (pr_seq_cons meta_env g [] ts [] rest l tr [] Hg H (pr_seq_nil meta_env rest)) as X.
  rewrite !app_nil_r in X. exact X.
Qed.
Lemma fac : forall gs1 g gs2 ts rest l tr, m_factor_def = GOr (gs1 ++ g :: gs2) ->
  forallb (fun g1 => rej meta_env 0 g1 (hdk (ts ++ rest))) gs1 = true -> par g ts rest l tr -> par m_factor ts rest (-1) tr.
Proof.
  intros gs1 g gs2 ts rest l tr E R H. apply (pr_var meta_env v_factor m_factor_def ts rest (Z.of_nat (length (gs1 ++ g :: gs2))) tr eq_refl).
  rewrite E. apply (pr_or meta_env gs1 g gs2 ts rest l tr 0 R H).
Qed.
Definition alts : list mgr := match m_factor_def with GOr gs => gs | _ => [] end.
Lemma fac_n : forall n g ts rest l tr k, hdk ts = Some k -> nth_error alts n = Some g ->
  forallb (fun g1 => rej meta_env 0 g1 (Some k)) (firstn n alts) = true -> par g ts rest l tr -> par m_factor ts rest (-1) tr.
Proof.
  intros n g ts rest l tr k Hk Hn R H. apply (fac (firstn n alts) g (skipn (S n) alts) ts rest l tr).
  - apply nth_error_split in Hn. destruct Hn as (l1 & l2 & E & <-). change (GOr alts = GOr (firstn (length l1) alts ++ g :: skipn (S (length l1)) alts)).
    rewrite E, firstn_here, skipn_past. reflexivity.
  - destruct ts as [|t ts]; [discriminate|]. cbn [app hdk] in *. rewrite Hk. exact R.
  - exact H.
Qed.

Ltac sg H := match type of H with
  | sigs _ = _ :: _ => let t := fresh "t" in let ts := fresh "ts" in let E := fresh "E" in let H' := fresh H in
      apply sigs_cons in H; destruct H as (t & ts & -> & E & H')
  | sigs _ = _ ++ _ => let ts1 := fresh "ts" in let ts2 := fresh "ts" in let H1 := fresh H in let H2 := fresh H in
      apply sigs_app in H; destruct H as (ts1 & ts2 & -> & H1 & H2)
  | sigs _ = [] => apply sigs_nil in H; subst
  end.

(** ** Factors *)
Lemma Ff_ident : forall n, Ff (FIdent n).
Proof.
  intros n ts rest _ H. cbn [r_factor] in H. sg H. sg H0. exists [EvAct CIdent [t] (-1)]. split.
  - apply (fac_n 0 (GAct (GTok IDENT) CIdent) [t] rest (-1) _ IDENT); [cbn; f_equal; eapply sig_kind; exact E|reflexivity|reflexivity|].
    apply (pr_act meta_env (GTok IDENT) CIdent [t] rest (-1) []). apply pr_tok. eapply sig_kind; exact E.
  - intro pre. cbn [e_factor]. pose proof (sig_lit _ _ _ E eq_refl) as <-. apply (eff_at G same _ _ push pre). apply eff_name.
Qed.
Lemma Ff_quoted : forall k l, k = CHAR \/ k = STRING -> forall ts rest, sigs ts = [(k, l)] ->
  exists tr, par m_factor ts rest (-1) tr /\ forall pre, effect pre tr (the_token l) (fun x s => x :: pre s).
Proof.
  intros k l Hk ts rest H. sg H. sg H0. exists [EvAct CGr [t] (-1)]. pose proof (sig_kind _ _ _ E) as K.
  assert (L : tlit t = l) by (apply (sig_lit _ _ _ E); destruct Hk as [-> | ->]; reflexivity). split.
  - apply (fac_n (if Z.eqb k CHAR then 1%nat else 2%nat) (GAct (GTok k) CGr) [t] rest (-1) _ k); [cbn; f_equal; exact K| | |].
    + destruct Hk as [-> | ->]; reflexivity.
    + destruct Hk as [-> | ->]; reflexivity.
    + apply (pr_act meta_env (GTok k) CGr [t] rest (-1) []). apply pr_tok. exact K.
  - intro pre. rewrite <- L. apply (eff_at G same _ _ push pre). apply eff_token. reflexivity.
Qed.
Lemma Ff_int : forall l, Ff (FInt l).
Proof.
  intros l ts rest _ H. cbn [r_factor] in H. sg H. sg H0. exists [EvAct CGrTrue [t] (-1)]. split.
  - apply (fac_n 3 (GAct (GTok INT) CGrTrue) [t] rest (-1) _ INT); [cbn; f_equal; eapply sig_kind; exact E|reflexivity|reflexivity|].
    apply (pr_act meta_env (GTok INT) CGrTrue [t] rest (-1) []). apply pr_tok. eapply sig_kind; exact E.
  - intro pre. cbn [e_factor]. pose proof (sig_lit _ _ _ E eq_refl) as <-. apply (eff_at G same _ _ push pre). apply eff_int.
Qed.
Lemma Ff_pre : forall o f, Ff f -> Ff (FPre o f).
Proof.
  intros o f IH ts rest Ho H. cbn [r_factor ok_factor] in *. sg H. pose proof (sig_kind _ _ _ E) as K.
  destruct (IH _ rest Ho H0) as (tr & Hp & He). exists (tr ++ [EvAct (pre_act o) ts0 (-1)]). split.
  - apply (fac_n (match o with PStar => 4%nat | PPlus => 5%nat | POpt => 6%nat | PNot => 7%nat | PPeek => 8%nat end)
             (GAnd [GTok (pre_kind o); GAct m_factor (pre_act o)]) (t :: ts0) rest 2 _ (pre_kind o)).
    + cbn. f_equal. exact K.
    + destruct o; reflexivity.
    + destruct o; reflexivity.
    + apply (pr_and meta_env [GTok (pre_kind o); GAct m_factor (pre_act o)] (t :: ts0) rest).
      apply (pr_seq_cons meta_env (GTok (pre_kind o)) [GAct m_factor (pre_act o)] [t] ts0 rest (-1) []); [discriminate|apply pr_tok; exact K|].
      apply (seq_one _ _ _ (-1)); [discriminate|]. apply pr_act. exact Hp.
  - intro pre. cbn [e_factor]. eapply effect_bind; [apply He|]. intro x. apply (eff_at G (push x) _ _ push pre). apply eff_pre.
Qed.

(** ** Suffixes and items *)
Lemma Fs_list : forall (z : bool) f, Ff f -> Fs (if z then SList0 f else SList f).
Proof.
  intros z f IH ts rest Ho H. assert (Ho' : ok_factor f = true) by (destruct z; exact Ho).
  assert (H' : sigs ts = op (if z then REM_ASSIGN else REM) :: r_factor f) by (destruct z; exact H). clear H Ho. rename H' into H.
  sg H. pose proof (sig_kind _ _ _ E) as K. destruct (IH _ rest Ho' H0) as (tr & Hp & He).
  exists (tr ++ [EvAct (if z then CList0 else CList) ts0 (-1)]). split.
  - assert (X : par (GAnd [GTok (if z then REM_ASSIGN else REM); GAct m_factor (if z then CList0 else CList)]) (t :: ts0) rest 2 (tr ++ [EvAct (if z then CList0 else CList) ts0 (-1)])).
    { apply (pr_and meta_env [GTok (if z then REM_ASSIGN else REM); GAct m_factor (if z then CList0 else CList)] (t :: ts0) rest).
      apply (pr_seq_cons meta_env (GTok (if z then REM_ASSIGN else REM)) _ [t] ts0 rest (-1) []); [discriminate|apply pr_tok; exact K|].
      apply (seq_one _ _ _ (-1)); [discriminate|]. apply pr_act. exact Hp. }
    destruct z.
    + apply (pr_or meta_env [GAnd [GTok REM; GAct m_factor CList]] _ [GAnd [GTok QUO; GAct (GTok IDENT) CMark]] (t :: ts0) rest 2 _ 0); [|exact X].
      cbn [app hdk]. rewrite K. reflexivity.
    + apply (pr_or meta_env [] _ [GAnd [GTok REM_ASSIGN; GAct m_factor CList0]; GAnd [GTok QUO; GAct (GTok IDENT) CMark]] (t :: ts0) rest 2 _ 0); [reflexivity|exact X].
  - intro g. assert (X : forall x, effect (fun s => x :: g :: s) [EvAct (if z then CList0 else CList) ts0 (-1)]
      (bind fresh (fun i => ret (GList i g x z))) push) by (intro x; destruct z; [apply eff_list0|apply eff_list]).
    eapply effect_ext with (m := bind (e_factor marker f) (fun x => bind fresh (fun i => ret (GList i g x z)))); [destruct z; reflexivity|].
    eapply effect_bind; [apply He|]. exact X.
Qed.
Lemma Fs_mark : forall n, Fs (SMark n).
Proof.
  intros n ts rest _ H. cbn [r_suffix] in H. sg H. sg H0. sg H1. pose proof (sig_kind _ _ _ E) as K. pose proof (sig_kind _ _ _ E0) as K0.
  exists [EvAct CMark [t0] (-1)]. split.
  - apply (pr_or meta_env [GAnd [GTok REM; GAct m_factor CList]; GAnd [GTok REM_ASSIGN; GAct m_factor CList0]] _ [] [t; t0] rest 2 _ 0).
    + cbn [app hdk]. rewrite K. reflexivity.
    + apply (pr_and meta_env [GTok QUO; GAct (GTok IDENT) CMark] [t; t0] rest).
      apply (pr_seq_cons meta_env (GTok QUO) _ [t] [t0] rest (-1) []); [discriminate|apply pr_tok; exact K|].
      apply (seq_one _ _ _ (-1)); [discriminate|]. apply (pr_act meta_env _ CMark [t0] rest (-1) []). apply pr_tok. exact K0.
  - intro g. cbn [e_suffix]. pose proof (sig_lit _ _ _ E0 eq_refl) as <-. apply eff_mark.
Qed.

(** suffixes of a term *)
Fixpoint go_suffixes (ss : list suffix) (g : G) : el G :=
  match ss with [] => ret g | s :: ss' => bind (e_suffix marker s g) (go_suffixes ss') end.
Lemma e_item_term : forall f ss d, e_item marker (ITerm f ss) d = bind (e_factor marker f) (go_suffixes ss) d.
Proof. reflexivity. Qed.
Lemma suffixes_fwd : forall ss ts rest, Forall Fs ss -> forallb ok_suffix ss = true -> sigs ts = flat_map r_suffix ss ->
  rej meta_env 1 m_suffix (hdk rest) = true ->
  exists tr, rp m_suffix (Z.of_nat (length ss)) ts rest tr /\ forall g, effect (push g) tr (go_suffixes ss g) push.
Proof.
  induction ss as [|x ss IH]; intros ts rest HF Ho H Hr.
  - cbn [flat_map] in H. sg H. exists []. split; [apply (pr_rep_end meta_env _ _ 1); exact Hr|]. intro g. apply effect_ret. reflexivity.
  - cbn [flat_map forallb] in *. inversion HF as [|? ? HFx HFs]; subst. apply andb_true_iff in Ho. destruct Ho as [O1 O2]. sg H.
    destruct (IH _ rest HFs O2 H1 Hr) as (tr2 & P2 & E2). destruct (HFx _ (ts1 ++ rest) O1 H0) as (tr1 & P1 & E1).
    exists (tr1 ++ tr2). split.
    + replace (Z.of_nat (length (x :: ss))) with (Z.of_nat (length ss) + 1) by (cbn [length]; lia). eapply pr_rep_more; eauto.
    + intro g. cbn [go_suffixes]. eapply effect_bind; [apply E1|]. intro y. apply E2.
Qed.
Lemma Fi_term : forall f ss, Ff f -> Forall Fs ss -> Fi (ITerm f ss).
Proof.
  intros f ss IHf IHs ts rest Ho H Hr. cbn [r_item ok_item] in *. apply andb_true_iff in Ho. destruct Ho as [O1 O2]. sg H.
  destruct (suffixes_fwd ss _ rest IHs O2 H1 Hr) as (tr2 & P2 & E2). destruct (IHf _ (ts1 ++ rest) O1 H0) as (tr1 & P1 & E1).
  exists (tr1 ++ tr2). split.
  - apply (pr_or meta_env [] m_term [GAct (GTok 33) CGrNil] (ts0 ++ ts1) rest 2 _ 0); [reflexivity|].
    apply (pr_and meta_env [m_factor; GRep0 0 m_suffix]). eapply pr_seq_cons; [discriminate|exact P1|].
    eapply seq_one; [discriminate|]. apply pr_rep0. exact P2.
  - intro pre. eapply effect_ext; [intro d; symmetry; apply e_item_term|]. eapply effect_bind; [apply E1|].
    intro x. apply (eff_at G (push x) _ _ push pre). apply E2.
Qed.
Lemma Fi_bang : Fi IBang.
Proof.
  intros ts rest _ H Hr. cbn [r_item] in H. sg H. sg H0. pose proof (sig_kind _ _ _ E) as K. exists [EvAct CGrNil [t] (-1)]. split.
  - apply (pr_or meta_env [m_term] (GAct (GTok 33) CGrNil) [] [t] rest (-1) _ 1).
    + cbn [app hdk]. rewrite K. reflexivity.
    + apply (pr_act meta_env (GTok 33) CGrNil [t] rest (-1) []). apply pr_tok. exact K.
  - intros pre s d vs. reflexivity.
Qed.

(** ** Sequences and choices *)
Definition stops (rest : list token) : bool := rej meta_env 1 m_suffix (hdk rest) && rej meta_env 1 m_item (hdk rest).
Lemma first_item_rej : forall k, In k first_item -> rej meta_env 1 m_suffix (Some k) = true.
Proof. intros k H. cbn in H. repeat (destruct H as [<- | H]; [reflexivity|]). contradiction. Qed.
Lemma items_fwd : forall e ts rest, Forall Fi e -> forallb ok_item e = true -> sigs ts = flat_map r_item e -> stops rest = true ->
  exists tr, rp m_item (Z.of_nat (length e)) ts rest tr /\
    (forall pre, effect pre tr (each (e_item marker) e) (fun xs s => rev xs ++ pre s)) /\ rej meta_env 1 m_suffix (hdk (ts ++ rest)) = true.
Proof.
  induction e as [|i e IH]; intros ts rest HF Ho H Hr.
  - cbn [flat_map] in H. sg H. unfold stops in Hr. apply andb_true_iff in Hr. destruct Hr as [R1 R2]. exists []. split; [apply (pr_rep_end meta_env _ _ 1); exact R2|].
    split; [|exact R1]. intro pre. apply effect_ret. reflexivity.
  - cbn [flat_map forallb] in *. inversion HF as [|? ? HFx HFs]; subst. apply andb_true_iff in Ho. destruct Ho as [O1 O2]. sg H.
    destruct (IH _ rest HFs O2 H1 Hr) as (tr2 & P2 & E2 & R2). destruct (HFx _ (ts1 ++ rest) O1 H0 R2) as (tr1 & P1 & E1).
    exists (tr1 ++ tr2). split; [|split].
    + replace (Z.of_nat (length (i :: e))) with (Z.of_nat (length e) + 1) by (cbn [length]; lia). eapply pr_rep_more; eauto.
    + intro pre. cbn [each]. eapply effect_bind; [apply E1|]. intro y. eapply eff_map; [apply (E2 (fun s => y :: pre s))|].
      intros x s. cbn [rev]. rewrite <- app_assoc. reflexivity.
    + destruct (hd_in_hdk first_item ts0 (ts1 ++ rest) (r_item i) (r_item_first i) H0) as (k & Hk & Hin). rewrite <- app_assoc, Hk. apply first_item_rej. exact Hin.
Qed.
Lemma each_length : forall X Y (f : X -> el (A := A) (T := T) (PM := PM) (M := M) Y) l (d : D) ys d', each f l d = inl (ys, d') -> length ys = length l.
Proof.
  intros X Y f. induction l as [|x l IH]; intros d ys d' H; cbn [each] in H.
  - injection H as <- <-. reflexivity.
  - unfold bind, ret in H. destruct (f x d) as [[y d1]|]; [|discriminate]. destruct (each f l d1) as [[ys1 d2]|] eqn:E; [|discriminate].
    injection H as <- <-. cbn [length]. f_equal. eapply IH; eauto.
Qed.
Lemma eff_grouped : forall X (f : X -> el G) l tr pre a mk ts,
  effect pre tr (each f l) (fun xs s => rev xs ++ pre s) -> l <> [] ->
  (a = CAnd /\ mk = (fun gs => GAnd gs)) \/ (a = COr /\ mk = (fun gs : list G => GOr gs)) ->
  effect pre (tr ++ [EvAct a ts (Z.of_nat (length l))]) (bind (each f l) (fun xs => ret (group mk xs))) (fun x s => x :: pre s).
Proof.
  intros X f l tr pre a mk ts He Hl Ha s d vs. specialize (He s d vs). unfold bind. rewrite run_app.
  destruct (each f l d) as [[ys d']|p] eqn:E.
  - rewrite He. pose proof (each_length _ _ _ _ _ _ _ E) as L. rewrite <- L.
    apply (eff_at G _ _ _ _ pre (eff_group a mk ts ys Ha ltac:(intros ->; destruct l; [congruence|discriminate]))).
  - destruct He as (x' & ->). eauto.
Qed.
Lemma expr_fwd : forall e ts rest, Forall Fi e -> ok_expr e = true -> sigs ts = r_expr e -> stops rest = true ->
  exists tr l, par m_expr ts rest l tr /\ (forall pre, effect pre tr (e_expr marker e) (fun x s => x :: pre s)).
Proof.
  intros e ts rest HF Ho H Hr. unfold ok_expr in Ho. apply andb_true_iff in Ho. destruct Ho as [O1 O2]. destruct e as [|i e]; [discriminate|].
  destruct (items_fwd (i :: e) ts rest HF O2 H Hr) as (tr & P & E & _).
  exists (tr ++ [EvAct CAnd ts (Z.of_nat (length (i :: e)))]), (Z.of_nat (length (i :: e))). split.
  - apply pr_act. apply pr_rep1'; [exact P|cbn [length]; lia].
  - intro pre. apply eff_grouped; [apply E|discriminate|auto].
Qed.
Definition stops_g (rest : list token) : bool := stops rest && rej meta_env 0 (GTok (A := cact) (T := Empty_set) 124) (hdk rest).
Lemma joined_cons : forall s l ls, joined [s] (l :: ls) = l ++ flat_map (fun x => s :: x) ls.
Proof. intros s l ls. revert l. induction ls as [|x ls IH]; intro l; [cbn; rewrite app_nil_r; reflexivity|]. cbn [joined flat_map] in *. rewrite (IH x). reflexivity. Qed.
Lemma alts_fwd : forall g ts rest, Forall (Forall Fi) g -> forallb ok_expr g = true -> sigs ts = flat_map (fun x => op OR :: x) (map r_expr g) -> stops_g rest = true ->
  exists tr, rp (GAnd [GTok 124; m_expr]) (Z.of_nat (length g)) ts rest tr /\
    (forall pre, effect pre tr (each (e_expr marker) g) (fun xs s => rev xs ++ pre s)) /\ stops (ts ++ rest) = true.
Proof.
  induction g as [|e g IH]; intros ts rest HF Ho H Hr.
  - cbn [flat_map map] in H. sg H. unfold stops_g in Hr. apply andb_true_iff in Hr. destruct Hr as [R1 R2]. exists []. split.
    + apply (pr_rep_end meta_env _ _ 0). exact R2.
    + split; [|exact R1]. intro pre. apply effect_ret. reflexivity.
  - cbn [flat_map map forallb] in *. inversion HF as [|? ? HFx HFs]; subst. apply andb_true_iff in Ho. destruct Ho as [O1 O2]. cbn [app] in H. sg H. sg H0. pose proof (sig_kind _ _ _ E) as K.
    destruct (IH _ rest HFs O2 H2 Hr) as (tr2 & P2 & E2 & R2). destruct (expr_fwd e ts (ts1 ++ rest) HFx O1 H1 R2) as (tr1 & l & P1 & E1).
    exists (tr1 ++ tr2). split; [|split].
    + replace (Z.of_nat (length (e :: g))) with (Z.of_nat (length g) + 1) by (cbn [length]; lia).
      change (t :: ts ++ ts1) with ((t :: ts) ++ ts1).
      eapply (pr_rep_more meta_env (GAnd [GTok 124; m_expr]) (t :: ts) ts1 rest 2); [|exact P2].
      apply (pr_and meta_env [GTok 124; m_expr]).
      apply (pr_seq_cons meta_env (GTok 124) _ [t] ts (ts1 ++ rest) (-1) []); [discriminate|apply pr_tok; exact K|].
      eapply seq_one; [discriminate|exact P1].
    + intro pre. cbn [each]. eapply effect_bind; [apply E1|]. intro y. eapply eff_map; [apply (E2 (fun s => y :: pre s))|].
      intros x s. cbn [rev]. rewrite <- app_assoc. reflexivity.
    + unfold stops. cbn [app hdk]. rewrite K. reflexivity.
Qed.
Lemma gram_fwd : forall g ts rest, Forall (Forall Fi) g -> ok_gram g = true -> sigs ts = r_gram g -> stops_g rest = true ->
  exists tr l, par m_grammar ts rest l tr /\ (forall pre, effect pre tr (e_gram marker g) (fun x s => x :: pre s)).
Proof.
  intros g ts rest HF Ho H Hr. unfold ok_gram in Ho. apply andb_true_iff in Ho. destruct Ho as [O1 O2]. destruct g as [|e g]; [discriminate|].
  unfold r_gram in H. cbn [map] in H. rewrite joined_cons in H. inversion HF as [|? ? HFx HFs]; subst. cbn [forallb] in O2. apply andb_true_iff in O2. destruct O2 as [O2 O3]. sg H.
  destruct (alts_fwd g _ rest HFs O3 H1 Hr) as (tr2 & P2 & E2 & R2). destruct (expr_fwd e _ (ts1 ++ rest) HFx O2 H0 R2) as (tr1 & l & P1 & E1).
  exists ((tr1 ++ tr2) ++ [EvAct COr (ts0 ++ ts1) (Z.of_nat (length (e :: g)))]), (Z.of_nat (length (e :: g))). split.
  - apply pr_act. replace (Z.of_nat (length (e :: g))) with (Z.of_nat (length g) + 1) by (cbn [length]; lia). eapply pr_list; eauto.
  - intro pre. apply eff_grouped; [|discriminate|auto]. cbn [each]. eapply effect_bind; [apply E1|]. intro y. eapply eff_map; [apply (E2 (fun s => y :: pre s))|].
    intros x s. cbn [rev]. rewrite <- app_assoc. reflexivity.
Qed.
Lemma Ff_paren : forall g, Forall (Forall Fi) g -> Ff (FParen g).
Proof.
  intros g HF ts rest Ho H. cbn [r_factor] in H. 
  apply sigs_cons in H. destruct H as (t & ts1' & -> & E & H). apply sigs_app in H. destruct H as (ts1 & ts3 & -> & H & H3).
  apply sigs_cons in H3. destruct H3 as (t0 & ts4 & -> & E0 & H4). apply sigs_nil in H4. subst ts4. pose proof (sig_kind _ _ _ E) as K. pose proof (sig_kind _ _ _ E0) as K0.
  assert (Og : ok_gram g = true) by exact Ho.
  destruct (gram_fwd g ts1 ([t0] ++ rest) HF Og H) as (tr & l & P & Ef).
  { unfold stops_g, stops. cbn [app hdk]. rewrite K0. reflexivity. }
  exists tr. split; [|exact Ef].
  apply (fac_n 9 (GAnd [GTok 40; m_grammar; GTok 41]) (t :: ts1 ++ [t0]) rest 3 _ 40); [cbn; f_equal; exact K|reflexivity|reflexivity|].
  apply (pr_and meta_env [GTok 40; m_grammar; GTok 41] (t :: ts1 ++ [t0])).
  apply (pr_seq_cons meta_env (GTok 40) _ [t] (ts1 ++ [t0]) rest (-1) []); [discriminate|apply pr_tok; exact K|].
  rewrite <- (app_nil_r tr). eapply pr_seq_cons; [discriminate|exact P|].
  apply (seq_one _ _ _ (-1)); [discriminate|]. apply pr_tok. exact K0.
Qed.
Lemma all_fwd : (forall f, Ff f) /\ (forall i, Fi i) /\ (forall s, Fs s).
Proof.
  apply syntax_ind; intros.
  - apply Ff_ident.
  - intros ts rest _ H. apply (Ff_quoted CHAR); auto.
  - intros ts rest _ H. apply (Ff_quoted STRING); auto.
  - apply Ff_int.
  - apply Ff_pre. assumption.
  - apply Ff_paren. assumption.
  - apply Fi_bang.
  - apply Fi_term; assumption.
  - apply (Fs_list false). assumption.
  - apply (Fs_list true). assumption.
  - apply Fs_mark.
Qed.
Lemma all_Fi : forall g : gram, Forall (Forall Fi) g.
Proof. intro g. apply Forall_forall. intros e _. apply Forall_forall. intros i _. apply all_fwd. Qed.

(** ** Rules and documents *)
Lemma rule_fwd : forall r ts rest, ok_gram (snd r) = true -> sigs ts = r_rule r ->
  exists tr l, par m_rule ts rest l tr /\ (forall pre, effect pre tr (e_rule marker r) (fun _ s => pre s)).
Proof.
  intros [n g] ts rest Ho H. unfold r_rule in H. cbn [fst snd] in *. 
  apply sigs_cons in H. destruct H as (t & ts1' & -> & E & H). apply sigs_cons in H. destruct H as (t0 & ts3' & -> & E0 & H). apply sigs_app in H. destruct H as (ts2 & ts3 & -> & H0 & H3).
  apply sigs_cons in H3. destruct H3 as (t1 & ts4 & -> & E1 & H4). apply sigs_nil in H4. subst ts4.
  pose proof (sig_kind _ _ _ E) as K. pose proof (sig_kind _ _ _ E0) as K0. pose proof (sig_kind _ _ _ E1) as K1.
  pose proof (sig_lit _ _ _ E eq_refl) as L.
  destruct (gram_fwd g ts2 ([t1] ++ rest) (all_Fi g) Ho H0) as (tr & l & P & Ef).
  { unfold stops_g, stops. cbn [app hdk]. rewrite K1. reflexivity. }
  exists (tr ++ [EvAct CAssign (t :: t0 :: ts2 ++ [t1]) 4]), 4. split.
  - apply pr_act. apply (pr_and meta_env [GTok IDENT; GTok 61; m_grammar; GTok 59] (t :: t0 :: ts2 ++ [t1])).
    apply (pr_seq_cons meta_env (GTok IDENT) _ [t] (t0 :: ts2 ++ [t1]) rest (-1) []); [discriminate|apply pr_tok; exact K|].
    apply (pr_seq_cons meta_env (GTok 61) _ [t0] (ts2 ++ [t1]) rest (-1) []); [discriminate|apply pr_tok; exact K0|].
    rewrite <- (app_nil_r tr). eapply pr_seq_cons; [discriminate|exact P|].
    apply (seq_one _ _ _ (-1)); [discriminate|]. apply pr_tok. exact K1.
  - intro pre. unfold e_rule. cbn [fst snd]. eapply effect_bind; [apply Ef|]. intro x. intros s d vs. unfold define.
    cbn [run u_act cclient c_action lit0]. rewrite L. unfold c_assign. cbn [stk cd].
    destruct (find n (d_vars d)) as [e|]; [destruct (is_nil e); [reflexivity|eexists; reflexivity]|].
    destruct (find n (d_grams d)); [eexists; reflexivity|reflexivity].
Qed.
Lemma rules_fwd : forall rs ts, forallb (fun r => ok_gram (snd r)) rs = true -> sigs ts = r_doc rs ->
  exists tr, rp m_rule (Z.of_nat (length rs)) ts [] tr /\ (forall pre, effect pre tr (e_doc marker rs) (fun _ s => pre s)).
Proof.
  induction rs as [|r rs IH]; intros ts Ho H.
  - cbn in H. sg H. exists []. split; [apply (pr_rep_end meta_env _ _ 0); reflexivity|]. intro pre. apply effect_ret. reflexivity.
  - unfold r_doc in H. cbn [flat_map forallb] in *. apply andb_true_iff in Ho. destruct Ho as [O1 O2]. sg H.
    destruct (IH _ O2 H1) as (tr2 & P2 & E2). destruct (rule_fwd r ts0 (ts1 ++ []) O1 H0) as (tr1 & l & P1 & E1).
    exists (tr1 ++ tr2). split.
    + replace (Z.of_nat (length (r :: rs))) with (Z.of_nat (length rs) + 1) by (cbn [length]; lia). eapply pr_rep_more; eauto.
    + intro pre. cbn [e_doc]. eapply effect_bind; [apply E1|]. intro y. apply E2.
Qed.
Lemma doc_fwd : forall rs ts, ok_doc rs = true -> sigs ts = r_doc rs ->
  exists tr l, par m_doc ts [] l tr /\ (forall pre, effect pre tr (e_doc marker rs) (fun _ s => pre s)).
Proof.
  intros rs ts Ho H. unfold ok_doc in Ho. apply andb_true_iff in Ho. destruct Ho as [O1 O2]. destruct rs as [|r rs]; [discriminate|].
  destruct (rules_fwd (r :: rs) ts O2 H) as (tr & P & E). exists tr, (Z.of_nat (length (r :: rs))). split; [|exact E].
  apply pr_rep1'; [exact P|cbn [length]; lia].
Qed.
End Forward.
