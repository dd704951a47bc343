(** The calculators' grammars: every expression is parsed and evaluated, and nothing else is accepted. *)
From Coq Require Import String.
From Verif Require Import Base Token Utf8 Scanner Tokenize Grammar Matcher PegSpec MatchProofs MatchProofs2 MatchProofs3 Wf PegTools Compiler CompilerBack Interp Calc CalcSpec.

Definition acc (k x : Z) : bool := (x =? k) || ((x =? INT) && (k =? FLOAT)).
Lemma acc_tok : forall k t, tok_ok k t <-> acc k (tkind t) = true.
Proof.
  intros k t. unfold tok_ok, acc. rewrite orb_true_iff, andb_true_iff, !Z.eqb_eq. tauto.
Qed.
Lemma acc_kind : forall k t, kind_is k t <-> tok_ok k t.
Proof. reflexivity. Qed.

Section Shape.
Variables leaves1 leaves2 muls : list (Z * bytes).
Hypothesis Hl1 : forall l x, In l leaves1 -> In x [45; 40; 43; 41; IDENT] -> acc (fst l) x = false.
Hypothesis Hl1d : forall a l b, leaves1 = a ++ l :: b -> forall l' x, In l' a -> acc (fst l) x = true -> acc (fst l') x = false.
Hypothesis Hl2 : leaves2 = [] \/ exists m, leaves2 = [(IDENT, m)].
Hypothesis Hm : forall o, In o muls -> ~ In (fst o) [40; 41; 43; 44; 45; FLOAT].
Hypothesis Hmd : NoDup (map fst muls).
Notation env := (g_env leaves1 leaves2 muls).
Notation factor := (GVar c_factor_name : gr bytes Empty_set).
Notation gfactor := (g_factor leaves1 leaves2 muls).
Notation gterm := (g_term muls).
Notation gdoc := (g_doc muls).
Notation gcall := (g_call muls).
Notation gargs := (g_args muls).
Notation tr := (list (@ev bytes Empty_set)).
Definition mul_alt : gr bytes Empty_set := GOr (map g_mulop muls).
Definition add_alt : gr bytes Empty_set := GOr (map (g_addop muls) adds).

Context {E : Type}.
Variable lit : bytes -> bytes -> option E.
Variable bin : bytes -> E -> E -> option E.
Variable neg : E -> option E.
Variable call : bytes -> list E -> option E.

(** the specification with the actions performed *)
Inductive d_factor : list token -> option E -> tr -> Prop :=
| D_lit : forall k m t, In (k, m) (leaves1 ++ leaves2) -> tok_ok k t -> d_factor [t] (lit m (tlit t)) [EvAct m [t] (-1)]
| D_neg : forall t ts a x, tkind t = 45 -> d_factor ts a x -> d_factor (t :: ts) (opt1 neg a) (x ++ [EvAct m_neg ts (-1)])
| D_pos : forall t ts a x, tkind t = 43 -> d_factor ts a x -> d_factor (t :: ts) a x
| D_par : forall t1 ts t2 a x, tkind t1 = 40 -> d_doc ts a x -> tkind t2 = 41 -> d_factor (t1 :: ts ++ [t2]) a x
| D_call0 : forall t t1 t2, tkind t = IDENT -> tkind t1 = 40 -> tkind t2 = 41 ->
    d_factor [t; t1; t2] (callv call (tlit t) []) [EvAct m_ARITY [] 0; EvAct m_call [t; t1; t2] 4]
| D_call : forall t t1 ts a x ts' rs y t2, tkind t = IDENT -> tkind t1 = 40 -> d_doc ts a x -> d_more ts' rs y -> tkind t2 = 41 ->
    d_factor (t :: t1 :: (ts ++ ts') ++ [t2]) (callv call (tlit t) (a :: rs))
      ((x ++ y) ++ [EvAct m_ARITY (ts ++ ts') (Z.of_nat (length rs) + 1); EvAct m_call (t :: t1 :: (ts ++ ts') ++ [t2]) 4])
with d_muls : option E -> list token -> option E -> tr -> Prop :=
| D_mul0 : forall a, d_muls a [] a []
| D_mul : forall a t m ts b x ts' r y, In (tkind t, m) muls -> d_factor ts b x -> d_muls (opt2 (bin m) a b) ts' r y ->
    d_muls a (t :: ts ++ ts') r ((x ++ [EvAct m ts (-1)]) ++ y)
with d_term : list token -> option E -> tr -> Prop :=
| D_term : forall ts a x ts' r y, d_factor ts a x -> d_muls a ts' r y -> d_term (ts ++ ts') r (x ++ y)
with d_adds : option E -> list token -> option E -> tr -> Prop :=
| D_add0 : forall a, d_adds a [] a []
| D_add : forall a t m ts b x ts' r y, In (tkind t, m) adds -> d_term ts b x -> d_adds (opt2 (bin m) a b) ts' r y ->
    d_adds a (t :: ts ++ ts') r ((x ++ [EvAct m ts (-1)]) ++ y)
with d_doc : list token -> option E -> tr -> Prop :=
| D_doc : forall ts a x ts' r y, d_term ts a x -> d_adds a ts' r y -> d_doc (ts ++ ts') r (x ++ y)
with d_more : list token -> list (option E) -> tr -> Prop :=
| D_more0 : d_more [] [] []
| D_more : forall t ts a x ts' rs y, tkind t = 44 -> d_doc ts a x -> d_more ts' rs y -> d_more (t :: ts ++ ts') (a :: rs) (x ++ y).

Scheme df_mut := Induction for d_factor Sort Prop
  with dm_mut := Induction for d_muls Sort Prop
  with dt_mut := Induction for d_term Sort Prop
  with da_mut := Induction for d_adds Sort Prop
  with dd_mut := Induction for d_doc Sort Prop
  with dr_mut := Induction for d_more Sort Prop.
Combined Scheme d_ind6 from df_mut, dm_mut, dt_mut, da_mut, dd_mut, dr_mut.

(** ** Expressions are parsed *)
Definition hd_not (ks : list Z) (rest : list token) : Prop := forall k, In k ks -> hdk rest <> Some k.
Definition K1 : list Z := [40].
Definition K2 : list Z := 40 :: map fst muls.
Definition K3 : list Z := 43 :: 45 :: K2.
Definition K4 : list Z := 44 :: K3.

Lemma env_factor : env c_factor_name = Some gfactor.
Proof. reflexivity. Qed.
Lemma rej_leaves : forall n ls x, forallb (fun g => rej env n g (Some x)) (map g_leaf ls) = forallb (fun l => negb (acc (fst l) x)) ls.
Proof. intros n ls x. induction ls as [|l ls IH]; [reflexivity|]. cbn [map forallb]. rewrite IH. f_equal. destruct n; reflexivity. Qed.
Lemma rej_muls : forall n ls x, forallb (fun g => rej env n g (Some x)) (map g_mulop ls) = forallb (fun l => negb (acc (fst l) x)) ls.
Proof. intros n ls x. induction ls as [|l ls IH]; [reflexivity|]. cbn [map forallb]. rewrite IH. f_equal. destruct n; reflexivity. Qed.
Lemma rej_l1 : forall n x, In x [45; 40; 43; 41; IDENT] -> forallb (fun g => rej env n g (Some x)) (map g_leaf leaves1) = true.
Proof. intros n x Hx. rewrite rej_leaves. apply forallb_forall. intros l Hl. rewrite (Hl1 l x Hl Hx). reflexivity. Qed.
Lemma mul_kind : forall k m, In (k, m) muls -> k <> 40 /\ k <> 41 /\ k <> 43 /\ k <> 44 /\ k <> 45 /\ k <> FLOAT.
Proof. intros k m H. pose proof (Hm _ H) as X. cbn [fst] in X. repeat split; intros ->; apply X; simpl; tauto. Qed.

Lemma p_lit1 : forall k m t rest, In (k, m) leaves1 -> tok_ok k t -> parses env factor [t] rest (-1) [EvAct m [t] (-1)].
Proof.
  intros k m t rest Hi Ht. apply in_split in Hi. destruct Hi as (a & b & Ea).
  eapply pr_var; [exact env_factor|]. unfold g_factor.
  replace (map g_leaf leaves1) with (map g_leaf a ++ g_leaf (k, m) :: map g_leaf b) by (rewrite Ea, map_app; reflexivity). rewrite <- app_assoc, <- app_comm_cons.
  apply (pr_or env (map g_leaf a) _ _ [t] rest (-1) [EvAct m [t] (-1)] 0).
  - cbn [app hdk]. rewrite rej_leaves. apply forallb_forall. intros l' Hl'. apply acc_tok in Ht. rewrite (Hl1d _ _ _ Ea l' (tkind t) Hl' Ht). reflexivity.
  - unfold g_leaf. cbn [fst snd]. apply (pr_act env _ m [t] rest (-1) []). apply P_Tok. exact Ht.
Qed.
(** the call alternative fails on a name that is not followed by a parenthesis *)
Lemma call_fails : forall t rest, tkind t = IDENT -> hdk rest <> Some 40 -> peg env gcall (t :: rest) OFail [].
Proof.
  intros t rest Ht Hr. unfold g_call. apply P_Act_no; [|simpl; tauto]. apply (P_And env [GTok IDENT; GTok 40; gargs; GTok 41] (t :: rest) OFail []).
  apply (S_ok env _ _ (GTok IDENT) _ _ (t :: rest) 1 (-1) OFail [] []); [discriminate|apply P_Tok; left; exact Ht|]. cbn [skipn].
  apply S_fail; [discriminate|]. apply P_Tok_fail. intros t' r -> [X|[X Y]]; [|discriminate]. apply Hr. cbn. rewrite X. reflexivity.
Qed.
Lemma alt_skip : forall gs1 gs2 src o x, Forall (fun g => peg env g src OFail []) gs1 -> peg_alt env gs2 src o x -> peg_alt env (gs1 ++ gs2) src o x.
Proof. intros gs1 gs2 src o x H H2. induction H as [|g gs1 Hg H IH]; [exact H2|]. apply (A_next env g (gs1 ++ gs2) src o [] x Hg IH). Qed.
Lemma p_lit2 : forall k m t rest, In (k, m) leaves2 -> tok_ok k t -> hdk rest <> Some 40 -> parses env factor [t] rest (-1) [EvAct m [t] (-1)].
Proof.
  intros k m t rest Hi Ht Hr. destruct Hl2 as [E2|[m' E2]]; rewrite E2 in Hi; [contradiction|]. destruct Hi as [[= <- <-]|[]].
  assert (Ht' : tkind t = IDENT) by (destruct Ht as [H|[_ H]]; [exact H|discriminate]).
  eapply pr_var; [exact env_factor|]. unfold parses, g_factor. apply (P_Or env _ ([t] ++ rest) (OOk 1 (-1))). cbn [app].
  apply alt_skip.
  - pose proof (rej_l1 0 IDENT ltac:(simpl; tauto)) as X. rewrite forallb_forall in X. apply Forall_forall. intros g Hg. apply (rej_sound env 0). cbn [hdk]. rewrite Ht'. apply X. exact Hg.
  - replace (map g_leaf leaves2) with [g_leaf (IDENT, m')] by (rewrite E2; reflexivity). apply (alt_skip [_; _; _] [_; _]).
    + constructor; [|constructor; [|constructor; [|constructor]]]; [apply (rej_sound env 0); cbn [hdk]; rewrite Ht'; reflexivity..|]. apply call_fails; assumption.
    + apply A_ok. pose proof (P_Act env (GTok IDENT) m' (t :: rest) 1 (-1) [] ltac:(apply P_Tok; left; exact Ht')) as Z0. cbn [firstn app] in Z0. exact Z0.
Qed.
(** one of the alternatives behind the literals *)
Lemma p_mid : forall pre g post ts rest l x n, [GAnd [GTok 45; GAct factor m_neg]; GAnd [GTok 40; GNamed n_doc gdoc; GTok 41]; gcall] = pre ++ g :: post ->
  (exists y, hdk (ts ++ rest) = Some y /\ In y [45; 40; 43; 41; IDENT]) -> forallb (fun h => rej env n h (hdk (ts ++ rest))) pre = true -> parses env g ts rest l x -> parses env factor ts rest (-1) x.
Proof.
  intros pre g post ts rest l x n Ep (y & Ey & Hy) Hr Hp. eapply pr_var; [exact env_factor|]. unfold g_factor. rewrite Ep, <- !app_assoc, app_assoc.
  rewrite <- app_comm_cons. apply (pr_or env (map g_leaf leaves1 ++ pre) g _ ts rest l x n); [|exact Hp].
  rewrite forallb_app, Ey, rej_l1 by exact Hy. rewrite Ey in Hr. exact Hr.
Qed.
Lemma p_pos : forall t ts rest x, tkind t = 43 -> parses env factor ts rest (-1) x -> parses env factor (t :: ts) rest (-1) x.
Proof.
  intros t ts rest x Ht Hp. eapply pr_var; [exact env_factor|]. unfold g_factor. rewrite !app_assoc.
  apply (pr_or env ((map g_leaf leaves1 ++ [_; _; _]) ++ map g_leaf leaves2) _ [] (t :: ts) rest 2 x 0).
  - cbn [app hdk]. rewrite Ht. rewrite !forallb_app, rej_l1 by (simpl; tauto). destruct Hl2 as [->|[m ->]]; reflexivity.
  - apply pr_and. apply (pr_seq_cons env (GTok 43) [factor] [t] ts rest (-1) [] x); [discriminate|apply pr_tok; exact Ht|].
    rewrite <- (app_nil_r ts), <- (app_nil_r x). apply (pr_seq_cons env factor [] ts [] rest (-1) x []); [discriminate| |apply pr_seq_nil]. exact Hp.
Qed.

Lemma factor_rej : rej env 1 factor (Some 41) = true.
Proof.
  change (forallb (fun g => rej env 0 g (Some 41)) (map g_leaf leaves1 ++
    [GAnd [GTok 45; GAct factor m_neg]; GAnd [GTok 40; GNamed n_doc gdoc; GTok 41]; gcall] ++ map g_leaf leaves2 ++ [GAnd [GTok 43; factor]]) = true).
  rewrite !forallb_app, rej_l1 by (simpl; tauto). destruct Hl2 as [->|[m ->]]; reflexivity.
Qed.

Definition Ff ts (r : option E) x (_ : d_factor ts r x) : Prop := forall rest, hd_not K1 rest -> parses env factor ts rest (-1) x.
Definition Fm a ts (r : option E) x (_ : d_muls a ts r x) : Prop := forall rest, hd_not K2 rest -> hd_not K1 (ts ++ rest) /\ exists c, parses_rep env mul_alt c ts rest x.
Definition Ft ts (r : option E) x (_ : d_term ts r x) : Prop := forall rest, hd_not K2 rest -> parses env gterm ts rest 2 x.
Definition Fa a ts (r : option E) x (_ : d_adds a ts r x) : Prop := forall rest, hd_not K3 rest -> hd_not K2 (ts ++ rest) /\ exists c, parses_rep env add_alt c ts rest x.
Definition Fd ts (r : option E) x (_ : d_doc ts r x) : Prop := forall rest, hd_not K3 rest -> parses env gdoc ts rest 2 x.
Definition Fr ts (rs : list (option E)) x (_ : d_more ts rs x) : Prop :=
  forall rest, hd_not K4 rest -> hd_not K3 (ts ++ rest) /\ parses_rep env (GAnd [GTok 44; GNamed n_doc gdoc]) (Z.of_nat (length rs)) ts rest x.

Lemma hd_sub : forall a b rest, incl a b -> hd_not b rest -> hd_not a rest.
Proof. intros a b rest Hi H k Hk. apply H. apply Hi. exact Hk. Qed.
Lemma hd_tok : forall ks t r, ~ In (tkind t) ks -> hd_not ks (t :: r).
Proof. intros ks t r H k Hk [= E0]. subst. contradiction. Qed.
Lemma mul_alt_rej : forall rest, hd_not (map fst muls) rest -> rej env 0 mul_alt (hdk rest) = true.
Proof.
  intros rest H. unfold mul_alt. cbn [rej]. destruct (hdk rest) as [x|] eqn:Ex.
  - pose proof (rej_muls 0 muls x) as R. cbn [rej] in R |- *. etransitivity; [exact R|]. apply forallb_forall. intros [k m] Hi. cbn [fst]. unfold acc.
    destruct (x =? k) eqn:Ek; [apply Z.eqb_eq in Ek; subst; exfalso; apply (H k); [apply (in_map fst) in Hi; exact Hi|exact Ex]|].
    destruct (mul_kind _ _ Hi) as (_ & _ & _ & _ & _ & Hf). destruct (k =? FLOAT) eqn:Ekf; [apply Z.eqb_eq in Ekf; contradiction|]. rewrite andb_false_r. reflexivity.
  - apply forallb_forall. intros g Hg. apply in_map_iff in Hg. destruct Hg as (o & <- & _). reflexivity.
Qed.
Lemma in_sub : forall (X : Type) (a b : list X), forallb (fun _ => true) a = true -> incl a b -> incl a b.
Proof. auto. Qed.

Lemma forward : (forall ts r x d, Ff ts r x d) /\ (forall a ts r x d, Fm a ts r x d) /\ (forall ts r x d, Ft ts r x d) /\
  (forall a ts r x d, Fa a ts r x d) /\ (forall ts r x d, Fd ts r x d) /\ (forall ts r x d, Fr ts r x d).
Proof.
  apply d_ind6.
  - (* lit *) intros k m t Hi Ht rest Hr. apply in_app_iff in Hi. destruct Hi as [Hi|Hi]; [apply (p_lit1 k); assumption|].
    apply (p_lit2 k); try assumption. apply Hr. left. reflexivity.
  - (* neg *) intros t ts a x Ht D0 IH rest Hr.
    apply (p_mid [] _ _ (t :: ts) rest 2 _ 0 eq_refl); [exists 45; cbn; rewrite Ht; tauto|reflexivity|].
    apply pr_and. apply (pr_seq_cons env (GTok 45) _ [t] ts rest (-1) []); [discriminate|apply pr_tok; exact Ht|].
    rewrite <- (app_nil_r ts) at 1. rewrite <- (app_nil_r (x ++ _)). apply (pr_seq_cons env _ [] ts [] rest (-1)); [discriminate| |apply pr_seq_nil].
    apply pr_act. apply IH. exact Hr.
  - (* pos *) intros t ts a x Ht D0 IH rest Hr. apply p_pos; [exact Ht|]. apply IH. exact Hr.
  - (* par *) intros t1 ts t2 a x H1 D0 IH H2 rest Hr.
    apply (p_mid [_] _ _ (t1 :: ts ++ [t2]) rest 3 _ 0 eq_refl); [exists 40; cbn; rewrite H1; tauto|cbn; rewrite H1; reflexivity|].
    apply pr_and. apply (pr_seq_cons env (GTok 40) _ [t1] (ts ++ [t2]) rest (-1) []); [discriminate|apply pr_tok; exact H1|].
    rewrite <- (app_nil_r x). apply (pr_seq_cons env _ [GTok 41] ts [t2] rest (-1)); [discriminate| |].
    + apply pr_named with (l := 2). apply IH. apply hd_tok. rewrite H2. unfold K3, K2. intros [X|[X|[X|X]]]; try discriminate. apply in_map_iff in X. destruct X as ([k m] & E1 & X). cbn in E1. apply mul_kind in X. lia.
    + apply (pr_seq_cons env _ [] [t2] [] rest (-1) [] []); [discriminate|apply pr_tok; exact H2|apply pr_seq_nil].
  - (* call0 *) intros t t1 t2 Ht H1 H2 rest Hr.
    apply (p_mid [_; _] _ _ [t; t1; t2] rest 4 _ 0 eq_refl); [exists IDENT; cbn; rewrite Ht; tauto|cbn; rewrite Ht; reflexivity|].
    unfold g_call. apply (pr_act env _ m_call [t; t1; t2] rest 4 [EvAct m_ARITY [] 0]). apply (pr_and env [GTok IDENT; GTok 40; gargs; GTok 41]).
    apply (pr_seq_cons env _ _ [t] [t1; t2] rest (-1) []); [discriminate|apply pr_tok; exact Ht|].
    apply (pr_seq_cons env _ _ [t1] [t2] rest (-1) []); [discriminate|apply pr_tok; exact H1|].
    apply (pr_seq_cons env gargs [GTok 41] [] [t2] rest 0 [EvAct m_ARITY [] 0] []); [discriminate| |].
    + unfold g_args. apply (pr_act env _ m_ARITY [] ([t2] ++ rest) 0 []). apply P_List0_no.
      apply (rej_sound env 1). cbn [app hdk]. rewrite H2. exact factor_rej.
    + apply (pr_seq_cons env _ [] [t2] [] rest (-1) [] []); [discriminate|apply pr_tok; exact H2|apply pr_seq_nil].
  - (* call *) intros t t1 ts a x ts' rs y t2 Ht H1 D0 IH D1 IHr H2 rest Hr.
    assert (N4 : hd_not K4 ([t2] ++ rest)).
    { apply hd_tok. rewrite H2. unfold K4, K3, K2. intros [X|[X|[X|[X|X]]]]; try discriminate. apply in_map_iff in X. destruct X as ([k m] & E1 & X). cbn in E1. apply mul_kind in X. lia. }
    destruct (IHr _ N4) as (N3 & PR).
    apply (p_mid [_; _] _ _ (t :: t1 :: (ts ++ ts') ++ [t2]) rest 4 _ 0 eq_refl); [exists IDENT; cbn; rewrite Ht; tauto|cbn; rewrite Ht; reflexivity|].
    change [EvAct m_ARITY (ts ++ ts') (Z.of_nat (length rs) + 1); EvAct m_call (t :: t1 :: (ts ++ ts') ++ [t2]) 4] with
      (([EvAct m_ARITY (ts ++ ts') (Z.of_nat (length rs) + 1)] : tr) ++ [EvAct m_call (t :: t1 :: (ts ++ ts') ++ [t2]) 4]). rewrite app_assoc.
    unfold g_call. apply pr_act. apply (pr_and env [GTok IDENT; GTok 40; gargs; GTok 41]).
    apply (pr_seq_cons env _ _ [t] (t1 :: (ts ++ ts') ++ [t2]) rest (-1) []); [discriminate|apply pr_tok; exact Ht|].
    apply (pr_seq_cons env _ _ [t1] ((ts ++ ts') ++ [t2]) rest (-1) []); [discriminate|apply pr_tok; exact H1|].
    rewrite <- (app_nil_r ((x ++ y) ++ _)). apply (pr_seq_cons env gargs [GTok 41] (ts ++ ts') [t2] rest (Z.of_nat (length rs) + 1)); [discriminate| |].
    + unfold g_args. apply pr_act. apply pr_list with (l := -1); [|exact PR]. apply pr_named with (l := 2). apply IH. exact N3.
    + apply (pr_seq_cons env _ [] [t2] [] rest (-1) [] []); [discriminate|apply pr_tok; exact H2|apply pr_seq_nil].
  - (* mul0 *) intros a rest Hr. split; [apply (hd_sub K1 K2); [unfold K1, K2; intros k [<-|[]]; left; reflexivity|exact Hr]|].
    exists 0. apply (pr_rep_end env _ rest 0). apply mul_alt_rej. intros k Hk. apply Hr. right. exact Hk.
  - (* mul *) intros a t m ts b x ts' r y Hi D0 IH D1 IHm rest Hr. destruct (IHm rest Hr) as (N1 & c & PR). split.
    + apply hd_tok. intros [X|[]]. apply mul_kind in Hi. lia.
    + exists (c + 1). apply (pr_rep_more env mul_alt (t :: ts) ts' rest (Z.of_nat (length (map g_mulop muls))) c); [|exact PR].
      unfold mul_alt. pose proof Hmd as ND. apply in_split in Hi. destruct Hi as (l1 & l2 & Em). rewrite Em in ND. rewrite map_app in ND. cbn [map] in ND. apply NoDup_remove_2 in ND.
      assert (Sub : forall o, In o l1 -> In o muls) by (intros o Ho; rewrite Em; apply in_app_iff; left; exact Ho).
      assert (Eq : map g_mulop muls = map g_mulop l1 ++ g_mulop (tkind t, m) :: map g_mulop l2) by (rewrite Em, map_app; reflexivity). rewrite Eq.
      apply (pr_or env (map g_mulop l1) _ _ (t :: ts) (ts' ++ rest) 2 _ 0).
      * cbn [app hdk]. rewrite rej_muls. apply forallb_forall. intros [k m'] Hk. cbn [fst]. unfold acc.
        destruct (mul_kind _ _ (Sub _ Hk)) as (_ & _ & _ & _ & _ & Hf). destruct (k =? FLOAT) eqn:Ekf; [apply Z.eqb_eq in Ekf; contradiction|]. rewrite andb_false_r, orb_false_r.
        destruct (tkind t =? k) eqn:Ek; [|reflexivity]. apply Z.eqb_eq in Ek. exfalso. apply ND. apply in_app_iff. left. cbn [fst] in *. rewrite Ek. apply (in_map fst) in Hk. exact Hk.
      * apply pr_and. apply (pr_seq_cons env (GTok (tkind t)) [_] [t] ts (ts' ++ rest) (-1) []); [discriminate|apply pr_tok; reflexivity|].
        rewrite <- (app_nil_r ts) at 1. rewrite <- (app_nil_r (x ++ _)). apply (pr_seq_cons env _ [] ts [] (ts' ++ rest) (-1)); [discriminate| |apply pr_seq_nil].
        apply pr_act. apply IH. exact N1.
  - (* term *) intros ts a x ts' r y D0 IH D1 IHm rest Hr. destruct (IHm rest Hr) as (N1 & c & PR). unfold g_term.
    apply (pr_and env [factor; GRep0 0 mul_alt]). apply (pr_seq_cons env factor _ ts ts' rest (-1)); [discriminate|apply IH; exact N1|].
    rewrite <- (app_nil_r ts') at 1. rewrite <- (app_nil_r y). apply (pr_seq_cons env _ [] ts' [] rest c); [discriminate|apply pr_rep0; exact PR|apply pr_seq_nil].
  - (* add0 *) intros a rest Hr. split; [apply (hd_sub K2 K3); [intros k Hk; right; right; exact Hk|exact Hr]|].
    exists 0. apply (pr_rep_end env _ rest 0). cbn. destruct (hdk rest) as [k|] eqn:Ek; [|reflexivity].
    assert (k <> 43 /\ k <> 45) as [X Y] by (split; intros ->; eapply Hr; [|exact Ek| |exact Ek]; simpl; tauto).
    apply Z.eqb_neq in X, Y. rewrite X, Y, !andb_false_r. reflexivity.
  - (* add *) intros a t m ts b x ts' r y Hi D0 IH D1 IHm rest Hr. destruct (IHm rest Hr) as (N1 & c & PR).
    assert (Ht : tkind t = 43 \/ tkind t = 45) by (destruct Hi as [[= H _]|[[= H _]|[]]]; auto).
    split.
    + apply hd_tok. intros [X|X]; [lia|]. apply in_map_iff in X. destruct X as ([k m'] & E1 & X). cbn in E1. apply mul_kind in X. lia.
    + exists (c + 1). apply (pr_rep_more env add_alt (t :: ts) ts' rest 2 c); [|exact PR].
      unfold add_alt, adds in *. destruct Hi as [[= E1 E2]|[[= E1 E2]|[]]]; subst m; cbn [map].
      * apply (pr_or env [] (g_addop muls (43, m_add)) [g_addop muls (45, m_sub)] (t :: ts) (ts' ++ rest) 2 _ 0); [reflexivity|]. unfold g_addop. cbn [fst snd].
        apply pr_and. apply (pr_seq_cons env (GTok 43) [_] [t] ts (ts' ++ rest) (-1) []); [discriminate|apply pr_tok; auto|].
        rewrite <- (app_nil_r ts) at 1. rewrite <- (app_nil_r (x ++ _)). apply (pr_seq_cons env _ [] ts [] (ts' ++ rest) (-1)); [discriminate| |apply pr_seq_nil].
        apply pr_act. apply pr_named with (l := 2). apply IH. exact N1.
      * apply (pr_or env [g_addop muls (43, m_add)] (g_addop muls (45, m_sub)) [] (t :: ts) (ts' ++ rest) 2 _ 0); [cbn; rewrite <- E1; reflexivity|]. unfold g_addop. cbn [fst snd].
        apply pr_and. apply (pr_seq_cons env (GTok 45) [_] [t] ts (ts' ++ rest) (-1) []); [discriminate|apply pr_tok; auto|].
        rewrite <- (app_nil_r ts) at 1. rewrite <- (app_nil_r (x ++ _)). apply (pr_seq_cons env _ [] ts [] (ts' ++ rest) (-1)); [discriminate| |apply pr_seq_nil].
        apply pr_act. apply pr_named with (l := 2). apply IH. exact N1.
  - (* doc *) intros ts a x ts' r y D0 IH D1 IHm rest Hr. destruct (IHm rest Hr) as (N1 & c & PR). unfold g_doc.
    apply (pr_and env [GNamed c_term_name gterm; GRep0 1 add_alt]). apply (pr_seq_cons env _ _ ts ts' rest (-1)); [discriminate|apply pr_named with (l := 2); apply IH; exact N1|].
    rewrite <- (app_nil_r ts') at 1. rewrite <- (app_nil_r y). apply (pr_seq_cons env _ [] ts' [] rest c); [discriminate|apply pr_rep0; exact PR|apply pr_seq_nil].
  - (* more0 *) intros rest Hr. split; [apply (hd_sub K3 K4); [intros k Hk; right; exact Hk|exact Hr]|].
    apply (pr_rep_end env _ rest 0). cbn. destruct (hdk rest) as [k|] eqn:Ek; [|reflexivity].
    assert (X : k <> 44) by (intros ->; eapply Hr; [left; reflexivity|exact Ek]). apply Z.eqb_neq in X. rewrite X, andb_false_r. reflexivity.
  - (* more *) intros t ts a x ts' rs y Ht D0 IH D1 IHr rest Hr. destruct (IHr rest Hr) as (N1 & PR). split.
    + apply hd_tok. rewrite Ht. unfold K3, K2. intros [X|[X|[X|X]]]; try discriminate. apply in_map_iff in X. destruct X as ([k m] & E1 & X). cbn in E1. apply mul_kind in X. lia.
    + replace (Z.of_nat (length (a :: rs))) with (Z.of_nat (length rs) + 1) by (cbn [length]; lia).
      apply (pr_rep_more env _ (t :: ts) ts' rest 2); [|exact PR].
      apply pr_and. apply (pr_seq_cons env (GTok 44) [_] [t] ts (ts' ++ rest) (-1) []); [discriminate|apply pr_tok; exact Ht|].
      rewrite <- (app_nil_r ts) at 1. rewrite <- (app_nil_r x). apply (pr_seq_cons env _ [] ts [] (ts' ++ rest) (-1)); [discriminate| |apply pr_seq_nil].
      apply pr_named with (l := 2). apply IH. exact N1.
Qed.

(** ** Only expressions are parsed *)
Lemma named_inv : forall v g src n l x, peg env (GNamed v g) src (OOk n l) x -> exists l' x', peg env g src (OOk n l') x'.
Proof.
  intros v g src n l x H. inversion H; subst. destruct o as [m l'| |]; try discriminate. match goal with H : with_len _ _ = _ |- _ => cbn in H; injection H as -> _ end. eauto.
Qed.
Lemma and4_inv : forall g h i j src n l x, peg env (GAnd [g; h; i; j]) src (OOk n l) x -> g <> GNil -> h <> GNil -> i <> GNil -> j <> GNil ->
  exists n1 n2 n3 n4 l1 l2 l3 l4 x1 x2 x3 x4, n = (n1 + (n2 + (n3 + n4)))%nat /\ peg env g src (OOk n1 l1) x1 /\ peg env h (skipn n1 src) (OOk n2 l2) x2 /\
    peg env i (skipn n2 (skipn n1 src)) (OOk n3 l3) x3 /\ peg env j (skipn n3 (skipn n2 (skipn n1 src))) (OOk n4 l4) x4.
Proof.
  intros g h i j src n l x H Hg Hh Hi Hj. destruct (and_inv _ _ _ _ _ _ H) as (p & s0 & l' & tr' & H1). apply seq_inv in H1.
  destruct (H1 Hg) as (n1 & n2 & l1 & l2 & tr1 & tr2 & -> & P1 & H2). apply seq_inv in H2.
  destruct (H2 Hh) as (n3 & n4 & l3 & l4 & tr3 & tr4 & -> & P2 & H3). apply seq_inv in H3.
  destruct (H3 Hi) as (n5 & n6 & l5 & l6 & tr5 & tr6 & -> & P3 & H4). apply seq_inv in H4.
  destruct (H4 Hj) as (n7 & n8 & l7 & l8 & tr7 & tr8 & -> & P4 & H5). apply seq_inv in H5. subst n8. rewrite Nat.add_0_r.
  exists n1, n3, n5, n7. eauto 16.
Qed.
Lemma list0_inv : forall id a b src n l x, peg env (GList id a b true) src (OOk n l) x -> n = 0%nat \/
  exists n1 n2 l1 x1 x2 c, n = (n1 + n2)%nat /\ peg env a src (OOk n1 l1) x1 /\ peg_rep env (GAnd [b; a]) (skipn n1 src) (inl (c, n2)) x2.
Proof. intros id a b src n l x H. inversion H; subst; [right|left; reflexivity]. eexists _, _, _, _, _, _. eauto. Qed.
Lemma anytok_inv : forall k src n l x, peg env (GTok k) src (OOk n l) x -> exists t r, src = t :: r /\ n = 1%nat /\ tok_ok k t.
Proof. intros k src n l x H. inversion H; subst. eauto. Qed.

Definition Bf (N : nat) : Prop := forall n src l x, (n <= N)%nat -> peg env factor src (OOk n l) x -> (1 <= n)%nat /\ exists r y, d_factor (firstn n src) r y.
Section Step.
Variable N : nat.
Variable HB : Bf N.
Lemma muls_back : forall k n src c x a, (n <= k)%nat -> (n <= N)%nat -> peg_rep env mul_alt src (inl (c, n)) x -> exists r y, d_muls a (firstn n src) r y.
Proof.
  induction k as [|k IH]; intros n src c x a Hk Hn H; apply rep_inv in H; destruct H as [(-> & _)|(n1 & n2 & l & x1 & x2 & c' & -> & H1 & H2)];
    try (do 2 eexists; apply D_mul0); apply or_inv in H1; destruct H1 as (g & l' & x' & Hi & H1); apply in_map_iff in Hi; destruct Hi as ([o m] & <- & Hi);
    apply and2_inv in H1; try discriminate; destruct H1 as (n3 & n4 & l3 & l4 & x3 & x4 & -> & H3 & H4); cbn [fst snd] in *;
    apply tok_inv in H3; try (apply mul_kind in Hi; tauto); destruct H3 as (t & rr & -> & -> & Kt); [lia|]; apply act_inv in H4; destruct H4 as (x5 & H4); cbn [skipn] in H4.
  destruct (HB n4 rr _ _ ltac:(lia) H4) as (_ & b & yb & Db). change (skipn (1 + n4) (t :: rr)) with (skipn n4 rr) in H2.
  destruct (IH n2 (skipn n4 rr) c' x2 (opt2 (bin m) a b) ltac:(lia) ltac:(lia) H2) as (r & y & Dm).
  do 2 eexists. change (firstn (1 + n4 + n2) (t :: rr)) with (t :: firstn (n4 + n2) rr). rewrite firstn_sum. eapply D_mul; [rewrite Kt; exact Hi|exact Db|exact Dm].
Qed.
Lemma term_back : forall n src l x, (n <= N)%nat -> peg env gterm src (OOk n l) x -> (1 <= n)%nat /\ exists r y, d_term (firstn n src) r y.
Proof.
  intros n src l x Hn H. apply and2_inv in H; try discriminate. destruct H as (n1 & n2 & l1 & l2 & x1 & x2 & -> & H1 & H2). apply rep0_inv in H2.
  destruct (HB n1 src _ _ ltac:(lia) H1) as (L & a & y & Da). destruct (muls_back n2 n2 _ _ _ a ltac:(lia) ltac:(lia) H2) as (r & y' & Dm).
  split; [lia|]. rewrite firstn_sum. do 2 eexists. eapply D_term; eassumption.
Qed.
Lemma adds_back : forall k n src c x a, (n <= k)%nat -> (n <= N)%nat -> peg_rep env add_alt src (inl (c, n)) x -> exists r y, d_adds a (firstn n src) r y.
Proof.
  induction k as [|k IH]; intros n src c x a Hk Hn H; apply rep_inv in H; destruct H as [(-> & _)|(n1 & n2 & l & x1 & x2 & c' & -> & H1 & H2)];
    try (do 2 eexists; apply D_add0); apply or_inv in H1; destruct H1 as (g & l' & x' & Hi & H1); apply in_map_iff in Hi; destruct Hi as ([o m] & <- & Hi);
    apply and2_inv in H1; try discriminate; destruct H1 as (n3 & n4 & l3 & l4 & x3 & x4 & -> & H3 & H4); cbn [fst snd] in *;
    apply tok_inv in H3; try (destruct Hi as [[= <- _]|[[= <- _]|[]]]; discriminate); destruct H3 as (t & rr & -> & -> & Kt); [lia|]; apply act_inv in H4; destruct H4 as (x5 & H4); cbn [skipn] in H4.
  apply named_inv in H4. destruct H4 as (l6 & x6 & H4).
  destruct (term_back n4 rr _ _ ltac:(lia) H4) as (_ & b & yb & Db). change (skipn (1 + n4) (t :: rr)) with (skipn n4 rr) in H2.
  destruct (IH n2 (skipn n4 rr) c' x2 (opt2 (bin m) a b) ltac:(lia) ltac:(lia) H2) as (r & y & Dm).
  do 2 eexists. change (firstn (1 + n4 + n2) (t :: rr)) with (t :: firstn (n4 + n2) rr). rewrite firstn_sum. eapply D_add; [rewrite Kt; exact Hi|exact Db|exact Dm].
Qed.
Lemma doc_back : forall n src l x, (n <= N)%nat -> peg env gdoc src (OOk n l) x -> (1 <= n)%nat /\ exists r y, d_doc (firstn n src) r y.
Proof.
  intros n src l x Hn H. apply and2_inv in H; try discriminate. destruct H as (n1 & n2 & l1 & l2 & x1 & x2 & -> & H1 & H2). apply rep0_inv in H2.
  apply named_inv in H1. destruct H1 as (l3 & x3 & H1).
  destruct (term_back n1 src _ _ ltac:(lia) H1) as (L & a & y & Da). destruct (adds_back n2 n2 _ _ _ a ltac:(lia) ltac:(lia) H2) as (r & y' & Dm).
  split; [lia|]. rewrite firstn_sum. do 2 eexists. eapply D_doc; eassumption.
Qed.
Lemma more_back : forall k n src c x, (n <= k)%nat -> (n <= N)%nat -> peg_rep env (GAnd [GTok 44; GNamed n_doc gdoc]) src (inl (c, n)) x -> exists rs y, d_more (firstn n src) rs y.
Proof.
  induction k as [|k IH]; intros n src c x Hk Hn H; apply rep_inv in H; destruct H as [(-> & _)|(n1 & n2 & l & x1 & x2 & c' & -> & H1 & H2)];
    try (do 2 eexists; apply D_more0); apply and2_inv in H1; try discriminate; destruct H1 as (n3 & n4 & l3 & l4 & x3 & x4 & -> & H3 & H4);
    apply tok_inv in H3; try discriminate; destruct H3 as (t & rr & -> & -> & Kt); [lia|]; cbn [skipn] in H4.
  apply named_inv in H4. destruct H4 as (l6 & x6 & H4).
  destruct (doc_back n4 rr _ _ ltac:(lia) H4) as (_ & b & yb & Db). change (skipn (1 + n4) (t :: rr)) with (skipn n4 rr) in H2.
  destruct (IH n2 (skipn n4 rr) c' x2 ltac:(lia) ltac:(lia) H2) as (rs & y & Dm).
  do 2 eexists. change (firstn (1 + n4 + n2) (t :: rr)) with (t :: firstn (n4 + n2) rr). rewrite firstn_sum. eapply D_more; eassumption.
Qed.
End Step.
Lemma factor_back : forall N, Bf N.
Proof.
  induction N as [N IH] using (well_founded_induction lt_wf). intros n src l x Hn H.
  eapply var_inv in H; [|exact env_factor]. destruct H as (l1 & x1 & H). apply or_inv in H. destruct H as (g & l2 & x2 & Hi & H).
  assert (Leaf : forall k m, In (k, m) (leaves1 ++ leaves2) -> peg env (g_leaf (k, m)) src (OOk n l2) x2 -> (1 <= n)%nat /\ exists r y, d_factor (firstn n src) r y).
  { intros k m Hk Hp. apply act_inv in Hp. destruct Hp as (x3 & Hp). apply anytok_inv in Hp. destruct Hp as (t & rr & -> & -> & Ht). split; [lia|]. do 2 eexists. cbn [firstn]. eapply D_lit; eassumption. }
  rewrite !in_app_iff in Hi. destruct Hi as [Hi|[Hi|[Hi|Hi]]].
  - apply in_map_iff in Hi. destruct Hi as ([k m] & <- & Hi). apply (Leaf k m); [apply in_app_iff; left; exact Hi|exact H].
  - destruct Hi as [<-|[<-|[<-|[]]]].
    + apply and2_inv in H; try discriminate. destruct H as (n1 & n2 & l3 & l4 & x3 & x4 & -> & H1 & H2). apply tok_inv in H1; [|discriminate].
      destruct H1 as (t & rr & -> & -> & Kt). apply act_inv in H2. destruct H2 as (x5 & H2). cbn [skipn] in H2.
      destruct (IH n2 ltac:(lia) n2 rr _ _ (Nat.le_refl _) H2) as (_ & r & y & D0). split; [lia|]. do 2 eexists. apply D_neg; eassumption.
    + apply and3_inv in H; try discriminate. destruct H as (n1 & n2 & n3 & l3 & l4 & l5 & x3 & x4 & x5 & -> & H1 & H2 & H3). apply tok_inv in H1; [|discriminate].
      destruct H1 as (t & rr & -> & -> & Kt). cbn [skipn] in H2, H3. apply named_inv in H2. destruct H2 as (l6 & x6 & H2). apply tok_inv in H3; [|discriminate]. destruct H3 as (t2 & r2 & E2 & -> & Kt2).
      destruct (doc_back n2 (IH n2 ltac:(lia)) n2 rr _ _ (Nat.le_refl _) H2) as (_ & r & y & D0). split; [lia|]. do 2 eexists.
      change (firstn (1 + (n2 + 1)) (t :: rr)) with (t :: firstn (n2 + 1) rr). rewrite firstn_sum, E2. apply D_par; eassumption.
    + apply act_inv in H. destruct H as (x3 & H). apply and4_inv in H; try discriminate.
      destruct H as (n1 & n2 & n3 & n4 & l3 & l4 & l5 & l6 & x4 & x5 & x6 & x7 & -> & H1 & H2 & H3 & H4). apply tok_inv in H1; [|discriminate].
      destruct H1 as (t & rr & -> & -> & Kt). cbn [skipn] in H2, H3, H4. apply tok_inv in H2; [|discriminate]. destruct H2 as (t1 & r1 & -> & -> & Kt1). cbn [skipn] in H3, H4.
      apply tok_inv in H4; [|discriminate]. destruct H4 as (t2 & r2 & E2 & -> & Kt2). apply act_inv in H3. destruct H3 as (x8 & H3). split; [lia|].
      apply list0_inv in H3. destruct H3 as [-> | (n5 & n6 & l7 & x9 & x10 & c & -> & H5 & H6)].
      * cbn [skipn] in E2. subst r1. do 2 eexists. cbn [Nat.add firstn]. apply D_call0; assumption.
      * apply named_inv in H5. destruct H5 as (l8 & x11 & H5).
        destruct (doc_back n5 (IH n5 ltac:(lia)) n5 r1 _ _ (Nat.le_refl _) H5) as (_ & r & y & D0).
        destruct (more_back n6 (IH n6 ltac:(lia)) n6 n6 _ _ _ (Nat.le_refl _) (Nat.le_refl _) H6) as (rs & y' & D1). do 2 eexists.
        change (firstn (1 + (1 + (n5 + n6 + 1))) (t :: t1 :: r1)) with (t :: t1 :: firstn (n5 + n6 + 1) r1). rewrite firstn_sum, E2, firstn_sum. cbn [firstn]. apply D_call; eassumption.
  - apply in_map_iff in Hi. destruct Hi as ([k m] & <- & Hi). apply (Leaf k m); [apply in_app_iff; right; exact Hi|exact H].
  - destruct Hi as [<-|[]]. apply and2_inv in H; try discriminate. destruct H as (n1 & n2 & l3 & l4 & x3 & x4 & -> & H1 & H2). apply tok_inv in H1; [|discriminate].
    destruct H1 as (t & rr & -> & -> & Kt). cbn [skipn] in H2. destruct (IH n2 ltac:(lia) n2 rr _ _ (Nat.le_refl _) H2) as (_ & r & y & D0). split; [lia|]. do 2 eexists. apply D_pos; eassumption.
Qed.
(** A complete match performs the actions of an expression. *)
Lemma exact_match : forall src l x, peg env gdoc src (OOk (length src) l) x -> exists r, d_doc src r x.
Proof.
  intros src l x H. destruct (doc_back _ (factor_back (length src)) _ _ _ _ (Nat.le_refl _) H) as (_ & r & y & D0). rewrite firstn_all in D0. exists r.
  pose proof (proj1 (proj2 (proj2 (proj2 (proj2 forward)))) _ _ _ D0 [] ltac:(intros k _; discriminate)) as P. unfold parses in P. rewrite app_nil_r in P.
  destruct (peg_det env _ _ _ _ _ _ H P) as (_ & ->). exact D0.
Qed.
End Shape.
