(** From tokens to values: matching a calculator's grammar. *)
From Coq Require Import String.
From Verif Require Import Base Token Utf8 Scanner Tokenize Grammar Matcher PegSpec MatchProofs MatchProofs2 MatchProofs3 MatchProofs4 MatchObs Wf PegTools Compiler CompilerBack Interp Calc CalcSpec CalcProofs CalcValue CalcActs.

(** the part of [exact] conditions on the shape, decided by computation *)
Definition shape_ok (leaves1 leaves2 muls : list (Z * bytes)) : Prop :=
  (forall l x, In l leaves1 -> In x [45; 40; 43; 41; IDENT] -> acc (fst l) x = false) /\
  (forall a l b, leaves1 = a ++ l :: b -> forall l' x, In l' a -> acc (fst l) x = true -> acc (fst l') x = false) /\
  (leaves2 = [] \/ exists m, leaves2 = [(IDENT, m)]) /\
  (forall o, In o muls -> ~ In (fst o) [40; 41; 43; 44; 45; FLOAT]) /\ NoDup (map fst muls).

Section Top.
Context {F X E : Type}.
Variable k : calc F X E.
Variable to_float : val F X unit E -> F.
Variable of_int : Z -> F.
Variable parse_float : bytes -> F + nerr.
Variables leaves1 leaves2 muls : list (Z * bytes).
Notation S := (est unit E unit).
Notation u := (kclient k to_float of_int parse_float).
Notation tbl := (ctable k to_float).
Notation env := (g_env leaves1 leaves2 muls).
Notation gdoc := (g_doc muls).
Hypothesis Hshape : shape_ok leaves1 leaves2 muls.
Hypothesis Hval : forall e, validateType to_float (k_emb k e) (k_type k) = Val (inl (k_emb k e)).
Hypothesis Hunemb : forall e, k_unemb k (k_emb k e) = Some e.
Hypothesis Hunret : forall e, k_unret k (k_emb k e) = inl e.
Hypothesis Hty : teq (k_type k) tstk = false /\ teq (k_type k) tipt = false.
Hypothesis Hlib0 : forall name l, k_lib k name = Some l -> l_variadic l = true -> l_arity l <> 0%nat.
Variable lit : bytes -> bytes -> option E.
Variable bin : bytes -> E -> E -> option E.
Hypothesis Hlit : forall kd m, In (kd, m) (leaves1 ++ leaves2) -> exists lf, tbl (36 :: m) = Some (fn_leaf lf) /\ isLen m = Some false /\
  (forall s, lit m s = leaf_val of_int parse_float lf s).
Hypothesis Hbin : forall kd m, In (kd, m) (muls ++ adds) -> exists f, tbl (36 :: m) = Some (pure k (lib2 f)) /\ (forall a b, bin m a b = f a b).
Notation call := (lib_call k).
Notation D := (d_doc leaves1 leaves2 muls lit bin (k_neg k) call).
Notation Vd := (v_doc (tab lit (leaves1 ++ leaves2)) (tab bin muls) (tab bin adds) (k_neg k) call).

Section N.
Variable ts : list token.
Hypothesis Hlen : forall n, 0 <= n <= Z.of_nat (length ts) -> k_to_len k (k_of_len k n) = Some n.
Lemma doc_gives : forall r y x, D ts r y -> good x -> gives u push y x r x.
Proof.
  intros r y x H Hx.
  refine (proj2 (proj1 (proj2 (proj2 (proj2 (proj2 (values leaves1 leaves2 muls lit bin (k_neg k) call (k_of_len k) u push good (length ts) _ _ _ _ _ _))))) ts r y H) (Nat.le_refl _) x Hx).
  - apply good_push.
  - intros kd m t l x0 Hi Hg. destruct (Hlit kd m Hi) as (lf & E1 & E2 & E3). rewrite E3. apply A_lit; assumption.
  - intros ts0 l a x0 Hg. apply A_neg; assumption.
  - intros kd m ts0 l a b x0 Hi Hg. destruct (Hbin kd m Hi) as (f & E1 & E2). rewrite E2. apply A_bin; assumption.
  - apply A_arity.
  - intros t ts0 l vs x0 Hl Hg. apply (A_call k to_float of_int parse_float (length ts)); assumption.
Qed.
Lemma doc_peg : forall r y, D ts r y -> peg env gdoc ts (OOk (length ts) 2) y.
Proof.
  intros r y H. destruct Hshape as (H1 & H2 & H3 & H4 & H5).
  pose proof (proj1 (proj2 (proj2 (proj2 (proj2 (forward leaves1 leaves2 muls H1 H2 H3 H4 H5 lit bin (k_neg k) call))))) ts r y H [] ltac:(intros ? _; discriminate)) as P.
  unfold parses in P. rewrite app_nil_r in P. exact P.
Qed.
(** an expression with a value *)
Lemma match_value : forall v s, Vd ts (Some v) -> good (ust s) ->
  exists s', returns env (lift u) gdoc ts s (length ts) None s' /\ ust s' = push v (ust s).
Proof.
  intros v s H Hg. apply doc_iff in H. destruct H as (y & H). pose proof (doc_gives _ _ _ H Hg) as G. cbn in G.
  destruct (proj1 (sim_all env u) _ _ _ _ (doc_peg _ _ H)) as (f & Hf). specialize (Hf f (Nat.le_refl _) s).
  destruct Hf as [(p & s' & _ & Hp)|(s' & Hr & _ & Ho)].
  - specialize (Hp []). rewrite G in Hp. discriminate.
  - exists s'. split; [exists f; exact Hr|]. specialize (Ho []). rewrite G in Ho. injection Ho as <-. reflexivity.
Qed.
(** an expression without a value *)
Lemma match_novalue : forall s, Vd ts None -> good (ust s) -> exists e src s', panics env (lift u) gdoc ts s (PUser (PvRuntime e src)) s'.
Proof.
  intros s H Hg. apply doc_iff in H. destruct H as (y & H). pose proof (doc_gives _ _ _ H Hg) as G. cbn in G. destruct (G []) as (e & src & x & G0).
  destruct (proj1 (sim_all env u) _ _ _ _ (doc_peg _ _ H)) as (f & Hf). specialize (Hf f (Nat.le_refl _) s).
  destruct Hf as [(p & s' & Hr & Hp)|(s' & _ & _ & Ho)].
  - specialize (Hp []). rewrite G0 in Hp. injection Hp as <- _. exists e, src, s', f. exact Hr.
  - specialize (Ho []). rewrite G0 in Ho. discriminate.
Qed.
(** nothing else *)
Lemma match_only : forall s s', good (ust s) -> returns env (lift u) gdoc ts s (length ts) None s' -> exists v, Vd ts (Some v) /\ ust s' = push v (ust s).
Proof.
  intros s s' Hg (f & Hr). destruct (ret_sound env u _ _ _ _ _ _ _ Hr) as (y & Hp & Ho). destruct Hshape as (H1 & H2 & H3 & H4 & H5).
  destruct (exact_match leaves1 leaves2 muls H1 H2 H3 H4 H5 lit bin (k_neg k) call _ _ _ Hp) as (r & H). pose proof (doc_gives _ _ _ H Hg) as G. specialize (Ho []).
  destruct r as [v|]; cbn in G.
  - exists v. split; [apply doc_iff; exists y; exact H|]. rewrite G in Ho. injection Ho as <-. reflexivity.
  - destruct (G []) as (e & src & x & G0). rewrite G0 in Ho. discriminate.
Qed.
Lemma value_unique : forall r r', Vd ts r -> Vd ts r' -> r = r'.
Proof.
  intros r r' H H'. apply doc_iff in H, H'. destruct H as (y & H). destruct H' as (y' & H').
  destruct (peg_det env _ _ _ _ _ _ (doc_peg _ _ H) (doc_peg _ _ H')) as (_ & <-).
  set (x := mkE 0 tt [] tt : S). assert (Hx : good x) by reflexivity.
  pose proof (doc_gives _ _ x H Hx) as G. pose proof (doc_gives _ _ x H' Hx) as G'.
  destruct r as [v|], r' as [v'|]; cbn in G, G'; [..|reflexivity].
  - specialize (G []). rewrite G' in G. injection G as ->. reflexivity.
  - destruct (G' []) as (e & src & x' & G0). rewrite G in G0. discriminate.
  - destruct (G []) as (e & src & x' & G0). rewrite G' in G0. discriminate.
Qed.
End N.
End Top.
