(** Building declarative matches: grammars that fail on the next token without any action, and successful
    matches of a known token sequence. *)
From Verif Require Import Base Token Grammar PegSpec MatchProofs MatchProofs2.

Section Tools.
Context {A T : Type}.
Variable env : bytes -> option (gr A T).

(** kind of the next token *)
Definition hdk (src : list token) : option Z := match src with t :: _ => Some (tkind t) | [] => None end.

(** [rej n g k]: [g] certainly fails, without calling any action, when the next token has kind [k]
    ([None]: no token left). [n] bounds the unfolding of rule variables. *)
Fixpoint rej (n : nat) : gr A T -> option Z -> bool :=
  fix go (g : gr A T) (k : option Z) : bool :=
    match g with
    | GTok kind => match k with Some k => negb ((k =? kind) || ((k =? INT) && (kind =? FLOAT))) | None => true end
    | GEOF => match k with Some _ => true | None => false end
    | GAnd (g1 :: _) => match g1 with GNil => false | _ => go g1 k end
    | GOr gs => forallb (fun g1 => go g1 k) gs
    | GRep1 _ g1 | GNamed _ g1 | GAct g1 _ | GPeek g1 => go g1 k
    | GList _ a _ false => go a k
    | GVar v => match n with
                | O => false
                | S n' => match env v with Some g1 => rej n' g1 k | None => true end
                end
    | _ => false
    end.

Lemma rej_sound : forall n g src, rej n g (hdk src) = true -> peg env g src OFail [].
Proof.
  assert (St : forall n, (forall v src, rej n (GVar v) (hdk src) = true -> peg env (GVar v) src OFail []) ->
    forall g src, rej n g (hdk src) = true -> peg env g src OFail []).
  { intros n Hv g. induction g using gr_ind'; intros src Hr.
    - destruct n; discriminate.
    - apply P_Tok_fail. intros t r -> [E|[E1 E2]]; destruct n; cbn [rej hdk] in Hr.
      1,2: rewrite E, Z.eqb_refl in Hr; discriminate.
      1,2: rewrite E1, E2, !Z.eqb_refl, orb_true_r in Hr; discriminate.
    - destruct n; discriminate.
    - apply (P_Peek env g src OFail []). apply IHg. destruct n; exact Hr.
    - destruct n; discriminate.
    - destruct src; [destruct n; discriminate|apply P_EOF_fail].
    - destruct gs as [|g1 gs]; [destruct n; discriminate|]. inversion H; subst.
      assert (N : g1 <> GNil) by (intros ->; destruct n; discriminate).
      apply (P_And env (g1 :: gs) src OFail []). apply S_fail; [exact N|]. apply H2.
      destruct n; destruct g1; try exact Hr; congruence.
    - apply (P_Or env gs src OFail []).
      assert (Hr' : forallb (fun g1 => rej n g1 (hdk src)) gs = true) by (destruct n; exact Hr). clear Hr.
      induction gs as [|g1 gs IHg]; [apply A_nil|].
      inversion H; subst. cbn [forallb] in Hr'. apply andb_true_iff in Hr'. destruct Hr' as [R1 R2].
      apply (A_next env g1 gs src OFail [] []); [apply H2; exact R1|apply IHg; assumption].
    - destruct n; discriminate.
    - apply P_Rep1_no; [apply IHg; destruct n; exact Hr|simpl; tauto].
    - destruct n; discriminate.
    - destruct l0; [destruct n; discriminate|]. apply P_List_no. apply IHg1. destruct n; exact Hr.
    - apply Hv. exact Hr.
    - apply (P_Named env _ g src OFail []). apply IHg. destruct n; exact Hr.
    - apply P_Act_no; [apply IHg; destruct n; exact Hr|simpl; tauto].
    - destruct n; discriminate. }
  induction n as [|n IHn]; apply St; intros v src H; [discriminate|].
  cbn [rej] in H. destruct (env v) as [g1|] eqn:E.
  - apply (P_Var env v g1 src OFail [] E). apply IHn. exact H.
  - apply P_Var_none. exact E.
Qed.

(** ** Successful matches of [ts], followed by [rest] *)
Definition parses (g : gr A T) (ts rest : list token) (l : Z) (tr : list (@ev A T)) : Prop := peg env g (ts ++ rest) (OOk (length ts) l) tr.
Definition parses_seq (gs : list (gr A T)) (ts rest : list token) (tr : list (@ev A T)) : Prop :=
  forall p src0 ff, peg_seq env p src0 gs ff (ts ++ rest) (OOk (length ts) 0) tr.
Definition parses_rep (g : gr A T) (c : Z) (ts rest : list token) (tr : list (@ev A T)) : Prop :=
  peg_rep env g (ts ++ rest) (inl (c, length ts)) tr.

Lemma skipn_here : forall (X : Type) (a b : list X), skipn (length a) (a ++ b) = b.
Proof. induction a; simpl; auto. Qed.
Lemma firstn_here : forall (X : Type) (a b : list X), firstn (length a) (a ++ b) = a.
Proof. induction a; simpl; intros; f_equal; auto. Qed.

Lemma pr_tok : forall t k rest, tkind t = k -> parses (GTok k) [t] rest (-1) [].
Proof. intros t k rest H. apply P_Tok. left. exact H. Qed.
Lemma pr_seq_nil : forall rest, parses_seq [] [] rest [].
Proof. intros rest p src0 ff. apply S_nil. Qed.
Lemma pr_seq_cons : forall g gs ts1 ts2 rest l tr1 tr2, g <> GNil -> parses g ts1 (ts2 ++ rest) l tr1 -> parses_seq gs ts2 rest tr2 ->
  parses_seq (g :: gs) (ts1 ++ ts2) rest (tr1 ++ tr2).
Proof.
  intros g gs ts1 ts2 rest l tr1 tr2 Hg H1 H2 p src0 ff. rewrite app_length.
  apply (S_ok env p src0 g gs ff ((ts1 ++ ts2) ++ rest) (length ts1) l (OOk (length ts2) 0)); [exact Hg|rewrite <- app_assoc; exact H1|].
  rewrite <- app_assoc, skipn_here. apply H2.
Qed.
Lemma pr_and : forall gs ts rest tr, parses_seq gs ts rest tr -> parses (GAnd gs) ts rest (Z.of_nat (length gs)) tr.
Proof. intros gs ts rest tr H. apply (P_And env gs (ts ++ rest) (OOk (length ts) 0) tr). apply H. Qed.
Lemma pr_or : forall gs1 g gs2 ts rest l tr n, forallb (fun g1 => rej n g1 (hdk (ts ++ rest))) gs1 = true ->
  parses g ts rest l tr -> parses (GOr (gs1 ++ g :: gs2)) ts rest (Z.of_nat (length (gs1 ++ g :: gs2))) tr.
Proof.
  intros gs1 g gs2 ts rest l tr n Hr H. apply (P_Or env _ _ (OOk (length ts) l) tr).
  induction gs1 as [|g1 gs1 IH]; [apply A_ok; exact H|].
  cbn [forallb] in Hr. apply andb_true_iff in Hr. destruct Hr as [R1 R2].
  apply (A_next env g1 (gs1 ++ g :: gs2) (ts ++ rest) _ [] tr); [apply (rej_sound n); exact R1|apply IH; exact R2].
Qed.
Lemma pr_act : forall g a ts rest l tr, parses g ts rest l tr -> parses (GAct g a) ts rest l (tr ++ [EvAct a ts l]).
Proof.
  intros g a ts rest l tr H. unfold parses. pose proof (P_Act env g a (ts ++ rest) (length ts) l tr H) as X. rewrite firstn_here in X. exact X.
Qed.
Lemma pr_var : forall v g ts rest l tr, env v = Some g -> parses g ts rest l tr -> parses (GVar v) ts rest (-1) tr.
Proof. intros v g ts rest l tr E H. apply (P_Var env v g (ts ++ rest) (OOk (length ts) l) tr E H). Qed.
Lemma pr_named : forall v g ts rest l tr, parses g ts rest l tr -> parses (GNamed v g) ts rest (-1) tr.
Proof. intros v g ts rest l tr H. apply (P_Named env v g (ts ++ rest) (OOk (length ts) l) tr H). Qed.
Lemma pr_rep_end : forall g rest n, rej n g (hdk rest) = true -> parses_rep g 0 [] rest [].
Proof. intros g rest n H. apply R_end. apply (rej_sound n). exact H. Qed.
Lemma pr_rep_more : forall g ts1 ts2 rest l c tr1 tr2, parses g ts1 (ts2 ++ rest) l tr1 -> parses_rep g c ts2 rest tr2 ->
  parses_rep g (c + 1) (ts1 ++ ts2) rest (tr1 ++ tr2).
Proof.
  intros g ts1 ts2 rest l c tr1 tr2 H1 H2. unfold parses_rep. rewrite app_length.
  apply (R_more env g _ (length ts1) l c (length ts2)); [rewrite <- app_assoc; exact H1|].
  rewrite <- app_assoc, skipn_here. exact H2.
Qed.
Lemma pr_rep0 : forall id g c ts rest tr, parses_rep g c ts rest tr -> parses (GRep0 id g) ts rest c tr.
Proof. intros id g c ts rest tr H. apply P_Rep0. exact H. Qed.
Lemma pr_rep1 : forall id g ts1 ts2 rest l c tr1 tr2, parses g ts1 (ts2 ++ rest) l tr1 -> parses_rep g c ts2 rest tr2 ->
  parses (GRep1 id g) (ts1 ++ ts2) rest (c + 1) (tr1 ++ tr2).
Proof.
  intros id g ts1 ts2 rest l c tr1 tr2 H1 H2. unfold parses. rewrite app_length.
  apply (P_Rep1 env id g _ (length ts1) l c (length ts2)); [rewrite <- app_assoc; exact H1|].
  rewrite <- app_assoc, skipn_here. exact H2.
Qed.
Lemma pr_rep1' : forall id g c ts rest tr, parses_rep g c ts rest tr -> c <> 0 -> parses (GRep1 id g) ts rest c tr.
Proof.
  intros id g c ts rest tr H Hc. unfold parses_rep, parses in *. remember (inl (c, length ts)) as o eqn:E. destruct H.
  - injection E as E1 E2. congruence.
  - injection E as <- <-. eapply P_Rep1; eassumption.
  - discriminate.
  - discriminate.
Qed.
Lemma pr_rep01 : forall id g ts rest l tr, parses g ts rest l tr -> parses (GRep01 id g) ts rest 1 tr.
Proof. intros id g ts rest l tr H. apply (P_Rep01 env id g (ts ++ rest) (OOk (length ts) l) tr H). Qed.
Lemma pr_rep01_no : forall id g rest n, rej n g (hdk rest) = true -> parses (GRep01 id g) [] rest 0 [].
Proof. intros id g rest n H. apply (P_Rep01 env id g rest OFail []). apply (rej_sound n). exact H. Qed.
Lemma pr_list : forall id a b l0 ts1 ts2 rest l c tr1 tr2, parses a ts1 (ts2 ++ rest) l tr1 -> parses_rep (GAnd [b; a]) c ts2 rest tr2 ->
  parses (GList id a b l0) (ts1 ++ ts2) rest (c + 1) (tr1 ++ tr2).
Proof.
  intros id a b l0 ts1 ts2 rest l c tr1 tr2 H1 H2. unfold parses. rewrite app_length.
  apply (P_List env id a b l0 _ (length ts1) l c (length ts2)); [rewrite <- app_assoc; exact H1|].
  rewrite <- app_assoc, skipn_here. exact H2.
Qed.
Lemma pr_list0_no : forall id a b rest n, rej n a (hdk rest) = true -> parses (GList id a b true) [] rest 0 [].
Proof. intros id a b rest n H. apply P_List0_no. apply (rej_sound n). exact H. Qed.
Lemma pr_true : forall rest, parses GTrue [] rest (-1) [].
Proof. intro rest. apply P_True. Qed.
End Tools.
