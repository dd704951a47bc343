(** What grammars match does not depend on what [norm] forgets (C37). *)
From Verif Require Import Base Token Grammar PegSpec MatchProofs Matcher Compiler GramSyntax CompilerProofs CompilerTop CompilerMore CompilerDen PrintBack PropCode.

Section Lang.
Context {A T : Type}.
Notation G := (gr A T).

(** matching without lengths, traces and [!]; [k] counts rules *)
Section Plain.
Variable nenv : bytes -> option G.
Inductive am : nat -> G -> list token -> option nat -> Prop :=
| m_tok : forall k kind t src, tok_ok kind t -> am k (GTok kind) (t :: src) (Some 1%nat)
| m_tok_no : forall k kind src, (forall t r, src = t :: r -> ~ tok_ok kind t) -> am k (GTok kind) src None
| m_true : forall k src, am k GTrue src (Some 0%nat)
| m_eof : forall k, am k GEOF [] (Some 0%nat)
| m_eof_no : forall k t src, am k GEOF (t :: src) None
| m_peek : forall k g src r, am k g src r -> am k (GPeek g) src (option_map (fun _ => 0%nat) r)
| m_not : forall k g src r, am k g src r -> am k (GNot g) src (match r with Some _ => None | None => Some 0%nat end)
| m_and : forall k gs src r, am_seq k gs src r -> am k (GAnd gs) src r
| m_or : forall k gs src r, am_alt k gs src r -> am k (GOr gs) src r
| m_rep0 : forall k id g src n, am_rep k g src n -> am k (GRep0 id g) src (Some n)
| m_rep1 : forall k id g src n m, am k g src (Some n) -> am_rep k g (skipn n src) m -> am k (GRep1 id g) src (Some (n + m)%nat)
| m_rep1_no : forall k id g src, am k g src None -> am k (GRep1 id g) src None
| m_opt : forall k id g src r, am k g src r -> am k (GRep01 id g) src (Some (match r with Some n => n | None => 0%nat end))
| m_list : forall k id a b z src n m, am k a src (Some n) -> am_rep k (GAnd [b; a]) (skipn n src) m -> am k (GList id a b z) src (Some (n + m)%nat)
| m_list_no : forall k id a b (z : bool) src, am k a src None -> am k (GList id a b z) src (if z then Some 0%nat else None)
| m_var : forall k v g src r, nenv v = Some g -> am k g src r -> am (S k) (GVar v) src r
with am_seq : nat -> list G -> list token -> option nat -> Prop :=
| q_nil : forall k src, am_seq k [] src (Some 0%nat)
| q_ok : forall k g gs src n r, am k g src (Some n) -> am_seq k gs (skipn n src) r -> am_seq k (g :: gs) src (option_map (Nat.add n) r)
| q_no : forall k g gs src, am k g src None -> am_seq k (g :: gs) src None
with am_alt : nat -> list G -> list token -> option nat -> Prop :=
| t_nil : forall k src, am_alt k [] src None
| t_ok : forall k g gs src n, am k g src (Some n) -> am_alt k (g :: gs) src (Some n)
| t_next : forall k g gs src r, am k g src None -> am_alt k gs src r -> am_alt k (g :: gs) src r
with am_rep : nat -> G -> list token -> nat -> Prop :=
| e_end : forall k g src, am k g src None -> am_rep k g src 0
| e_more : forall k g src n m, am k g src (Some n) -> am_rep k g (skipn n src) m -> am_rep k g src (n + m).
End Plain.
Scheme am_mut := Induction for am Sort Prop with amseq_mut := Induction for am_seq Sort Prop with amalt_mut := Induction for am_alt Sort Prop with amrep_mut := Induction for am_rep Sort Prop.
Combined Scheme am_ind4 from am_mut, amseq_mut, amalt_mut, amrep_mut.

Variable nenv : bytes -> option G.
Notation am' := (am nenv). Notation seq' := (am_seq nenv). Notation alt' := (am_alt nenv). Notation rep' := (am_rep nenv).
Lemma am_mono : (forall k g src r, am' k g src r -> forall k', (k <= k')%nat -> am' k' g src r) /\ (forall k gs src r, seq' k gs src r -> forall k', (k <= k')%nat -> seq' k' gs src r) /\
  (forall k gs src r, alt' k gs src r -> forall k', (k <= k')%nat -> alt' k' gs src r) /\ (forall k g src n, rep' k g src n -> forall k', (k <= k')%nat -> rep' k' g src n).
Proof.
  apply am_ind4; intros; try (econstructor; eauto; fail).
  destruct k' as [|k']; [lia|]. econstructor; [eassumption|]. apply H. lia.
Qed.
Lemma seq_cons : forall k g gs src r, seq' k (g :: gs) src r <-> (exists n r1, am' k g src (Some n) /\ seq' k gs (skipn n src) r1 /\ r = option_map (Nat.add n) r1) \/ (am' k g src None /\ r = None).
Proof.
  intros k g gs src r. split.
  - intro H. inversion H; subst; [left|right]; eauto 6.
  - intros [(n & r1 & H1 & H2 & ->)|(H & ->)]; econstructor; eauto.
Qed.
Lemma opt_add : forall n m r, option_map (Nat.add n) (option_map (Nat.add m) r) = option_map (Nat.add (n + m)) r.
Proof. intros n m [x|]; cbn; [f_equal; lia|reflexivity]. Qed.
Lemma seq_app : forall k l L src r, seq' k (l ++ L) src r <-> (exists n r1, seq' k l src (Some n) /\ seq' k L (skipn n src) r1 /\ r = option_map (Nat.add n) r1) \/ (seq' k l src None /\ r = None).
Proof.
  intros k l L. induction l as [|g l IH]; intros src r; cbn [app].
  - split.
    + intro H. left. exists 0%nat, r. split; [constructor|]. split; [exact H|]. destruct r; reflexivity.
    + intros [(n & r1 & H1 & H2 & ->)|(H & _)]; [|inversion H]. inversion H1; subst. destruct r1; exact H2.
  - rewrite seq_cons. split.
    + intros [(n & r1 & H1 & H2 & ->)|(H1 & ->)].
      * apply IH in H2. destruct H2 as [(n2 & r2 & H2 & H3 & ->)|(H2 & ->)].
        -- left. exists (n + n2)%nat, r2. split; [exact (q_ok _ _ _ _ _ _ _ H1 H2)|]. rewrite skipn_skipn' in H3. split; [exact H3|apply opt_add].
        -- right. split; [exact (q_ok _ _ _ _ _ _ _ H1 H2)|reflexivity].
      * right. split; [constructor; exact H1|reflexivity].
    + intros [(n & r1 & H1 & H2 & ->)|(H & ->)]; apply seq_cons in H1 || apply seq_cons in H.
      * destruct H1 as [(n1 & r2 & H3 & H4 & E)|(_ & E)]; [|discriminate]. destruct r2 as [n2|]; [|discriminate]. cbn in E. injection E as ->.
        left. exists n1, (option_map (Nat.add n2) r1). split; [exact H3|]. split; [|symmetry; apply opt_add]. apply IH. left. exists n2, r1. rewrite skipn_skipn'. auto.
      * destruct H as [(n1 & r2 & H3 & H4 & E)|(H3 & _)]; [|right; auto]. destruct r2; [discriminate|]. left. exists n1, None. split; [exact H3|]. split; [|reflexivity]. apply IH. right. auto.
Qed.
Lemma seq_seqs : forall k g src r, is_nil g = false -> (seq' k (seqs g) src r <-> am' k g src r).
Proof.
  intros k g src r N. destruct (is_and g) eqn:E.
  - destruct g; try discriminate. cbn [seqs]. split; intro H; [constructor; exact H|inversion H; assumption].
  - assert (X : seqs g = [g]) by (destruct g; try reflexivity; discriminate). rewrite X. split; intro H.
    + inversion H as [|? ? ? ? n r1 H1 H2|]; subst; [|assumption]. inversion H2; subst. cbn. rewrite Nat.add_0_r. exact H1.
    + destruct r as [n|]; [|constructor; exact H]. replace (Some n) with (option_map (Nat.add n) (Some 0%nat)) by (cbn; f_equal; lia). eapply q_ok; [exact H|constructor].
Qed.
Lemma group_seq : forall k L src r, am' k (group GAnd L) src r <-> seq' k L src r.
Proof.
  intros k [|x [|y l]] src r; cbn [group]; [split; intro H; [inversion H; assumption|constructor; exact H]| |split; intro H; [inversion H; assumption|constructor; exact H]].
  split; intro H.
  - destruct r as [n|]; [|constructor; exact H]. replace (Some n) with (option_map (Nat.add n) (Some 0%nat)) by (cbn; f_equal; lia). eapply q_ok; [exact H|constructor].
  - inversion H as [|? ? ? ? n r1 H1 H2|]; subst; [|assumption]. inversion H2; subst. cbn. rewrite Nat.add_0_r. exact H1.
Qed.
Lemma alt_app : forall k l L src r, alt' k (l ++ L) src r <-> (exists n, alt' k l src (Some n) /\ r = Some n) \/ (alt' k l src None /\ alt' k L src r).
Proof.
  intros k l L. induction l as [|g l IH]; intros src r; cbn [app].
  - split; [intro H; right; split; [constructor|exact H]|]. intros [(n & H & _)|(_ & H)]; [inversion H|exact H].
  - split.
    + intro H. inversion H as [|? ? ? ? n H1|? ? ? ? ? H1 H2]; subst; [left; exists n; split; [constructor; exact H1|reflexivity]|].
      apply IH in H2. destruct H2 as [(n & H2 & ->)|(H2 & H3)]; [left; exists n; split; [apply t_next; assumption|reflexivity]|right; split; [apply t_next; assumption|exact H3]].
    + intros [(n & H & ->)|(H & H2)].
      * inversion H as [|? ? ? ? ? H1|? ? ? ? ? H1 H3]; subst; [constructor; exact H1|]. apply t_next; [exact H1|]. apply IH. left. eauto.
      * inversion H as [| |? ? ? ? ? H1 H3]; subst. apply t_next; [exact H1|]. apply IH. right. auto.
Qed.
Lemma alt_alts : forall k g src r, alt' k (alts g) src r <-> am' k g src r.
Proof.
  intros k g src r. destruct (is_or g) eqn:E.
  - destruct g; try discriminate. cbn [alts]. split; intro H; [constructor; exact H|inversion H; assumption].
  - assert (X : alts g = [g]) by (destruct g; try reflexivity; discriminate). rewrite X. split; intro H.
    + inversion H as [|? ? ? ? n H1|? ? ? ? ? H1 H2]; subst; [exact H1|]. inversion H2; subst. exact H1.
    + destruct r as [n|]; [constructor; exact H|]. apply t_next; [exact H|constructor].
Qed.
Lemma group_alt : forall k L src r, am' k (group GOr L) src r <-> alt' k L src r.
Proof.
  intros k [|x [|y l]] src r; cbn [group]; [split; intro H; [inversion H; assumption|constructor; exact H]| |split; intro H; [inversion H; assumption|constructor; exact H]].
  split; intro H.
  - destruct r as [n|]; [constructor; exact H|]. apply t_next; [exact H|constructor].
  - inversion H as [|? ? ? ? n H1|? ? ? ? ? H1 H2]; subst; [exact H1|]. inversion H2; subst. exact H1.
Qed.
Lemma rep_ext : forall k g g', (forall src r, am' k g src r -> am' k g' src r) -> forall src n, rep' k g src n -> rep' k g' src n.
Proof.
  intros k g g' H src n R. remember k as k0 eqn:Ek. revert Ek. induction R as [k0 g src H1|k0 g src n m H1 H2 IH]; intros ->; [apply e_end|eapply e_more]; eauto.
Qed.
Lemma pair_seq : forall k (a b : G) src r, is_nil (norm a) = false -> is_nil (norm b) = false ->
  (am' k (norm (GAnd [b; a])) src r <-> am' k (GAnd [norm b; norm a]) src r).
Proof.
  intros k a b src r Na Nb. cbn [norm flat_map]. rewrite app_nil_r, group_seq, seq_app.
  transitivity (seq' k ([norm b] ++ [norm a]) src r); [|split; intro H; [constructor; exact H|inversion H; assumption]]. rewrite seq_app.
  assert (S1 : forall x src r, seq' k [x] src r <-> am' k x src r) by (intros x s0 r0; exact (iff_sym (group_seq k [x] s0 r0))).
  split; intros [(n & r1 & H1 & H2 & ->)|(H & ->)]; [left; exists n, r1|right|left; exists n, r1|right]; rewrite ?S1, ?seq_seqs in * by assumption; auto.
Qed.

(** ** A set of rules *)
(** the rules that [g] uses by reference, without looking into named rules *)
Fixpoint tvars (g : G) : list bytes :=
  match g with
  | GNil | GTok _ | GTrue | GEOF | GNamed _ _ => []
  | GPeek g1 | GNot g1 | GRep0 _ g1 | GRep1 _ g1 | GRep01 _ g1 | GAct g1 _ | GTrans g1 _ => tvars g1
  | GAnd gs | GOr gs => flat_map tvars gs
  | GList _ a b _ => tvars a ++ tvars b
  | GVar v => [v]
  end.
(** no [!] in [g] *)
Fixpoint bangless (g : G) : bool :=
  match g with
  | GNil => false
  | GTok _ | GTrue | GEOF | GVar _ | GNamed _ _ => true
  | GPeek g1 | GNot g1 | GRep0 _ g1 | GRep1 _ g1 | GRep01 _ g1 | GAct g1 _ | GTrans g1 _ => bangless g1
  | GAnd gs | GOr gs => forallb bangless gs
  | GList _ a b _ => bangless a && bangless b
  end.
(** no list with [!] as separator *)
Fixpoint seps_ok (g : G) : bool :=
  match g with
  | GNil | GTok _ | GTrue | GEOF | GVar _ | GNamed _ _ => true
  | GPeek g1 | GNot g1 | GRep0 _ g1 | GRep1 _ g1 | GRep01 _ g1 | GAct g1 _ | GTrans g1 _ => seps_ok g1
  | GAnd gs | GOr gs => forallb seps_ok gs
  | GList _ a b _ => seps_ok a && seps_ok b && negb (is_nil (norm b))
  end.
Variable env : bytes -> option G.
Variable R : bytes -> G -> Prop.
Definition refers (g : G) : Prop := seps_ok g = true /\ (forall v b, In (v, b) (named g) -> R v b) /\ (forall v, In v (tvars g) -> exists b, env v = Some b /\ R v b).
Hypothesis closed : forall n g, R n g -> refers g.
Hypothesis Hnorm : forall n g, R n g -> nenv n = Some (norm g).

Lemma refers_list : forall gs, refers (GAnd gs) <-> Forall refers gs.
Proof.
  intro gs. unfold refers. cbn [named tvars seps_ok]. split.
  - intros (H0 & H1 & H2). rewrite forallb_forall in H0. apply Forall_forall. intros g Hg. split; [apply H0; exact Hg|]. split; intros; [apply H1|apply H2]; apply in_flat_map; eauto.
  - intro H. rewrite Forall_forall in H. split; [apply forallb_forall; intros g Hg; apply H; exact Hg|].
    split; intros v; [intros b Hb|intro Hb]; apply in_flat_map in Hb; destruct Hb as (g & Hg & Hb); destruct (H g Hg) as (_ & H1 & H2); auto.
Qed.
Lemma refers_pair : forall id a b z, refers (GList id a b z) -> refers a /\ refers b /\ is_nil (norm b) = false.
Proof.
  intros id a b z (H0 & H1 & H2). cbn [named tvars seps_ok] in *. apply andb_true_iff in H0. destruct H0 as (H0 & N). apply andb_true_iff in H0. destruct H0 as (Sa & Sb). apply negb_true_iff in N.
  repeat split; intros; try assumption; (apply H1 || apply H2); apply in_or_app; auto.
Qed.

Definition abs (o : outcome (A := A) (T := T)) : option nat := match o with OOk n _ => Some n | _ => None end.
Definition runs (o : outcome (A := A) (T := T)) : Prop := match o with OStop _ => False | _ => True end.
Lemma am_nil : forall k src r, ~ am' k GNil src r.
Proof. intros k src r H. inversion H. Qed.
Lemma not_nil : forall k g src r, am' k g src r -> is_nil g = false.
Proof. intros k g src r H. destruct g; try reflexivity. inversion H. Qed.

(** what a grammar matches, its normal form matches *)
Lemma to_norm :
  (forall g src o tr, peg env g src o tr -> refers g -> runs o -> exists k, am' k (norm g) src (abs o)) /\
  (forall p src0 gs ff src o tr, peg_seq env p src0 gs ff src o tr -> Forall refers gs -> runs o -> exists k, seq' k (flat_map (fun g => seqs (norm g)) gs) src (abs o)) /\
  (forall gs src o tr, peg_alt env gs src o tr -> Forall refers gs -> runs o -> exists k, alt' k (flat_map (fun g => alts (norm g)) gs) src (abs o)) /\
  (forall g src x tr, peg_rep env g src x tr -> refers g -> forall c n, x = inl (c, n) -> exists k, rep' k (norm g) src n).
Proof.
  destruct am_mono as (M1 & M2 & M3 & M4).
  apply (peg_ind4 A T env); cbn [norm].
  - intros src _ [].
  - intros kind t src H _ _. exists 0%nat. constructor. exact H.
  - intros kind src H _ _. exists 0%nat. constructor. exact H.
  - intros src _ _. exists 0%nat. constructor.
  - intros g src o tr H IH Hr Ho. destruct (IH Hr ltac:(destruct o; auto)) as (k & Hk). exists k. replace (abs (peek_out o)) with (option_map (fun _ => 0%nat) (abs o)) by (destruct o; reflexivity). constructor. exact Hk.
  - intros g src o tr H IH Hr Ho. destruct (IH Hr ltac:(destruct o; auto)) as (k & Hk). exists k.
    replace (abs (not_out o)) with (match abs o with Some _ => None | None => Some 0%nat end) by (destruct o; try reflexivity; destruct Ho). constructor. exact Hk.
  - intros _ _. exists 0%nat. constructor.
  - intros t src _ _. exists 0%nat. constructor.
  - intros gs src o tr H IH Hr Ho. apply refers_list in Hr. destruct (IH Hr ltac:(destruct o; auto)) as (k & Hk). exists k. apply group_seq. destruct o; exact Hk.
  - intros gs src o tr H IH Hr Ho. apply (refers_list gs) in Hr. destruct (IH Hr ltac:(destruct o; auto)) as (k & Hk). exists k. apply group_alt. destruct o; exact Hk.
  - intros id g src c n tr H IH Hr _. destruct (IH Hr c n eq_refl) as (k & Hk). exists k. constructor. exact Hk.
  - intros id g src k tr H IH _ [].
  - intros id g src n l c m tr1 tr2 H1 IH1 H2 IH2 Hr _. destruct (IH1 Hr Logic.I) as (k1 & K1). destruct (IH2 Hr c m eq_refl) as (k2 & K2). exists (Nat.max k1 k2).
    apply m_rep1; [eapply M1; [exact K1|lia]|eapply M4; [exact K2|lia]].
  - intros id g src n l k tr1 tr2 H1 IH1 H2 IH2 _ [].
  - intros id g src o tr H IH N Hr Ho. destruct o; [exfalso; apply N; exact Logic.I| |destruct Ho]. destruct (IH Hr Logic.I) as (k & Hk). exists k. apply m_rep1_no. exact Hk.
  - intros id g src o tr H IH Hr Ho. destruct (IH Hr ltac:(destruct o; auto)) as (k & Hk). exists k.
    replace (abs (opt_out o)) with (Some (match abs o with Some n => n | None => 0%nat end)) by (destruct o; try reflexivity; destruct Ho). constructor. exact Hk.
  - intros id a b l0 src n l c m tr1 tr2 H1 IH1 H2 IH2 Hr _. destruct (refers_pair _ _ _ _ Hr) as (Ra & Rb & Nb). destruct (IH1 Ra Logic.I) as (k1 & K1).
    destruct (IH2 (proj2 (refers_list [b; a]) (Forall_cons _ Rb (Forall_cons _ Ra (Forall_nil _)))) c m eq_refl) as (k2 & K2). exists (Nat.max k1 k2).
    assert (Na : is_nil (norm a) = false) by (eapply not_nil; exact K1).
    apply m_list; [eapply M1; [exact K1|lia]|]. cbn [flat_map] in K2. rewrite app_nil_r in K2.
    eapply rep_ext; [|eapply M4; [exact K2|lia]]. intros s r Hs. apply pair_seq; [exact Na|exact Nb|]. cbn [norm flat_map]. rewrite app_nil_r. exact Hs.
  - intros id a b l0 src n l k tr1 tr2 H1 IH1 H2 IH2 _ [].
  - intros id a b src tr H IH Hr _. destruct (refers_pair _ _ _ _ Hr) as (Ra & _). destruct (IH Ra Logic.I) as (k & Hk). exists k. exact (m_list_no _ _ _ _ (norm b) false _ Hk).
  - intros id a b src tr H IH Hr _. destruct (refers_pair _ _ _ _ Hr) as (Ra & _). destruct (IH Ra Logic.I) as (k & Hk). exists k. exact (m_list_no _ _ _ _ (norm b) true _ Hk).
  - intros id a b l0 src k tr H IH _ [].
  - intros v g src o tr He H IH Hr Ho. destruct Hr as (_ & _ & Hr). destruct (Hr v (or_introl eq_refl)) as (b & Hb & HR). rewrite He in Hb. injection Hb as <-.
    destruct (IH (closed v g HR) ltac:(destruct o; auto)) as (k & Hk). exists (S k). eapply m_var; [apply Hnorm; exact HR|]. destruct o; exact Hk.
  - intros v src He Hr _. destruct Hr as (_ & _ & Hr). destruct (Hr v (or_introl eq_refl)) as (b & Hb & _). congruence.
  - intros v g src o tr H IH Hr Ho. destruct Hr as (_ & Hr & _). pose proof (Hr v g (or_introl eq_refl)) as HR.
    destruct (IH (closed v g HR) ltac:(destruct o; auto)) as (k & Hk). exists (S k). eapply m_var; [apply Hnorm; exact HR|]. destruct o; exact Hk.
  - intros g a src n l tr H IH Hr _. exact (IH Hr Logic.I).
  - intros g a src o tr H IH _ Hr Ho. exact (IH Hr Ho).
  - intros g t src o tr H IH Hr Ho. exact (IH Hr Ho).
  (* sequences *)
  - intros p src0 ff src _ _. exists 0%nat. constructor.
  - intros p src0 gs ff src o tr H IH Hr Ho. inversion Hr; subst. exact (IH ltac:(assumption) Ho).
  - intros p src0 g gs ff src n l o tr1 tr2 N H1 IH1 H2 IH2 Hr Ho. inversion Hr; subst. destruct (IH1 ltac:(assumption) Logic.I) as (k1 & K1). destruct (IH2 ltac:(assumption) ltac:(destruct o; auto)) as (k2 & K2).
    exists (Nat.max k1 k2). cbn [flat_map]. apply seq_app. left. exists n, (abs o). split; [|split; [eapply M2; [exact K2|lia]|destruct o; reflexivity]].
    apply seq_seqs; [eapply not_nil; exact K1|]. eapply M1; [exact K1|lia].
  - intros p src0 g gs src tr N H IH Hr _. inversion Hr; subst. destruct (IH ltac:(assumption) Logic.I) as (k & K). exists k. cbn [flat_map]. apply seq_app. right. split; [|reflexivity].
    apply seq_seqs; [eapply not_nil; exact K|exact K].
  - intros p src0 g gs src tr N H IH _ [].
  - intros p src0 g gs ff src k tr N H IH _ [].
  (* choices *)
  - intros src _ _. exists 0%nat. constructor.
  - intros g gs src n l tr H IH Hr _. inversion Hr; subst. destruct (IH ltac:(assumption) Logic.I) as (k & K). exists k. cbn [flat_map]. apply alt_app. left. exists n. split; [apply alt_alts; exact K|reflexivity].
  - intros g gs src o tr1 tr2 H1 IH1 H2 IH2 Hr Ho. inversion Hr; subst. destruct (IH1 ltac:(assumption) Logic.I) as (k1 & K1). destruct (IH2 ltac:(assumption) Ho) as (k2 & K2).
    exists (Nat.max k1 k2). cbn [flat_map]. apply alt_app. right. split; [apply alt_alts; eapply M1; [exact K1|lia]|eapply M3; [exact K2|lia]].
  - intros g gs src k tr H IH _ [].
  (* repetitions *)
  - intros g src tr H IH Hr c n [= <- <-]. destruct (IH Hr Logic.I) as (k & K). exists k. constructor. exact K.
  - intros g src n l c m tr1 tr2 H1 IH1 H2 IH2 Hr c' n' [= <- <-]. destruct (IH1 Hr Logic.I) as (k1 & K1). destruct (IH2 Hr c m eq_refl) as (k2 & K2). exists (Nat.max k1 k2).
    eapply e_more; [eapply M1; [exact K1|lia]|eapply M4; [exact K2|lia]].
  - intros; discriminate.
  - intros; discriminate.
Qed.

(** ** Back, without [!] *)
Hypothesis nobang : forall n g, R n g -> bangless g = true.
Lemma forallb_Forall : forall (f : G -> bool) l, forallb f l = true <-> Forall (fun g => f g = true) l.
Proof. intros f l. rewrite forallb_forall, Forall_forall. reflexivity. Qed.
Lemma group_bang : forall (c : list G -> G) L, (forall l, bangless (c l) = forallb bangless l) -> Forall (fun g => bangless g = true) L -> bangless (group c L) = true.
Proof. intros c [|x [|y l]] Hc H; cbn [group]; [rewrite Hc; reflexivity|inversion H; assumption|rewrite Hc; apply forallb_Forall; exact H]. Qed.
Lemma bang_norm : forall g, bangless g = true -> bangless (norm g) = true.
Proof.
  induction g using gr_ind'; cbn [bangless norm]; intro B; auto.
  - apply group_bang; [reflexivity|]. apply forall_flat. apply forallb_Forall in B. rewrite Forall_forall in *. intros g Hg. specialize (H g Hg (B g Hg)).
    destruct (norm g); cbn [seqs] in *; try discriminate; try (repeat constructor; assumption). apply forallb_Forall. exact H.
  - apply group_bang; [reflexivity|]. apply forall_flat. apply forallb_Forall in B. rewrite Forall_forall in *. intros g Hg. specialize (H g Hg (B g Hg)).
    destruct (norm g); cbn [alts] in *; try discriminate; try (repeat constructor; assumption). apply forallb_Forall. exact H.
  - apply andb_true_iff in B. apply andb_true_iff. split; [apply IHg1|apply IHg2]; apply B.
Qed.
Lemma bang_nil : forall g, bangless g = true -> is_nil (norm g) = false.
Proof. intros g H. apply bang_norm in H. destruct (norm g); try reflexivity; discriminate. Qed.

Lemma of_norm : forall k g, refers g -> bangless g = true -> forall src r, am' k (norm g) src r -> exists o tr, peg env g src o tr /\ runs o /\ abs o = r.
Proof.
  induction k as [k IHk] using (well_founded_induction lt_wf).
  assert (IHv : forall v k' g src r, (k' < k)%nat -> R v g -> am' k' (norm g) src r -> exists o tr, peg env g src o tr /\ runs o /\ abs o = r).
  { intros v k' g src r L HR. apply IHk; [exact L|eapply closed; exact HR|eapply nobang; exact HR]. }
  assert (REP : forall g, (forall src r, am' k (norm g) src r -> exists o tr, peg env g src o tr /\ runs o /\ abs o = r) ->
    forall src n, rep' k (norm g) src n -> exists c tr, peg_rep env g src (inl (c, n)) tr).
  { intros g Hg src n H. remember (norm g) as ng eqn:Eg. remember k as k0 eqn:Ek in H. revert Eg Ek. induction H as [k0 g0 src H1|k0 g0 src n m H1 H2 IH]; intros -> ->.
    - destruct (Hg _ _ H1) as ([n l| |s] & tr & P & Ro & E); try discriminate; [|destruct Ro]. exists 0, tr. apply R_end. exact P.
    - destruct (Hg _ _ H1) as ([n1 l| |s] & tr & P & Ro & E); try discriminate. injection E as <-. destruct (IH Hg eq_refl eq_refl) as (c & tr2 & P2). exists (c + 1), (tr ++ tr2). eapply R_more; eassumption. }
  induction g using gr_ind'; intros Hr B src r H0; cbn [bangless] in B; try discriminate; cbn [norm] in H0.
  - inversion H0; subst; [exists (OOk 1 (-1)), []|exists OFail, []]; (split; [constructor; assumption|split; [exact Logic.I|reflexivity]]).
  - inversion H0; subst. exists (OOk 0 (-1)), []. split; [constructor|split; [exact Logic.I|reflexivity]].
  - inversion H0 as [| | | | |k0 g0 s0 r0 H1 E1 E2 E3| | | | | | | | | |]; subst. destruct (IHg Hr B _ _ H1) as (o & tr & P & Ro & <-). exists (peek_out o), tr. split; [constructor; exact P|]. destruct o; (split; [exact Ro|reflexivity]).
  - inversion H0 as [| | | | | |k0 g0 s0 r0 H1 E1 E2 E3| | | | | | | | |]; subst. destruct (IHg Hr B _ _ H1) as (o & tr & P & Ro & <-). exists (not_out o), tr. split; [constructor; exact P|]. destruct o; (split; [exact Ro|try reflexivity; destruct Ro]).
  - inversion H0; subst; [exists (OOk 0 (-1)), []|exists OFail, []]; (split; [constructor|split; [exact Logic.I|reflexivity]]).
  - apply group_seq in H0. pose proof (proj1 (refers_list gs) Hr) as Hrs. apply forallb_Forall in B.
    assert (X : forall p src0 src r, seq' k (flat_map (fun g => seqs (norm g)) gs) src r -> exists o tr, peg_seq env p src0 gs false src o tr /\ runs o /\ abs o = r).
    { clear H0 Hr src r. intros p src0. induction H as [|g gs IHg _ IH]; intros src r Hs; inversion Hrs; subst; inversion B; subst; cbn [flat_map] in Hs.
      - inversion Hs; subst. exists (OOk 0 0), []. split; [constructor|split; [exact Logic.I|reflexivity]].
      - assert (Ng : g <> GNil) by (intros ->; discriminate). apply seq_app in Hs. destruct Hs as [(n & r1 & Q1 & Q2 & ->)|(Q1 & ->)]; apply seq_seqs in Q1; try (apply bang_nil; assumption).
        + destruct (IHg ltac:(assumption) ltac:(assumption) _ _ Q1) as ([n1 l| |s] & tr & P & Ro & E); try discriminate. injection E as ->.
          destruct (IH ltac:(assumption) ltac:(assumption) _ _ Q2) as (o & tr2 & P2 & Ro2 & <-). exists (shift n o), (tr ++ tr2). split; [eapply S_ok; eassumption|]. destruct o; (split; [exact Ro2|reflexivity]).
        + destruct (IHg ltac:(assumption) ltac:(assumption) _ _ Q1) as ([n1 l| |s] & tr & P & Ro & E); try discriminate; [|destruct Ro]. exists OFail, tr. split; [apply S_fail; assumption|split; [exact Logic.I|reflexivity]]. }
    destruct (X (GAnd gs) src src r H0) as (o & tr & P & Ro & <-). exists (with_len (Z.of_nat (length gs)) o), tr. split; [constructor; exact P|]. destruct o; (split; [exact Ro|reflexivity]).
  - apply group_alt in H0. pose proof (proj1 (refers_list gs) Hr) as Hrs. apply forallb_Forall in B.
    assert (X : forall src r, alt' k (flat_map (fun g => alts (norm g)) gs) src r -> exists o tr, peg_alt env gs src o tr /\ runs o /\ abs o = r).
    { clear H0 Hr src r. induction H as [|g gs IHg _ IH]; intros src r Hs; inversion Hrs; subst; inversion B; subst; cbn [flat_map] in Hs.
      - inversion Hs; subst. exists OFail, []. split; [constructor|split; [exact Logic.I|reflexivity]].
      - apply alt_app in Hs. destruct Hs as [(n & Q1 & ->)|(Q1 & Q2)]; apply alt_alts in Q1.
        + destruct (IHg ltac:(assumption) ltac:(assumption) _ _ Q1) as ([n1 l| |s] & tr & P & Ro & E); try discriminate. injection E as ->.
          exists (OOk n l), tr. split; [constructor; exact P|split; [exact Logic.I|reflexivity]].
        + destruct (IHg ltac:(assumption) ltac:(assumption) _ _ Q1) as ([n1 l| |s] & tr & P & Ro & E); try discriminate; [|destruct Ro].
          destruct (IH ltac:(assumption) ltac:(assumption) _ _ Q2) as (o & tr2 & P2 & Ro2 & <-). exists o, (tr ++ tr2). split; [eapply A_next; eassumption|auto]. }
    destruct (X src r H0) as (o & tr & P & Ro & <-). exists (with_len (Z.of_nat (length gs)) o), tr. split; [constructor; exact P|]. destruct o; (split; [exact Ro|reflexivity]).
  - inversion H0; subst. match goal with H : am_rep _ _ _ _ _ |- _ => destruct (REP g (fun s r => IHg Hr B s r) _ _ H) as (c & tr & P) end. eexists _, _. split; [apply P_Rep0; exact P|split; [exact Logic.I|reflexivity]].
  - inversion H0; subst.
    + match goal with H : am_rep _ _ _ _ _ |- _ => destruct (REP g (fun s r => IHg Hr B s r) _ _ H) as (c & tr & P) end.
      match goal with H : am _ _ _ _ _ |- _ => destruct (IHg Hr B _ _ H) as ([n1 l| |s] & tr1 & P1 & Ro & E) end; try discriminate. injection E as ->.
      eexists _, _. split; [eapply P_Rep1; eassumption|split; [exact Logic.I|reflexivity]].
    + match goal with H : am _ _ _ _ _ |- _ => destruct (IHg Hr B _ _ H) as ([n1 l| |s] & tr1 & P1 & Ro & E) end; try discriminate; [|destruct Ro].
      exists OFail, tr1. split; [apply P_Rep1_no; [exact P1|intros []]|split; [exact Logic.I|reflexivity]].
  - inversion H0; subst. match goal with H : am _ _ _ _ _ |- _ => destruct (IHg Hr B _ _ H) as (o & tr & P & Ro & <-) end. exists (opt_out o), tr. split; [constructor; exact P|]. destruct o; (split; [exact Ro|try reflexivity; destruct Ro]).
  - destruct (refers_pair _ _ _ _ Hr) as (Ra & Rb & Nb). apply andb_true_iff in B. destruct B as (Ba & Bb). inversion H0; subst.
    + match goal with H : am _ _ (norm g1) _ _ |- _ => destruct (IHg1 Ra Ba _ _ H) as ([n1 l| |s] & tr1 & P1 & Ro & E) end; try discriminate. injection E as ->.
      assert (X : forall src r, am' k (norm (GAnd [g2; g1])) src r -> exists o tr, peg env (GAnd [g2; g1]) src o tr /\ runs o /\ abs o = r).
      { clear - IHg1 IHg2 Ra Rb Ba Bb Nb. intros src r H. apply pair_seq in H; [|apply bang_nil; assumption|exact Nb]. inversion H as [| | | | | | |k0 gs0 s0 r0 Hs| | | | | | | |]; subst. clear H.
        assert (N1 : g1 <> GNil) by (intros ->; discriminate). assert (N2 : g2 <> GNil) by (intros ->; discriminate).
        apply seq_cons in Hs. destruct Hs as [(n & r1 & Q1 & Q2 & ->)|(Q1 & ->)]; destruct (IHg2 Rb Bb _ _ Q1) as ([n1 l| |s] & tr & P & Ro & E); try discriminate; try (destruct Ro; fail).
        - injection E as ->. apply seq_cons in Q2. destruct Q2 as [(n2 & r2 & Q2 & Q3 & ->)|(Q2 & ->)]; destruct (IHg1 Ra Ba _ _ Q2) as ([n3 l3| |s3] & tr3 & P3 & Ro3 & E3); try discriminate; try (destruct Ro3; fail).
          + injection E3 as ->. inversion Q3; subst. eexists _, _. split; [apply P_And; eapply S_ok; [exact N2|exact P|eapply S_ok; [exact N1|exact P3|apply S_nil]]|split; [exact Logic.I|reflexivity]].
          + eexists _, _. split; [apply P_And; eapply S_ok; [exact N2|exact P|eapply S_fail; [exact N1|exact P3]]|split; [exact Logic.I|reflexivity]].
        - eexists _, _. split; [apply P_And; eapply S_fail; [exact N2|exact P]|split; [exact Logic.I|reflexivity]]. }
      assert (Y : rep' k (norm (GAnd [g2; g1])) (skipn n src) m).
      { eapply rep_ext; [|eassumption]. intros s r0 Hs. apply pair_seq; [apply bang_nil; assumption|exact Nb|exact Hs]. }
      destruct (REP (GAnd [g2; g1]) X _ _ Y) as (c & tr & P). eexists _, _. split; [eapply P_List; eassumption|split; [exact Logic.I|reflexivity]].
    + match goal with H : am _ _ (norm g1) _ _ |- _ => destruct (IHg1 Ra Ba _ _ H) as ([n1 l| |s] & tr1 & P1 & Ro & E) end; try discriminate; [|destruct Ro].
      destruct l0; [exists (OOk 0 0), tr1|exists OFail, tr1]; (split; [constructor; exact P1|split; [exact Logic.I|reflexivity]]).
  - inversion H0; subst. destruct Hr as (_ & _ & Hr). destruct (Hr v (or_introl eq_refl)) as (b & Hb & HR).
    match goal with H : nenv v = Some _ |- _ => rewrite (Hnorm v b HR) in H; injection H as <- end.
    match goal with H : am _ _ (norm b) _ _ |- _ => destruct (IHv v _ _ _ _ ltac:(apply Nat.lt_succ_diag_r) HR H) as (o & tr & P & Ro & <-) end.
    exists (with_len (-1) o), tr. split; [eapply P_Var; eassumption|]. destruct o; (split; [exact Ro|reflexivity]).
  - inversion H0; subst. destruct Hr as (_ & Hr & _). pose proof (Hr v g (or_introl eq_refl)) as HR.
    match goal with H : nenv v = Some _ |- _ => rewrite (Hnorm v g HR) in H; injection H as <- end.
    match goal with H : am _ _ (norm g) _ _ |- _ => destruct (IHv v _ _ _ _ ltac:(apply Nat.lt_succ_diag_r) HR H) as (o & tr & P & Ro & <-) end.
    exists (with_len (-1) o), tr. split; [apply P_Named; exact P|]. destruct o; (split; [exact Ro|reflexivity]).
  - destruct (IHg Hr B _ _ H0) as (o & tr & P & Ro & <-). destruct o as [n l| |s]; [|exists OFail, tr; split; [apply P_Act_no; [exact P|intros []]|auto]|destruct Ro].
    eexists _, _. split; [eapply P_Act; exact P|split; [exact Logic.I|reflexivity]].
  - destruct (IHg Hr B _ _ H0) as (o & tr & P & Ro & <-). eexists o, _. split; [apply P_Trans; exact P|auto].
Qed.
End Lang.
