(** A decidable sufficient condition for termination: no left recursion and no repetition of a rule
    that may match the empty sequence.  [nul v] says that rule [v] may match empty, [rank] orders the
    rules so that every rule only starts with rules of smaller rank. *)
From Verif Require Import Base Token Grammar PegSpec MatchProofs MatchProofs2 MatchProofs3.

Section Wf.
Context {A T : Type}.
Variable nul : bytes -> bool.
Variable rank : bytes -> nat.

(** May [g] succeed without consuming a token? *)
Fixpoint may_empty (g : gr A T) : bool :=
  match g with
  | GTok _ => false
  | GNil | GTrue | GEOF | GPeek _ | GNot _ | GRep0 _ _ | GRep01 _ _ => true
  | GAnd gs => forallb may_empty gs
  | GOr gs => existsb may_empty gs
  | GRep1 _ g => may_empty g
  | GList _ a _ l0 => l0 || may_empty a
  | GVar v => nul v
  | GNamed _ g | GAct g _ | GTrans g _ => may_empty g
  end.

(** [wf_gr r g]: repetitions make progress; with [r = Some k], every rule variable that can be reached
    before a token was consumed has rank below [k]. *)
Fixpoint wf_gr (r : option nat) (g : gr A T) : bool :=
  match g with
  | GNil | GTok _ | GTrue | GEOF => true
  | GPeek g | GNot g | GRep01 _ g | GNamed _ g | GAct g _ | GTrans g _ => wf_gr r g
  | GAnd gs =>
      (fix go (r : option nat) (gs : list (gr A T)) : bool :=
         match gs with
         | [] => true
         | g :: gs' => wf_gr r g && go (if may_empty g then r else None) gs'
         end) r gs
  | GOr gs => forallb (wf_gr r) gs
  | GRep0 _ g | GRep1 _ g => negb (may_empty g) && wf_gr r g
  | GList _ a b _ =>
      wf_gr r a && wf_gr (if may_empty a then r else None) b && negb (may_empty a && may_empty b)
  | GVar v => match r with None => true | Some k => (rank v <? k)%nat end
  end.

Variable env : bytes -> option (gr A T).

Definition nul_ok : Prop := forall v g, env v = Some g -> may_empty g = true -> nul v = true.
Definition rank_ok : Prop := forall v g, env v = Some g -> wf_gr (Some (rank v)) g = true.

Hypothesis Hnul : nul_ok.

Lemma may_empty_sound :
  (forall g src o tr, peg env g src o tr -> forall l, o = OOk 0 l -> may_empty g = true) /\
  (forall p src0 gs ff src o tr, peg_seq env p src0 gs ff src o tr -> forall l, o = OOk 0 l -> forallb may_empty gs = true) /\
  (forall gs src o tr, peg_alt env gs src o tr -> forall l, o = OOk 0 l -> existsb may_empty gs = true) /\
  (forall g src o tr, peg_rep env g src o tr -> True).
Proof.
  apply peg_ind4; intros; try exact I; try discriminate; try reflexivity; simpl.
  - destruct o as [m l'| |k]; try discriminate. simpl in H0. inversion H0; subst. eapply H; eauto.
  - destruct o as [m l'| |k]; try discriminate. simpl in H0. inversion H0; subst. eapply H; eauto.
  - inversion H1. assert (n = 0%nat) by lia. subst. eapply H; eauto.
  - subst. eapply H; eauto.
  - inversion H1. assert (n = 0%nat) by lia. subst. rewrite (H _ eq_refl). apply orb_true_r.
  - destruct o as [m l'| |k]; try discriminate. simpl in H0. inversion H0; subst.
    eapply Hnul; eauto.
  - destruct o as [m l'| |k]; try discriminate. simpl in H0. inversion H0; subst. eapply H; eauto.
  - inversion H0; subst. eapply H; eauto.
  - subst. eapply H; eauto.
  - subst. eapply H; eauto.
  - subst. eapply H; eauto.
  - destruct o as [m l'| |k]; try discriminate. simpl in H1. inversion H1.
    assert (n = 0%nat) by lia. assert (m = 0%nat) by lia. subst.
    rewrite (H _ eq_refl). rewrite (H0 _ eq_refl). reflexivity.
  - inversion H0; subst. rewrite (H _ eq_refl). reflexivity.
  - erewrite H0 by eassumption. apply orb_true_r.
Qed.

Lemma peg_progress : forall g src n l tr, may_empty g = false -> peg env g src (OOk n l) tr -> (1 <= n)%nat.
Proof.
  intros g src n l tr Hm H. destruct n; [|lia].
  rewrite (proj1 may_empty_sound g src _ tr H l eq_refl) in Hm. discriminate.
Qed.

Lemma peg_bound :
  (forall g src o tr, peg env g src o tr -> forall n l, o = OOk n l -> (n <= length src)%nat) /\
  (forall p src0 gs ff src o tr, peg_seq env p src0 gs ff src o tr -> forall n l, o = OOk n l -> (n <= length src)%nat) /\
  (forall gs src o tr, peg_alt env gs src o tr -> forall n l, o = OOk n l -> (n <= length src)%nat) /\
  (forall g src o tr, peg_rep env g src o tr -> forall c n, o = inl (c, n) -> (n <= length src)%nat).
Proof.
  apply peg_ind4; intros; try discriminate; simpl;
    try (match goal with H : OOk _ _ = OOk _ _ |- _ => inversion H; subst end; simpl; lia).
  - destruct o; simpl in *; inversion H0; lia.
  - destruct o; simpl in *; inversion H0; lia.
  - destruct o; simpl in *; inversion H0; subst; eapply H; eauto.
  - destruct o; simpl in *; inversion H0; subst; eapply H; eauto.
  - inversion H0; subst. eapply H; eauto.
  - inversion H1; subst. specialize (H n l eq_refl). specialize (H0 c m eq_refl).
    rewrite skipn_length in H0. lia.
  - subst. simpl in n. tauto.
  - destruct o; simpl in *; inversion H0; subst; [eapply H; eauto|lia].
  - inversion H1; subst. specialize (H n l eq_refl). specialize (H0 c m eq_refl).
    rewrite skipn_length in H0. lia.
  - destruct o; simpl in *; inversion H0; subst; eapply H; eauto.
  - destruct o; simpl in *; inversion H0; subst; eapply H; eauto.
  - inversion H0; subst. eapply H; eauto.
  - subst. simpl in n. tauto.
  - subst. eapply H; eauto.
  - subst. eapply H; eauto.
  - destruct o as [m l'| |k]; simpl in *; inversion H1; subst.
    specialize (H n l eq_refl). specialize (H0 m l0 eq_refl). rewrite skipn_length in H0. lia.
  - inversion H0; subst. eapply H; eauto.
  - subst. eapply H0; eauto.
  - inversion H0; lia.
  - inversion H1; subst. specialize (H n l eq_refl). specialize (H0 c m eq_refl).
    rewrite skipn_length in H0. lia.
Qed.

Lemma wf_None : forall g r, wf_gr r g = true -> wf_gr None g = true.
Proof.
  induction g using gr_ind'; intros r Hw; simpl in *; try reflexivity; try (eapply IHg; eassumption).
  - revert r Hw. induction gs as [|g gs IHgs]; intros r Hw; [reflexivity|].
    inversion H; subst. apply andb_true_iff in Hw. destruct Hw as [Hw1 Hw2].
    apply andb_true_iff. split; [eapply H2; eassumption|].
    specialize (IHgs H3 _ Hw2). destruct (may_empty g); exact IHgs.
  - rewrite forallb_forall in *. intros x Hx. rewrite Forall_forall in H. eapply H; eauto.
  - apply andb_true_iff in Hw. destruct Hw as [Hw1 Hw2]. apply andb_true_iff. split; [exact Hw1|eapply IHg; eassumption].
  - apply andb_true_iff in Hw. destruct Hw as [Hw1 Hw2]. apply andb_true_iff. split; [exact Hw1|eapply IHg; eassumption].
  - rewrite !andb_true_iff in *. destruct Hw as [[Hw1 Hw2] Hw3].
    split; [split; [eapply IHg1; eassumption|]|exact Hw3].
    destruct (may_empty g1); eapply IHg2; eassumption.
Qed.

Definition total_at (g : gr A T) (src : list token) : Prop := exists o tr, peg env g src o tr.

Lemma rep_total : forall g, may_empty g = false -> forall L,
  (forall src, (length src <= L)%nat -> total_at g src) ->
  forall n src, (length src <= n)%nat -> (n <= L)%nat -> exists o tr, peg_rep env g src o tr.
Proof.
  intros g Hm L Ht n. induction n as [|n IH]; intros src Hl HL;
    destruct (Ht src) as (o & tr & H); try lia.
  - destruct o as [k l| |k].
    + pose proof (peg_progress _ _ _ _ _ Hm H). pose proof (proj1 peg_bound _ _ _ _ H _ _ eq_refl). lia.
    + do 2 eexists. apply R_end; eauto.
    + do 2 eexists. apply R_stop; eauto.
  - destruct o as [k l| |k].
    + pose proof (peg_progress _ _ _ _ _ Hm H) as Hk.
      pose proof (proj1 peg_bound _ _ _ _ H _ _ eq_refl) as Hb.
      destruct (IH (skipn k src)) as (o2 & tr2 & H2); [rewrite skipn_length; lia|lia|].
      destruct o2 as [[c m]|k2]; do 2 eexists; [eapply R_more|eapply R_more_stop]; eauto.
    + do 2 eexists. apply R_end; eauto.
    + do 2 eexists. apply R_stop; eauto.
Qed.

Lemma total_step : forall src r,
  (forall src' g, (length src' < length src)%nat -> wf_gr None g = true -> total_at g src') ->
  (forall v g, env v = Some g -> match r with None => True | Some k => (rank v < k)%nat end -> total_at g src) ->
  forall g, wf_gr r g = true -> total_at g src.
Proof.
  intros src r Hshort Hvar g.
  (* also at shorter inputs, for use in loops *)
  assert (Hall : forall g, (wf_gr r g = true -> total_at g src) -> wf_gr r g = true ->
    forall src', (length src' < length src)%nat \/ src' = src -> total_at g src').
  { intros g0 H0 Hw src' [Hlt| ->]; [|auto]. apply Hshort; [exact Hlt|]. eapply wf_None; eauto. }
  induction g using gr_ind'; intros Hw; simpl in Hw.
  - do 2 eexists; constructor.
  - destruct src as [|t src0].
    + do 2 eexists. apply P_Tok_fail. discriminate.
    + destruct ((tkind t =? k) || ((tkind t =? INT) && (k =? FLOAT))) eqn:E.
      * do 2 eexists. apply P_Tok. apply tok_ok_dec. exact E.
      * do 2 eexists. apply P_Tok_fail. intros t' r' Ht Hc. inversion Ht; subst.
        apply tok_ok_dec in Hc. congruence.
  - do 2 eexists; constructor.
  - destruct (IHg Hw) as (o & tr & H). do 2 eexists. apply P_Peek; eauto.
  - destruct (IHg Hw) as (o & tr & H). do 2 eexists. apply P_Not; eauto.
  - destruct src; do 2 eexists; constructor.
  - (* And *)
    assert (Hseq : forall gs', Forall (fun g => wf_gr r g = true -> total_at g src) gs' ->
      forall p src0 ff,
      (fix go (r : option nat) (gs : list (gr A T)) : bool :=
         match gs with
         | [] => true
         | g :: gs' => wf_gr r g && go (if may_empty g then r else None) gs'
         end) r gs' = true ->
      exists o tr, peg_seq env p src0 gs' ff src o tr).
    { assert (Hlate : forall gs' p src0 ff src',
        (length src' < length src)%nat ->
        (fix go (r : option nat) (gs : list (gr A T)) : bool :=
           match gs with
           | [] => true
           | g :: gs' => wf_gr r g && go (if may_empty g then r else None) gs'
           end) None gs' = true ->
        exists o tr, peg_seq env p src0 gs' ff src' o tr).
      { induction gs' as [|g gs' IH']; intros p src0 ff src' Hl Hg; [do 2 eexists; constructor|].
        apply andb_true_iff in Hg. destruct Hg as [Hg1 Hg2].
        assert (Hg2' : (fix go (r : option nat) (gs : list (gr A T)) : bool :=
           match gs with
           | [] => true
           | g :: gs' => wf_gr r g && go (if may_empty g then r else None) gs'
           end) None gs' = true) by (destruct (may_empty g); exact Hg2).
        assert (Hd : g = GNil \/ g <> GNil) by (destruct g; auto; right; discriminate).
        destruct Hd as [->|Hd].
        - destruct (IH' p src0 true src' Hl Hg2') as (o & tr & Ho). do 2 eexists. apply S_bang; eauto.
        - destruct (Hshort src' g Hl Hg1) as (o & tr & Ho). destruct o as [n l| |k].
          + destruct (IH' p src0 ff (skipn n src')) as (o2 & tr2 & Ho2);
              [rewrite skipn_length; lia|exact Hg2'|].
            do 2 eexists. eapply S_ok; eauto.
          + destruct ff; do 2 eexists; [eapply S_failfast|eapply S_fail]; eauto.
          + do 2 eexists. eapply S_stop; eauto. }
      induction gs' as [|g gs' IH']; intros Hf p src0 ff Hg; [do 2 eexists; constructor|].
      inversion Hf; subst.
      apply andb_true_iff in Hg. destruct Hg as [Hg1 Hg2].
      assert (Hd : g = GNil \/ g <> GNil) by (destruct g; auto; right; discriminate).
      destruct Hd as [->|Hd].
      - destruct (IH' H3 p src0 true Hg2) as (o & tr & Ho). do 2 eexists. apply S_bang; eauto.
      - destruct (H2 Hg1) as (o & tr & Ho). destruct o as [n l| |k].
        + assert (exists o tr, peg_seq env p src0 gs' ff (skipn n src) o tr) as (o2 & tr2 & Ho2).
          { destruct n as [|n].
            - simpl. rewrite (proj1 may_empty_sound _ _ _ _ Ho _ eq_refl) in Hg2. apply IH'; assumption.
            - pose proof (proj1 peg_bound _ _ _ _ Ho _ _ eq_refl) as Hb.
              apply Hlate; [rewrite skipn_length; lia|].
              destruct (may_empty g); [|exact Hg2].
              clear - Hg2. revert r Hg2. induction gs' as [|g gs' IH]; intros r Hg2; [reflexivity|].
              apply andb_true_iff in Hg2. destruct Hg2 as [H1 H2]. apply andb_true_iff. split.
              + eapply wf_None; eauto.
              + apply IH in H2. destruct (may_empty g); exact H2. }
          do 2 eexists. eapply S_ok; eauto.
        + destruct ff; do 2 eexists; [eapply S_failfast|eapply S_fail]; eauto.
        + do 2 eexists. eapply S_stop; eauto. }
    destruct (Hseq gs H (GAnd gs) src false Hw) as (o & tr & Ho). do 2 eexists. apply P_And; eauto.
  - (* Or *)
    assert (Halt : exists o tr, peg_alt env gs src o tr).
    { induction gs as [|g gs IHgs]; [do 2 eexists; constructor|].
      inversion H; subst. simpl in Hw. apply andb_true_iff in Hw. destruct Hw as [Hw1 Hw2].
      destruct (H2 Hw1) as (o & tr & Ho). destruct o as [n l| |k].
      - do 2 eexists. apply A_ok; eauto.
      - destruct (IHgs H3 Hw2) as (o2 & tr2 & Ho2). do 2 eexists. eapply A_next; eauto.
      - do 2 eexists. apply A_stop; eauto. }
    destruct Halt as (o & tr & Ho). do 2 eexists. apply P_Or; eauto.
  - (* Rep0 *) apply andb_true_iff in Hw. destruct Hw as [Hm Hw]. apply negb_true_iff in Hm.
    assert (Hr : exists o tr, peg_rep env g src o tr).
    { destruct (IHg Hw) as (o & tr & H). destruct o as [n l| |k].
      - pose proof (peg_progress _ _ _ _ _ Hm H) as Hk.
        pose proof (proj1 peg_bound _ _ _ _ H _ _ eq_refl) as Hb.
        destruct (rep_total g Hm (length src - 1)) with (n := (length src - 1)%nat) (src := skipn n src)
          as (o2 & tr2 & H2); [|rewrite skipn_length; lia|lia|].
        { intros src' Hl. apply Hshort; [lia|]. eapply wf_None; eauto. }
        destruct o2 as [[c m]|k2]; do 2 eexists; [eapply R_more|eapply R_more_stop]; eauto.
      - do 2 eexists. apply R_end; eauto.
      - do 2 eexists. apply R_stop; eauto. }
    destruct Hr as ([[c n]|k] & tr & Hr); do 2 eexists; [eapply P_Rep0|eapply P_Rep0_stop]; eauto.
  - (* Rep1 *) apply andb_true_iff in Hw. destruct Hw as [Hm Hw]. apply negb_true_iff in Hm.
    destruct (IHg Hw) as (o & tr & H). destruct o as [n l| |k].
    + pose proof (peg_progress _ _ _ _ _ Hm H) as Hk.
      pose proof (proj1 peg_bound _ _ _ _ H _ _ eq_refl) as Hb.
      destruct (rep_total g Hm (length src - 1)) with (n := (length src - 1)%nat) (src := skipn n src)
        as (o2 & tr2 & H2); [|rewrite skipn_length; lia|lia|].
      { intros src' Hl. apply Hshort; [lia|]. eapply wf_None; eauto. }
      destruct o2 as [[c m]|k2]; do 2 eexists; [eapply P_Rep1|eapply P_Rep1_stop]; eauto.
    + do 2 eexists. eapply P_Rep1_no; eauto.
    + do 2 eexists. eapply P_Rep1_no; eauto.
  - destruct (IHg Hw) as (o & tr & H). do 2 eexists. apply P_Rep01; eauto.
  - (* List *) rewrite !andb_true_iff in Hw. destruct Hw as [[Hw1 Hw2] Hm]. apply negb_true_iff in Hm.
    assert (Hm2 : may_empty (GAnd [g2; g1]) = false).
    { simpl. rewrite andb_true_r, andb_comm. exact Hm. }
    assert (Hwb : wf_gr None g2 = true).
    { destruct (may_empty g1); [eapply wf_None; exact Hw2|exact Hw2]. }
    assert (Hwa : wf_gr None g1 = true) by (eapply wf_None; exact Hw1).
    assert (Hsh : forall src', (length src' < length src)%nat -> total_at (GAnd [g2; g1]) src').
    { intros src' Hl. apply Hshort; [exact Hl|]. simpl. rewrite Hwb.
      destruct (may_empty g2); rewrite Hwa; reflexivity. }
    destruct (IHg1 Hw1) as (o & tr & H). destruct o as [n l| |k].
    + assert (Hr : exists o tr, peg_rep env (GAnd [g2; g1]) (skipn n src) o tr).
      { destruct n as [|n].
        - simpl. pose proof (proj1 may_empty_sound _ _ _ _ H _ eq_refl) as Hea.
          rewrite Hea in Hw2, Hm. simpl in Hm.
          assert (Hab : exists o tr, peg env (GAnd [g2; g1]) src o tr).
          { assert (Hd : g2 = GNil \/ g2 <> GNil) by (destruct g2; auto; right; discriminate).
            assert (Hd1 : g1 = GNil \/ g1 <> GNil) by (destruct g1; auto; right; discriminate).
            destruct Hd as [->|Hd]; [simpl in Hm; discriminate|].
            destruct (IHg2 Hw2) as (o2 & tr2 & H2). destruct o2 as [n2 l2| |k2].
            - pose proof (peg_progress _ _ _ _ _ Hm H2).
              pose proof (proj1 peg_bound _ _ _ _ H2 _ _ eq_refl).
              destruct Hd1 as [->|Hd1].
              + do 2 eexists. apply P_And. eapply S_ok; [exact Hd|exact H2|].
                apply S_bang. apply S_nil.
              + destruct (Hshort (skipn n2 src) g1) as (o3 & tr3 & H3);
                  [rewrite skipn_length; lia|exact Hwa|].
                destruct o3 as [n3 l3| |k3]; do 2 eexists; apply P_And;
                  (eapply S_ok; [exact Hd|exact H2|]).
                * eapply S_ok; [exact Hd1|exact H3|apply S_nil].
                * eapply S_fail; [exact Hd1|exact H3].
                * eapply S_stop; [exact Hd1|exact H3].
            - do 2 eexists. apply P_And. eapply S_fail; eauto.
            - do 2 eexists. apply P_And. eapply S_stop; eauto. }
          destruct Hab as (o2 & tr2 & H2). destruct o2 as [n2 l2| |k2].
          + pose proof (peg_progress _ _ _ _ _ Hm2 H2).
            pose proof (proj1 peg_bound _ _ _ _ H2 _ _ eq_refl).
            destruct (rep_total _ Hm2 (length src - 1)) with (n := (length src - 1)%nat) (src := skipn n2 src)
              as (o3 & tr3 & H3); [|rewrite skipn_length; lia|lia|].
            { intros src' Hl. apply Hsh. lia. }
            destruct o3 as [[c m]|k3]; do 2 eexists; [eapply R_more|eapply R_more_stop]; eauto.
          + do 2 eexists. apply R_end; eauto.
          + do 2 eexists. apply R_stop; eauto.
        - pose proof (proj1 peg_bound _ _ _ _ H _ _ eq_refl).
          apply (rep_total _ Hm2 (length src - 1)) with (n := (length src - 1)%nat);
            [|rewrite skipn_length; lia|lia].
          intros src' Hl. apply Hsh. lia. }
      destruct Hr as ([[c m]|k2] & tr2 & H2); do 2 eexists; [eapply P_List|eapply P_List_stop2]; eauto.
    + destruct l0; do 2 eexists; [eapply P_List0_no|eapply P_List_no]; eauto.
    + do 2 eexists. eapply P_List_stop; eauto.
  - (* Var *) destruct (env v) as [g|] eqn:E.
    + destruct (Hvar v g E) as (o & tr & H).
      { destruct r as [k|]; [apply Nat.ltb_lt; exact Hw|exact I]. }
      do 2 eexists. eapply P_Var; eauto.
    + do 2 eexists. apply P_Var_none. exact E.
  - destruct (IHg Hw) as (o & tr & H). do 2 eexists. apply P_Named; eauto.
  - destruct (IHg Hw) as (o & tr & H). destruct o as [n l| |k]; do 2 eexists;
      [eapply P_Act|eapply P_Act_no|eapply P_Act_no]; eauto.
  - destruct (IHg Hw) as (o & tr & H). do 2 eexists. apply P_Trans; eauto.
Qed.

Hypothesis Hrank : rank_ok.

Lemma wf_total : forall g, wf_gr None g = true -> forall src, total_at g src.
Proof.
  assert (Hn : forall n src g, (length src <= n)%nat -> wf_gr None g = true -> total_at g src).
  { induction n as [n IHn] using (well_founded_induction lt_wf).
    intros src g Hl Hw.
    assert (Hshort : forall src' g, (length src' < length src)%nat -> wf_gr None g = true -> total_at g src').
    { intros src' g' Hl' Hw'. apply (IHn (length src')); [lia|lia|exact Hw']. }
    assert (Hk : forall k g, wf_gr (Some k) g = true -> total_at g src).
    { induction k as [k IHk] using (well_founded_induction lt_wf).
      apply total_step; [exact Hshort|]. intros v g' E Hr. apply (IHk (rank v) Hr). apply Hrank; exact E. }
    revert g Hw. apply total_step; [exact Hshort|]. intros v g' E _. apply (Hk (rank v)). apply Hrank; exact E. }
  intros g Hw src. eapply Hn; [reflexivity|exact Hw].
Qed.
End Wf.
