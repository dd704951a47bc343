(** Properties C57 and C62: the scope of variables and multiple assignment in tpl/qlang. *)
From Coq Require Import String SpecFloat.
From Verif Require Import Base Token Grammar Compiler Interp QValue PropValue Qlang QlangSpec QlangTop QlangEx PropCtrl.
Local Open Scope Z_scope.

Lemma beq_iff : forall a b, beq a b = true <-> a = b.
Proof. intros a b. split; [apply beq_eq|]. intros ->. apply beq_refl. Qed.
Lemma beq_neq : forall a b, a <> b -> beq a b = false.
Proof. intros a b N. destruct (beq a b) eqn:B; [|reflexivity]. apply beq_eq in B. congruence. Qed.
Lemma nth_set_nth : forall A (d : A) l i x j, nth j (set_nth i x l) d = if (j =? i)%nat && (i <? length l)%nat then x else nth j l d.
Proof.
  intros A d. induction l as [|y l IH]; intros i x j.
  - cbn [length]. rewrite Bool.andb_false_r. destruct i; reflexivity.
  - destruct i as [|i]; destruct j as [|j]; cbn; try reflexivity. rewrite IH. reflexivity.
Qed.
Lemma set_nth_length : forall A i (x : A) l, length (set_nth i x l) = length l.
Proof. intros A i x l. revert i. induction l as [|y l IH]; intros [|i]; cbn; auto. Qed.

Section Vars.
Context {W : Type}.
Variable L : qlib W.
Notation St := (est nat value (@rest W)).
Implicit Types s : St.

Lemma getf_updf : forall i f j (s : St), getf j (updf i f s) = if (j =? i)%nat && (i <? nframes s)%nat then f (getf i s) else getf j s.
Proof. intros. unfold getf, updf, with_frames, set_rest, nframes. cbn. apply nth_set_nth. Qed.
Lemma nframes_updf : forall i f (s : St), nframes (updf i f s) = nframes s.
Proof. intros. unfold nframes, updf, with_frames, set_rest. cbn. apply set_nth_length. Qed.
Lemma getf_out : forall i (s : St), (nframes s <= i)%nat -> getf i s = frame0.
Proof. intros i s H. unfold getf. apply nth_overflow. exact H. Qed.
(** [set_var] *)
Definition put (q : nat) (n : bytes) (v : value) (s : St) : St := updf q (fun f => set_vars (set_key n v (fr_vars f)) f) s.
Lemma set_var_eq : forall q n v (s : St), set_var q n v s = inl (tt, put q n v s).
Proof. reflexivity. Qed.
Lemma var_of_put : forall q n v j m (s : St), (q < nframes s)%nat ->
  var_of j m (put q n v s) = if beq m n && (j =? q)%nat then Some v else var_of j m s.
Proof.
  intros q n v j m s Hq. unfold var_of, put. rewrite getf_updf. destruct (Nat.ltb_spec q (nframes s)); [|lia]. rewrite Bool.andb_true_r.
  destruct (Nat.eqb_spec j q) as [->|N]; [|rewrite Bool.andb_false_r; reflexivity]. cbn. rewrite Bool.andb_true_r. apply find_set.
Qed.
Lemma put_rest : forall q n v (s : St),
  (forall i, fr_ret (getf i (put q n v s)) = fr_ret (getf i s) /\ fr_recov (getf i (put q n v s)) = fr_recov (getf i s) /\ parent i (put q n v s) = parent i s /\
             fr_defers (getf i (put q n v s)) = fr_defers (getf i s) /\ fr_base (getf i (put q n v s)) = fr_base (getf i s)).
Proof.
  intros q n v s i. unfold parent, put. rewrite getf_updf. destruct ((i =? q)%nat && (q <? nframes s)%nat) eqn:E; [|auto].
  apply andb_prop in E. destruct E as (E & _). apply Nat.eqb_eq in E. subst i. auto.
Qed.
Lemma parent_put : forall q n v i (s : St), parent i (put q n v s) = parent i s.
Proof. intros. apply put_rest. Qed.
Lemma nframes_put : forall q n v (s : St), nframes (put q n v s) = nframes s.
Proof. intros. apply nframes_updf. Qed.

(** *** The nearest definition *)
Lemma defines_fun : forall (s : St) n i v v', defines s n i v -> defines s n i v' -> v = v'.
Proof. intros s n i v v' (H & _) (H' & _). congruence. Qed.
Lemma sees_fun : forall (s : St) n i q v, sees s n i q v -> forall q' v', sees s n i q' v' -> q = q' /\ v = v'.
Proof.
  intros s n i q v H. induction H as [i v D|i j q v N P E H IH]; intros q' v' H'.
  - inversion H'; subst; [|exfalso; eapply H; exact D]. split; [reflexivity|]. eapply defines_fun; eassumption.
  - inversion H'; subst; [exfalso; eapply N; eassumption|]. apply IH. congruence.
Qed.
Lemma sees_def : forall (s : St) n i q v, sees s n i q v -> defines s n q v.
Proof. intros s n i q v H. induction H; assumption. Qed.
Lemma plain_dec : forall v, plain v \/ exists q, v = VExtern q.
Proof. intro v. destruct v; try (left; intros ?; discriminate). right. eexists. reflexivity. Qed.
Lemma defines_dec : forall (s : St) n i, (exists v, defines s n i v) \/ (forall v, ~ defines s n i v).
Proof.
  intros s n i. destruct (var_of i n s) as [v|] eqn:E; [|right; intros v (H & _); congruence].
  destruct (plain_dec v) as [P|(q & ->)]; [left; exists v; split; assumption|right]. intros v (H & P). rewrite E in H. injection H as <-. exact (P q eq_refl).
Qed.
Lemma inherits_public : forall n, inherits n = Some true <-> public n.
Proof.
  intros [|c n]; cbn; split; try discriminate.
  - intros (? & ? & X & _). discriminate X.
  - intro H. exists c, n. split; [reflexivity|]. intros ->. discriminate H.
  - intros (c' & n' & E & N). injection E as -> ->. destruct (Z.eqb_spec c' 95); [congruence|reflexivity].
Qed.
Lemma inherits_private : forall n, n <> [] -> ~ public n -> inherits n = Some false.
Proof. intros n N P. destruct n as [|c n]; [congruence|]. cbn. destruct (Z.eqb_spec c 95); [reflexivity|]. exfalso. apply P. exists c, n. auto. Qed.

(** the search from frame [i] outwards finds the definition that [i] sees, or a cached reference to it *)
Lemma find_outer_spec : forall s n, coherent s -> public n -> forall k i, (i < k)%nat ->
  (find_outer k (Some i) n s = None /\ (forall q v, ~ sees s n i q v)) \/
  (exists t e q v, find_outer k (Some i) n s = Some (t, e) /\ sees s n i q v /\ ((t = q /\ e = v) \/ e = VExtern q)).
Proof.
  intros s n (Hp & Hc) P. induction k as [|k IH]; intros i Hi; [lia|]. cbn [find_outer].
  destruct (var_of i n s) as [e|] eqn:E.
  - right. destruct (plain_dec e) as [D|(q & ->)].
    + exists i, e, i, e. split; [reflexivity|]. split; [apply sees_own; split; assumption|]. auto.
    + destruct (Hc i n q E) as (v & H). exists i, (VExtern q), q, v. auto.
  - assert (N : forall v, ~ defines s n i v) by (intros v (H & _); congruence).
    change (fr_parent (getf i s)) with (parent i s). destruct (parent i s) as [j|] eqn:Ej.
    + pose proof (Hp i j Ej) as Hj. destruct (IH j ltac:(lia)) as [(F & H)|(t & e & q & v & F & H & X)].
      * left. split; [exact F|]. intros q v S. inversion S; subst; [exact (N _ H0)|]. replace j0 with j in * by congruence. exact (H _ _ H3).
      * right. exists t, e, q, v. split; [exact F|]. split; [|exact X]. eapply sees_up; eassumption.
    + left. split; [destruct k; reflexivity|]. intros q v S. inversion S; subst; [exact (N _ H)|congruence].
Qed.
Lemma nframes_parent : forall i j (s : St), parent i s = Some j -> (i < nframes s)%nat.
Proof. intros i j s H. destruct (Nat.lt_ge_cases i (nframes s)) as [X|X]; [exact X|]. unfold parent in H. rewrite getf_out in H by exact X. discriminate H. Qed.
Lemma outer_spec : forall s n p, coherent s -> public n -> var_of p n s = None ->
  (outer p n s = None /\ (forall q v, ~ sees s n p q v)) \/
  (exists t e q v, outer p n s = Some (t, e) /\ sees s n p q v /\ ((t = q /\ e = v) \/ e = VExtern q)).
Proof.
  intros s n p C P E. unfold outer. change (fr_parent (getf p s)) with (parent p s).
  assert (N : forall v, ~ defines s n p v) by (intros v (H & _); congruence).
  destruct (parent p s) as [j|] eqn:Ej.
  - pose proof (nframes_parent _ _ _ Ej) as Hp. pose proof (proj1 C p j Ej) as Hj.
    destruct (find_outer_spec s n C P (nframes s) j ltac:(lia)) as [(F & H)|(t & e & q & v & F & H & X)].
    + left. split; [exact F|]. intros q v S. inversion S; subst; [exact (N _ H0)|]. replace j0 with j in * by congruence. exact (H _ _ H3).
    + right. exists t, e, q, v. split; [exact F|]. split; [|exact X]. eapply sees_up; eassumption.
  - left. split; [destruct (length (r_frames (e_rest s))); reflexivity|]. intros q v S. inversion S; subst; [exact (N _ H)|congruence].
Qed.

(** *** What changes *)
Lemma defines_put : forall q n v (s : St) m i u, (q < nframes s)%nat -> plain v ->
  (defines (put q n v s) m i u <-> if beq m n && (i =? q)%nat then u = v else defines s m i u).
Proof.
  intros q n v s m i u Hq Pv. unfold defines. rewrite var_of_put by exact Hq. destruct (beq m n && (i =? q)%nat); [|tauto].
  split; [intros (H & _); congruence|]. intros ->. auto.
Qed.
Lemma wrote_put : forall q n v stk (s : St), (q < nframes s)%nat -> plain v -> wrote q n v stk s (set_stk stk (put q n v s)).
Proof.
  intros q n v stk s Hq Pv. split; [reflexivity|]. split; [intros m i u; apply (defines_put q n v s m i u Hq Pv)|]. split; [apply put_rest|].
  split; [apply nframes_put|]. repeat split.
Qed.
(** a cached reference is no definition *)
Lemma defines_cache : forall p n q (s : St) m i u, (p < nframes s)%nat -> (forall v, ~ defines s n p v) ->
  (defines (put p n (VExtern q) s) m i u <-> defines s m i u).
Proof.
  intros p n q s m i u Hp N. unfold defines. rewrite var_of_put by exact Hp. destruct (beq m n && (i =? p)%nat) eqn:B; [|tauto].
  apply andb_prop in B. destruct B as (B1 & B2). apply beq_eq in B1. apply Nat.eqb_eq in B2. subst m i. split.
  - intros (H & P). injection H as <-. exfalso. exact (P q eq_refl).
  - intro H. exfalso. exact (N _ H).
Qed.
Lemma sees_same : forall (s s' : St) n, (forall i v, defines s' n i v <-> defines s n i v) -> (forall i, parent i s' = parent i s) ->
  forall i q v, sees s n i q v -> sees s' n i q v.
Proof.
  intros s s' n D P i q v H. induction H as [i v H|i j q v N Pn E H IH].
  - apply sees_own. apply D. exact H.
  - eapply sees_up; [|exact Pn|rewrite P; exact E|exact IH]. intros u X. apply D in X. exact (N _ X).
Qed.
Lemma coherent_cache : forall p n q v (s : St), (p < nframes s)%nat -> coherent s -> sees s n p q v -> (forall v, ~ defines s n p v) -> coherent (put p n (VExtern q) s).
Proof.
  intros p n q v s Hp (C1 & C2) S N.
  assert (K : forall m i q' v', sees s m i q' v' -> sees (put p n (VExtern q) s) m i q' v').
  { intro m. apply sees_same; [intros; apply defines_cache; assumption|intro; apply parent_put]. }
  split; [intros i j; rewrite parent_put; apply C1|]. intros i m q'. rewrite var_of_put by exact Hp. destruct (beq m n && (i =? p)%nat) eqn:B.
  - apply andb_prop in B. destruct B as (B1 & B2). apply beq_eq in B1. apply Nat.eqb_eq in B2. subst m i. intro H. injection H as <-. exists v. apply K. exact S.
  - intro H. destruct (C2 _ _ _ H) as (v' & S'). exists v'. apply K. exact S'.
Qed.
(** changing the value of a definition, or adding one that no function with a cached reference sees past *)
Lemma coherent_write : forall q n v (s : St), (q < nframes s)%nat -> plain v -> coherent s ->
  ((exists u, defines s n q u) \/ (var_of q n s = None /\ forall r u, ~ sees s n q r u)) -> coherent (put q n v s).
Proof.
  intros q n v s Hq Pv (C1 & C2) Hold.
  assert (K : forall m i q' v', sees s m i q' v' -> exists v'', sees (put q n v s) m i q' v'').
  { intros m i q' v' H. induction H as [i w H|i j q' w N Pn E H IH].
    - destruct (beq m n && (i =? q)%nat) eqn:B.
      + exists v. apply sees_own. apply defines_put; [exact Hq|exact Pv|]. rewrite B. reflexivity.
      + exists w. apply sees_own. apply defines_put; [exact Hq|exact Pv|]. rewrite B. exact H.
    - destruct IH as (w' & IH). exists w'. eapply sees_up; [|exact Pn|rewrite parent_put; exact E|exact IH].
      intros u X. apply defines_put in X; [|exact Hq|exact Pv]. destruct (beq m n && (i =? q)%nat) eqn:B; [|exact (N _ X)].
      apply andb_prop in B. destruct B as (B1 & B2). apply beq_eq in B1. apply Nat.eqb_eq in B2. subst m i.
      destruct Hold as [(u' & Hu)|(_ & Hn)]; [exact (N _ Hu)|]. eapply Hn. eapply sees_up; eassumption. }
  split; [intros i j; rewrite parent_put; apply C1|]. intros i m q'. rewrite var_of_put by exact Hq. destruct (beq m n && (i =? q)%nat) eqn:B.
  - intro H. injection H as ->. exfalso. exact (Pv q' eq_refl).
  - intro H. destruct (C2 _ _ _ H) as (v' & S'). apply (K _ _ _ _ S').
Qed.
Lemma coherent_stk : forall l (s : St), coherent s -> coherent (set_stk l s).
Proof.
  intros l s (C1 & C2). split; [exact C1|]. intros i n q H. destruct (C2 i n q H) as (v & S). exists v.
  revert S. apply sees_same; [intros; reflexivity|reflexivity].
Qed.

(** ** C57: reading *)
(** A name that is visible: its nearest definition, and no definition changes. *)
Theorem C57_read : forall p n s q v, coherent s -> n <> n_unset -> sees s n p q v ->
  exists s', getRef L p n s = inl (v, s') /\ same_defs s s' /\ coherent s' /\ has_entry s' n p.
Proof.
  intros p n s q v C Nu S. unfold getRef. rewrite (beq_neq _ _ Nu).
  assert (Same : same_defs s s) by (repeat split; auto; apply H).
  inversion S as [i v0 D|i j q0 v0 N P E S']; subst.
  - exists s. destruct D as (D & Pl). rewrite D. split; [destruct v; try reflexivity; exfalso; eapply Pl; reflexivity|]. split; [exact Same|]. split; [exact C|]. unfold has_entry. congruence.
  - destruct (var_of p n s) as [e|] eqn:Ee.
    + destruct (plain_dec e) as [D|(q' & ->)]; [exfalso; eapply N; split; eassumption|]. destruct (proj2 C _ _ _ Ee) as (v' & S2).
      destruct (sees_fun _ _ _ _ _ S2 _ _ S) as (<- & <-). exists s. pose proof (sees_def _ _ _ _ _ S2) as (D & _). rewrite D.
      split; [reflexivity|]. split; [exact Same|]. split; [exact C|]. unfold has_entry. congruence.
    + rewrite (proj2 (inherits_public n) P). destruct (outer_spec s n p C P Ee) as [(_ & H)|(t & e & q' & v' & F & S2 & X)]; [exfalso; exact (H _ _ S)|].
      destruct (sees_fun _ _ _ _ _ S2 _ _ S) as (-> & ->). rewrite F. pose proof (sees_def _ _ _ _ _ S) as (D & Pl). pose proof (nframes_parent _ _ _ E) as Hp.
      assert (G : (let (q0, v') := match e with VExtern q0 => (q0, val_or_nil (var_of q0 n s)) | _ => (t, e) end in
                   match set_var p n (VExtern q0) s with inl (_, s') => inl (v', s') | inr r => inr r end) = inl (v, put p n (VExtern q) s)).
      { destruct X as [(-> & ->)| ->]; [|rewrite D; reflexivity]. destruct v; try reflexivity. exfalso. eapply Pl. reflexivity. }
      exists (put p n (VExtern q) s). split; [exact G|]. split; [|split].
      * split; [intros m i u; apply (defines_cache p n q s m i u Hp N)|]. split; [apply put_rest|]. split; [apply nframes_put|]. repeat split.
      * eapply coherent_cache; eassumption.
      * unfold has_entry. rewrite var_of_put by exact Hp. rewrite beq_refl, Nat.eqb_refl. discriminate.
Qed.
(** A name that is not: a builtin, or a panic; nothing changes. *)
Theorem C57_read_builtin : forall p n s, coherent s -> n <> n_unset -> n <> [] -> (forall q v, ~ sees s n p q v) ->
  getRef L p n s = match l_fnval L n with Some v => inl (v, s) | None => inr (PUser (msg m_nosym [VStr n]), s) end.
Proof.
  intros p n s C Nu Nn H. unfold getRef. rewrite (beq_neq _ _ Nu). destruct (var_of p n s) as [e|] eqn:E.
  - exfalso. destruct (plain_dec e) as [D|(q & ->)]; [eapply H; apply sees_own; split; eassumption|]. destruct (proj2 C _ _ _ E) as (v & S). exact (H _ _ S).
  - destruct (inherits n) as [[|]|] eqn:I.
    + apply inherits_public in I. destruct (outer_spec s n p C I E) as [(F & _)|(t & e & q & v & _ & S & _)]; [rewrite F; reflexivity|exfalso; exact (H _ _ S)].
    + reflexivity.
    + destruct n; [congruence|discriminate I].
Qed.
(** A private name is seen in the function itself only. *)
Theorem C57_private : forall s n i q v, ~ public n -> (sees s n i q v <-> q = i /\ defines s n i v).
Proof.
  intros s n i q v P. split; [|intros (-> & D); apply sees_own; exact D]. intro S. inversion S; subst; [auto|contradiction].
Qed.

(** ** C57: assigning *)
Lemma entry_sees : forall s n p, coherent s -> has_entry s n p -> exists q v, sees s n p q v /\ (q <= p)%nat /\
  match var_of p n s with Some (VExtern q') => q' = q | Some u => q = p /\ u = v | None => False end.
Proof.
  intros s n p C He. unfold has_entry in He. destruct (var_of p n s) as [e|] eqn:E; [|congruence]. destruct (plain_dec e) as [D|(q & ->)].
  - exists p, e. split; [apply sees_own; split; assumption|]. split; [lia|]. destruct e; auto. exfalso. eapply D. reflexivity.
  - destruct (proj2 C _ _ _ E) as (v & S). exists q, v. split; [exact S|]. split; [|reflexivity]. clear E He. induction S as [|i j q v N P Ep S IH]; [lia|]. pose proof (proj1 C _ _ Ep). lia.
Qed.
Lemma getVars_entry : forall s n p q v, coherent s -> has_entry s n p -> sees s n p q v -> getVars p n s = inl (q, s).
Proof.
  intros s n p q v C He S. destruct (entry_sees s n p C He) as (q' & v' & S' & _ & M). destruct (sees_fun _ _ _ _ _ S' _ _ S) as (-> & ->).
  unfold getVars. destruct (var_of p n s) as [e|]; [|contradiction]. destruct e; try (destruct M as (-> & _); reflexivity). subst. reflexivity.
Qed.
Lemma getVars_new : forall s n p, coherent s -> n <> [] -> ~ has_entry s n p ->
  (getVars p n s = inl (p, s) /\ forall q v, ~ sees s n p q v) \/ (getVars p n s = inr (PUser (msg m_extern [VStr n]), s) /\ exists q v, sees s n p q v).
Proof.
  intros s n p C Nn He. unfold getVars. destruct (var_of p n s) as [e|] eqn:E; [exfalso; apply He; unfold has_entry; congruence|].
  destruct (inherits n) as [[|]|] eqn:I.
  - apply inherits_public in I. destruct (outer_spec s n p C I E) as [(F & H)|(t & e & q & v & F & S & _)]; rewrite F; [left; auto|right; eauto].
  - left. split; [reflexivity|]. intros q v S. inversion S as [i v0 (D & _)|i j q0 v0 N P]; subst; [congruence|]. apply inherits_public in P. congruence.
  - destruct n; [congruence|discriminate I].
Qed.
Lemma frame_in : forall s n q v, defines s n q v -> (q < nframes s)%nat.
Proof.
  intros s n q v (H & _). destruct (Nat.lt_ge_cases q (nframes s)) as [X|X]; [exact X|]. unfold var_of in H. rewrite getf_out in H by exact X. discriminate H.
Qed.
(** A name assigned or read before: the variable it stands for is updated, in whichever function it is, and nothing else. *)
Theorem C57_assign : forall p n s q old v stk, coherent s -> e_stk s = v :: stk -> plain v -> has_entry s n p -> sees s n p q old ->
  exists s', Assign p n s = inl (None, s') /\ wrote q n v (e_stk s) s s' /\ coherent s'.
Proof.
  intros p n s q old v stk C Es Pv He S. pose proof (frame_in _ _ _ _ (sees_def _ _ _ _ _ S)) as Hq.
  exists (set_stk (e_stk s) (put q n v s)). unfold Assign, bind. rewrite (getVars_entry _ _ _ _ _ C He S). unfold pop. rewrite Es. split; [reflexivity|]. split.
  - apply wrote_put; assumption.
  - apply coherent_stk. apply coherent_write; [exact Hq|exact Pv|exact C|]. left. exists old. apply (sees_def _ _ _ _ _ S).
Qed.
(** A new name that no enclosing function defines becomes a variable of the function. *)
Theorem C57_assign_new : forall p n s v stk, coherent s -> (p < nframes s)%nat -> n <> [] -> e_stk s = v :: stk -> plain v -> ~ has_entry s n p -> (forall q u, ~ sees s n p q u) ->
  exists s', Assign p n s = inl (None, s') /\ wrote p n v (e_stk s) s s' /\ coherent s'.
Proof.
  intros p n s v stk C Hp Nn Es Pv He S. exists (set_stk (e_stk s) (put p n v s)). unfold Assign, bind.
  destruct (getVars_new s n p C Nn He) as [(G & _)|(_ & q & u & X)]; [|exfalso; exact (S _ _ X)]. rewrite G. unfold pop. rewrite Es. split; [reflexivity|]. split.
  - apply wrote_put; assumption.
  - apply coherent_stk. apply coherent_write; [exact Hp|exact Pv|exact C|]. right. split; [|exact S]. unfold has_entry in He. destruct (var_of p n s); [exfalso; apply He; discriminate|reflexivity].
Qed.
(** One that an enclosing function defines and that was not read before: a panic, and nothing changes. *)
Theorem C57_assign_extern : forall p n s q u, coherent s -> n <> [] -> ~ has_entry s n p -> sees s n p q u -> Assign p n s = inr (PUser (msg m_extern [VStr n]), s).
Proof.
  intros p n s q u C Nn He S. unfold Assign, bind. destruct (getVars_new s n p C Nn He) as [(_ & X)|(G & _)]; [exfalso; exact (X _ _ S)|]. rewrite G. reflexivity.
Qed.
(** Assignments with an operator need a name assigned or read before, and update the variable it stands for. *)
Lemma getVar_entry : forall s n p q v, coherent s -> has_entry s n p -> sees s n p q v -> getVar p n s = inl ((q, v), s).
Proof.
  intros s n p q v C He S. destruct (entry_sees s n p C He) as (q' & v' & S' & _ & M). destruct (sees_fun _ _ _ _ _ S' _ _ S) as (-> & ->).
  unfold getVar. destruct (var_of p n s) as [e|]; [|contradiction]. destruct e; try (destruct M as (-> & ->); reflexivity). subst.
  pose proof (sees_def _ _ _ _ _ S) as (D & _). rewrite D. reflexivity.
Qed.
Theorem C57_op_assign : forall op p n s q old x v stk, coherent s -> e_stk s = x :: stk -> has_entry s n p -> sees s n p q old -> op old x = inl v -> plain v ->
  exists s', OpAssign op p n s = inl (None, s') /\ wrote q n v (v :: stk) s s' /\ coherent s'.
Proof.
  intros op p n s q old x v stk C Es He S Op Pv. pose proof (frame_in _ _ _ _ (sees_def _ _ _ _ _ S)) as Hq.
  exists (set_stk (v :: stk) (put q n v s)). unfold OpAssign, bind. rewrite (getVar_entry _ _ _ _ _ C He S). unfold pop. rewrite Es. cbn [snd fst]. unfold of_op. rewrite Op.
  split; [reflexivity|]. split.
  - apply wrote_put; assumption.
  - apply coherent_stk. apply coherent_write; [exact Hq|exact Pv|exact C|]. left. exists old. apply (sees_def _ _ _ _ _ S).
Qed.
Theorem C57_inc : forall op p n s q old v, coherent s -> has_entry s n p -> sees s n p q old -> op old = inl v -> plain v ->
  exists s', IncDec op p n s = inl (None, s') /\ wrote q n v (v :: e_stk s) s s' /\ coherent s'.
Proof.
  intros op p n s q old v C He S Op Pv. pose proof (frame_in _ _ _ _ (sees_def _ _ _ _ _ S)) as Hq.
  exists (set_stk (v :: e_stk s) (put q n v s)). unfold IncDec, bind. rewrite (getVar_entry _ _ _ _ _ C He S). cbn [snd fst]. unfold of_op. rewrite Op.
  split; [reflexivity|]. split.
  - apply wrote_put; assumption.
  - apply coherent_stk. apply coherent_write; [exact Hq|exact Pv|exact C|]. left. exists old. apply (sees_def _ _ _ _ _ S).
Qed.
Theorem C57_op_unknown : forall p n s, ~ has_entry s n p ->
  (forall op, OpAssign op p n s = inr (PUser (msg m_novar [VStr n]), s)) /\ (forall op, IncDec op p n s = inr (PUser (msg m_novar [VStr n]), s)).
Proof.
  intros p n s He. assert (var_of p n s = None) as E by (unfold has_entry in He; destruct (var_of p n s); [exfalso; apply He; discriminate|reflexivity]).
  split; intro op; unfold OpAssign, IncDec, bind, getVar; rewrite E; reflexivity.
Qed.
(** A call adds a frame: what the other functions see stays, and the parameters are what the new one defines. *)
Theorem C57_call : forall vars par s, coherent s -> (par < nframes s)%nat -> (forall n v, find n vars = Some v -> plain v) ->
  exists s', new_frame vars par s = inl (nframes s, s') /\ coherent s' /\
    (forall n i v, defines s' n i v <-> defines s n i v \/ (i = nframes s /\ find n vars = Some v)) /\
    (forall i j, parent i s' = Some j <-> parent i s = Some j \/ (i = nframes s /\ j = par)).
Proof.
  intros vars par s (C1 & C2) Hp Pl. eexists. split; [reflexivity|].
  set (s' := with_frames _ s).
  assert (G : forall i, getf i s' = if (i =? nframes s)%nat then mkFrame vars VNil None (Some par) [] (length (e_stk s)) else getf i s).
  { intro i. unfold getf, s', with_frames, set_rest, nframes. cbn. destruct (Nat.eqb_spec i (length (r_frames (e_rest s)))) as [->|N].
    - rewrite app_nth2 by lia. rewrite Nat.sub_diag. reflexivity.
    - destruct (Nat.lt_ge_cases i (length (r_frames (e_rest s)))) as [X|X]; [apply app_nth1; exact X|]. rewrite !nth_overflow; [reflexivity|lia|rewrite app_length; cbn; lia]. }
  assert (V0 : forall n, var_of (nframes s) n s = None) by (intro n; unfold var_of; rewrite getf_out by lia; reflexivity).
  assert (P0 : parent (nframes s) s = None) by (unfold parent; rewrite getf_out by lia; reflexivity).
  assert (D : forall n i v, defines s' n i v <-> defines s n i v \/ (i = nframes s /\ find n vars = Some v)).
  { intros n i v. unfold defines, var_of at 1. rewrite G. destruct (Nat.eqb_spec i (nframes s)) as [->|N]; cbn.
    - split; [intros (H & _); auto|]. intros [(H & _)|(_ & H)]; [rewrite V0 in H; discriminate H|]. split; [exact H|exact (Pl _ _ H)].
    - split; [auto|]. intros [H|(X & _)]; [exact H|contradiction]. }
  assert (Pa : forall i j, parent i s' = Some j <-> parent i s = Some j \/ (i = nframes s /\ j = par)).
  { intros i j. unfold parent at 1. rewrite G. destruct (Nat.eqb_spec i (nframes s)) as [->|N]; cbn.
    - split; [intro H; injection H as <-; auto|]. intros [H|(_ & ->)]; [rewrite P0 in H; discriminate H|reflexivity].
    - split; [auto|]. intros [H|(X & _)]; [exact H|contradiction]. }
  split; [|split; assumption].
  assert (K : forall n i q v, sees s n i q v -> sees s' n i q v).
  { intros n i q v H. induction H as [i v H|i j q v N Pn E H IH].
    - apply sees_own. apply D. auto.
    - eapply sees_up; [|exact Pn|apply Pa; left; exact E|exact IH]. intros u X. apply D in X. destruct X as [X|(-> & _)]; [exact (N _ X)|]. rewrite P0 in E. discriminate E. }
  split.
  - intros i j H. apply Pa in H. destruct H as [H|(-> & ->)]; [exact (C1 _ _ H)|exact Hp].
  - intros i n q H. unfold var_of in H. rewrite G in H. destruct (Nat.eqb_spec i (nframes s)) as [->|N]; cbn in H.
    + exfalso. exact (Pl _ _ H q eq_refl).
    + destruct (C2 i n q H) as (v & S). exists v. apply K. exact S.
Qed.

(** ** C62: multiple assignment *)
(** one assignment of [v] to [n] in [p], the stack left alone: done, or the panic *)
Definition assigns (p : nat) (n : bytes) (v : value) (s : St) (o : option panicq) (s' : St) : Prop :=
  match o with
  | None => exists q, wrote q n v (e_stk s) s s' /\ coherent s' /\ (has_entry s n p -> exists u, sees s n p q u) /\ (~ has_entry s n p -> q = p /\ forall q u, ~ sees s n p q u)
  | Some e => e = PUser (msg m_extern [VStr n]) /\ s' = s /\ ~ has_entry s n p /\ exists q u, sees s n p q u
  end.
(** assignments one after the other, up to the first that panics *)
Inductive assigns_all (p : nat) : list (bytes * value) -> St -> option panicq -> St -> Prop :=
| aa_nil : forall s, assigns_all p [] s None s
| aa_cons : forall n v l s s1 o s2, assigns p n v s None s1 -> assigns_all p l s1 o s2 -> assigns_all p ((n, v) :: l) s o s2
| aa_stop : forall n v l s e, assigns p n v s (Some e) s -> assigns_all p ((n, v) :: l) s (Some e) s.
Lemma assign_all_spec : forall p l s, coherent s -> (p < nframes s)%nat -> (forall n v, In (n, v) l -> n <> [] /\ plain v) ->
  exists o s', assigns_all p l s o s' /\ ends (assign_all p l s) o s' /\ e_stk s' = e_stk s.
Proof.
  intros p. induction l as [|[n v] l IH]; intros s C Hp Hl.
  - exists None, s. split; [constructor|]. split; reflexivity.
  - destruct (Hl n v (or_introl eq_refl)) as (Nn & Pv). assert (Hl' : forall m u, In (m, u) l -> m <> [] /\ plain u) by (intros; apply Hl; right; assumption).
    cbn [assign_all]. assert (De : has_entry s n p \/ ~ has_entry s n p) by (unfold has_entry; destruct (var_of p n s); [left; discriminate|right; auto]). destruct De as [He|He].
    + destruct (entry_sees s n p C He) as (q & u & S & _ & _). pose proof (frame_in _ _ _ _ (sees_def _ _ _ _ _ S)) as Hq.
      assert (C' : coherent (put q n v s)) by (apply coherent_write; [exact Hq|exact Pv|exact C|left; exists u; apply (sees_def _ _ _ _ _ S)]).
      destruct (IH (put q n v s) C' ltac:(rewrite nframes_put; exact Hp) Hl') as (o & s' & A & E & Es).
      exists o, s'. split; [|split; [|exact Es]].
      * eapply aa_cons; [|exact A]. exists q. split; [exact (wrote_put q n v (e_stk s) s Hq Pv)|]. split; [exact C'|]. split; [intro; exists u; exact S|intro; contradiction].
      * unfold bind. rewrite (getVars_entry _ _ _ _ _ C He S). cbn. exact E.
    + destruct (getVars_new s n p C Nn He) as [(G & S)|(G & q & u & S)].
      * assert (Vn : var_of p n s = None) by (unfold has_entry in He; destruct (var_of p n s); [exfalso; apply He; discriminate|reflexivity]).
        assert (C' : coherent (put p n v s)) by (apply coherent_write; [exact Hp|exact Pv|exact C|right; auto]).
        destruct (IH (put p n v s) C' ltac:(rewrite nframes_put; exact Hp) Hl') as (o & s' & A & E & Es).
        exists o, s'. split; [|split; [|exact Es]].
        -- eapply aa_cons; [|exact A]. exists p. split; [exact (wrote_put p n v (e_stk s) s Hp Pv)|]. split; [exact C'|]. split; [intro; contradiction|auto].
        -- unfold bind. rewrite G. cbn. exact E.
      * exists (Some (PUser (msg m_extern [VStr n]))), s. split; [|split; [|reflexivity]].
        -- apply aa_stop. repeat split; auto. eauto.
        -- unfold bind. rewrite G. reflexivity.
Qed.
Lemma all_strs_map : forall l, all_strs (map VStr l) = Some l.
Proof. induction l as [|b l IH]; cbn; [reflexivity|]. rewrite IH. reflexivity. Qed.
Lemma pop_set : forall v l s, pop (set_stk (v :: l) s) = inl (Some v, set_stk l s).
Proof. reflexivity. Qed.
Lemma popFnArgs_set : forall l l' s, popFnArgs (Z.of_nat (length l)) (set_stk (rev (map VStr l) ++ l') s) = inl (l, set_stk l' s).
Proof.
  intros l l' s. unfold popFnArgs. cbn [e_stk set_stk]. rewrite app_length, rev_length, map_length. destruct (Z.leb_spec (Z.of_nat (length l)) (Z.of_nat (length l + length l'))); [|lia].
  destruct (Z.ltb_spec (Z.of_nat (length l)) 0); [lia|]. rewrite Nat2Z.id.
  assert (K : length l = length (rev (map VStr l))) by (rewrite rev_length, map_length; reflexivity). rewrite K.
  rewrite firstn_app, Nat.sub_diag, firstn_all, skipn_app, Nat.sub_diag, skipn_all. cbn. rewrite app_nil_r, rev_involutive, all_strs_map. reflexivity.
Qed.
(** The names, the number of names after the first, and the value are on the stack.  With as many elements as names each
    name is assigned its element, in order, and the value is left; a panic is that of an assignment. *)
Theorem C62_assigns : forall p names t l s, coherent s -> (p < nframes s)%nat -> Forall (fun n => n <> []) names -> Forall plain l ->
  length names = length l ->
  exists o s', assigns_all p (combine names l) s o s' /\
    match o with
    | None => MultiAssign p (pushed_all (map VStr names ++ [VInt (Z.of_nat (length names) - 1); VSlice t l]) s) = inl (None, pushed (VSlice t l) s')
    | Some e => MultiAssign p (pushed_all (map VStr names ++ [VInt (Z.of_nat (length names) - 1); VSlice t l]) s) = inr (e, s')
    end.
Proof.
  intros p names t l s C Hp Hn Hl E.
  destruct (assign_all_spec p (combine names l) s C Hp) as (o & s' & A & En & Es).
  { intros n v H. rewrite Forall_forall in Hn, Hl. split; [exact (Hn _ (in_combine_l _ _ _ _ H))|exact (Hl _ (in_combine_r _ _ _ _ H))]. }
  exists o, s'. split; [exact A|].
  assert (G : MultiAssign p (pushed_all (map VStr names ++ [VInt (Z.of_nat (length names) - 1); VSlice t l]) s) =
              (assign_all p (combine names l) ;;; push (VSlice t l) ;;; ret None) s).
  { unfold MultiAssign, pushed_all. rewrite rev_app_distr. cbn [rev app].
    rewrite (bind_inl _ _ _ _ _ _ _ (pop_set _ _ _)). cbn [elems_of].
    rewrite (bind_inl _ _ _ _ _ _ _ (popArity_set _ _ _)). replace (Z.of_nat (length names) - 1 + 1) with (Z.of_nat (length names)) by lia.
    replace (Z.of_nat (length names) =? Z.of_nat (length l)) with true by (symmetry; apply Z.eqb_eq; lia). cbn [negb].
    rewrite (bind_inl _ _ _ _ _ _ _ (popFnArgs_set _ _ _)). rewrite set_same. reflexivity. }
  rewrite G. unfold bind. destruct o as [e|]; cbn in En; rewrite En; reflexivity.
Qed.
(** Any other number of elements, or a value that is no slice: an error, and nothing is assigned. *)
Theorem C62_mismatch : forall p names t l s, length names <> length l ->
  MultiAssign p (pushed_all (map VStr names ++ [VInt (Z.of_nat (length names) - 1); VSlice t l]) s) =
  inl (Some (e_massign (Z.of_nat (length l)) (Z.of_nat (length names))), pushed_all (map VStr names) s).
Proof.
  intros p names t l s E. unfold MultiAssign, pushed_all. rewrite rev_app_distr. cbn [rev app]. unfold bind at 1, pop. cbn [e_stk set_stk elems_of].
  unfold bind at 1, popArity, pop, bind at 1. cbn [e_stk set_stk]. unfold ret at 1.
  replace (Z.of_nat (length names) - 1 + 1) with (Z.of_nat (length names)) by lia. destruct (Z.eqb_spec (Z.of_nat (length names)) (Z.of_nat (length l))); [lia|]. reflexivity.
Qed.
Theorem C62_no_slice : forall p names v s, (forall t l, v <> VSlice t l) -> (forall ts, v <> VCode ts) ->
  MultiAssign p (pushed_all (map VStr names ++ [VInt (Z.of_nat (length names) - 1); v]) s) =
  inl (Some e_notslice, pushed_all (map VStr names ++ [VInt (Z.of_nat (length names) - 1)]) s).
Proof.
  intros p names v s N1 N2. unfold MultiAssign, pushed_all. rewrite !rev_app_distr. cbn [rev app]. unfold bind at 1, pop. cbn [e_stk set_stk].
  assert (elems_of v = None) as -> by (destruct v; try reflexivity; exfalso; (eapply N1; reflexivity) || (eapply N2; reflexivity)). reflexivity.
Qed.
(** With different names, each then has its element: name by name what it stands for in [p] is the element. *)
Lemma wrote_sees : forall q n v stk s s', wrote q n v stk s s' -> coherent s' -> (exists u, sees s n q q u) \/ True -> forall p u, sees s n p q u -> sees s' n p q v.
Proof.
  intros q n v stk s s' (_ & D & F & _) _ _ p u H. induction H as [i w H|i j q w N P E H IH].
  - apply sees_own. apply D. rewrite beq_refl, Nat.eqb_refl. reflexivity.
  - eapply sees_up; [|exact P|destruct (F i) as (_ & _ & -> & _); exact E|exact (IH D)].
    intros x X. apply D in X. rewrite beq_refl in X. cbn in X. destruct (Nat.eqb_spec i q) as [->|_]; [|exact (N _ X)]. exact (N _ (sees_def _ _ _ _ _ H)).
Qed.
Lemma wrote_other : forall q n v stk s s', wrote q n v stk s s' -> forall m, m <> n -> forall p r u, sees s m p r u <-> sees s' m p r u.
Proof.
  intros q n v stk s s' (_ & D & F & _) m N p r u.
  assert (K : forall i w, defines s' m i w <-> defines s m i w) by (intros i w; rewrite D, (beq_neq _ _ N); reflexivity).
  split; apply sees_same.
  - exact K.
  - intro i. apply F.
  - intros. symmetry. apply K.
  - intro i. symmetry. apply F.
Qed.
Lemma assigns_sees : forall p n v s s', assigns p n v s None s' -> exists q, sees s' n p q v.
Proof.
  intros p n v s s' (q & Wr & C & H1 & H2). assert (De : has_entry s n p \/ ~ has_entry s n p) by (unfold has_entry; destruct (var_of p n s); [left; discriminate|right; auto]).
  destruct De as [He|He].
  - destruct (H1 He) as (u & S). exists q. eapply wrote_sees; eauto.
  - destruct (H2 He) as (-> & _). exists p. apply sees_own. destruct Wr as (_ & D & _). apply D. rewrite beq_refl, Nat.eqb_refl. reflexivity.
Qed.
Lemma assigns_other : forall p l s s' m, assigns_all p l s None s' -> ~ In m (map fst l) -> forall i r u, sees s m i r u <-> sees s' m i r u.
Proof.
  intros p l s s' m H. remember None as o eqn:Eo. revert Eo. induction H as [s|n v l s s1 o s2 A H IH|]; intros Eo Nm i r u; [tauto| |discriminate Eo].
  destruct A as (q & Wr & _). rewrite (wrote_other _ _ _ _ _ _ Wr m) by (intros ->; apply Nm; left; reflexivity). apply IH; [exact Eo|]. intro X. apply Nm. right. exact X.
Qed.
Theorem C62_each : forall p l s s', assigns_all p l s None s' -> NoDup (map fst l) ->
  (forall n v, In (n, v) l -> exists q, sees s' n p q v) /\ (forall m, ~ In m (map fst l) -> forall i q v, sees s m i q v <-> sees s' m i q v).
Proof.
  intros p l s s' H Nd. split; [|intros m Nm; exact (assigns_other p l s s' m H Nm)].
  remember None as o eqn:Eo. revert Eo Nd. induction H as [s|n v l s s1 o s2 A H IH|]; intros Eo Nd m u Hi; [destruct Hi| |discriminate Eo].
  inversion Nd; subst. destruct Hi as [Hi|Hi].
  - injection Hi as -> ->. destruct (assigns_sees _ _ _ _ _ A) as (q & S). exists q. apply (assigns_other p l s1 s2 m H H2). exact S.
  - exact (IH eq_refl H3 m u Hi).
Qed.
End Vars.

(** ** Examples *)
Example coherent_start : forall W (w : W), coherent (q_start w).
Proof.
  intros W w. split.
  - intros i j H. unfold parent, getf, q_start in H. cbn in H. destruct i as [|[|i]]; discriminate H.
  - intros i n q H. unfold var_of, getf, q_start in H. cbn in H. destruct i as [|[|i]]; discriminate H.
Qed.
(** an outer function with a variable x = 1, an inner one that has read it and one that has not *)
Definition st_ex : est nat value (@rest unit) := Eval compute in
  mkE 0 2%nat [VInt 5] (mkRest [mkFrame [(s2b "x", VInt 1); (s2b "_y", VInt 2)] VNil None None [] 0;
    mkFrame [(s2b "x", VExtern 0)] VNil None (Some 0%nat) [] 0; mkFrame [(s2b "z", VInt 3)] VNil None (Some 1%nat) [] 0] [] 0 [] tt).
Example st_ex_sees : sees st_ex (s2b "x") 2 0 (VInt 1).
Proof.
  assert (D : forall i, i = 1%nat \/ i = 2%nat -> forall v, ~ defines st_ex (s2b "x") i v).
  { intros i [->| ->] v (H & P); [injection H as <-; exact (P 0%nat eq_refl)|discriminate H]. }
  assert (P : public (s2b "x")) by (exists 120, []; split; [reflexivity|discriminate]).
  apply sees_up with 1%nat; [auto|exact P|reflexivity|]. apply sees_up with 0%nat; [auto|exact P|reflexivity|]. apply sees_own. split; [reflexivity|discriminate].
Qed.
Example st_ex_coherent : coherent st_ex.
Proof.
  split.
  - intros i j H. unfold parent, getf in H. cbn in H. destruct i as [|[|[|[|i]]]]; try discriminate H; injection H as <-; lia.
  - intros i n q H. unfold var_of, getf in H. cbn in H. destruct i as [|[|[|[|i]]]]; cbn in H; try discriminate H.
    + destruct (beq n [120]); [discriminate H|]. destruct (beq n [95; 121]); discriminate H.
    + destruct (beq n [120]) eqn:B; [|discriminate H]. apply beq_eq in B. subst n. injection H as <-. exists (VInt 1).
      apply sees_up with 0%nat; [|exists 120, []; split; [reflexivity|discriminate]|reflexivity|apply sees_own; split; [reflexivity|discriminate]].
      intros v (H & P). injection H as <-. exact (P 0%nat eq_refl).
    + destruct (beq n [122]); discriminate H.
Qed.
(** [C57_read] and [C57_assign_extern] apply in the innermost function, [C57_assign] in the one between *)
Example st_ex_assign : has_entry st_ex (s2b "x") 1 /\ ~ has_entry st_ex (s2b "x") 2 /\ s2b "x" <> n_unset /\ s2b "x" <> [].
Proof. repeat split; try discriminate. intro H. apply H. reflexivity. Qed.

Local Open Scope string_scope.
(** two functions further in, x is read and then assigned: the global variable changes *)
Example C57_run : leaves "x = 1; f = fn() { g = fn() { y = x; x = 5; return y }; return g() }; z = f()" ["x"; "y"; "z"] = (Fine, [VInt 1], [Some (VInt 5); None; Some (VInt 1)]).
Proof. vm_compute. reflexivity. Qed.
Example C57_extern_run : leaves "x = 1; f = fn() { x = 5 }; z = f()" ["x"; "z"] = (Panicked (VMsg m_extern [VStr (s2b "x")]), [], [Some (VInt 1); None]).
Proof. vm_compute. reflexivity. Qed.
Example C57_private_run : leaves "_x = 1; f = fn() { _x = 5; return _x }; z = f()" ["_x"; "z"] = (Fine, [VInt 5], [Some (VInt 1); Some (VInt 5)]).
Proof. vm_compute. reflexivity. Qed.
Example C57_local_run : leaves "f = fn() { x = 2; x += 3; return x }; z = f()" ["x"; "z"] = (Fine, [VInt 5], [None; Some (VInt 5)]).
Proof. vm_compute. reflexivity. Qed.
Example C57_ops_run : leaves "x = 1; f = fn() { x; x++; x *= 10 }; z = f()" ["x"; "z"] = (Fine, [VNil], [Some (VInt 20); Some VNil]).
Proof. vm_compute. reflexivity. Qed.
Example C57_ops_unread_run : leaves "x = 1; f = fn() { x++ }; z = f()" ["x"; "z"] = (Panicked (VMsg m_novar [VStr (s2b "x")]), [], [Some (VInt 1); None]).
Proof. vm_compute. reflexivity. Qed.
(** Only unset breaks it: once x is unset, a function that has read it reads nil, one that has not panics. *)
Theorem C57_unset_refuted :
  leaves "x = 1; u = unset; f = fn() { x; u(""x""); return [x, 2] }; z = f()" ["x"; "z"] = (Fine, [VSlice TAny [VNil; VInt 2]], [None; Some (VSlice TAny [VNil; VInt 2])]) /\
  fst (fst (leaves "x = 1; u = unset; f = fn() { u(""x""); return [x, 2] }; z = f()" ["x"; "z"])) = Panicked (VMsg m_nosym [VStr (s2b "x")]).
Proof. split; vm_compute; reflexivity. Qed.
Example C62_run : leaves "a, b, c = [1, ""u"", 3]; c" ["a"; "b"; "c"] = (Fine, [VInt 3], [Some (VInt 1); Some (VStr (s2b "u")); Some (VInt 3)]).
Proof. vm_compute. reflexivity. Qed.
Example C62_mismatch_run : leaves "a, b = [1, 2, 3]" ["a"; "b"] =
  (Panicked (VMsg (s2b "multi assignment error: require %d variables, but we got %d") [VInt 3; VInt 2]), [VStr (s2b "b"); VStr (s2b "a")], [None; None]).
Proof. vm_compute. reflexivity. Qed.
Example C62_no_slice_run : fst (fst (leaves "a, b = 5" ["a"; "b"])) = Panicked (VMsg (s2b "expression of multi assignment must return slice") []).
Proof. vm_compute. reflexivity. Qed.
(** With the right number of elements an error may still come after some names have been assigned: the second name here
    is one of an enclosing function. *)
Theorem C62_all_or_nothing_refuted :
  leaves "b = 5; q = 0; f = fn() { q; q, b = [1, 2]; return 3 }; f()" ["q"; "b"] = (Panicked (VMsg m_extern [VStr (s2b "b")]), [], [Some (VInt 1); Some (VInt 5)]).
Proof. vm_compute. reflexivity. Qed.

Print Assumptions C57_read.
Print Assumptions C57_read_builtin.
Print Assumptions C57_private.
Print Assumptions C57_assign.
Print Assumptions C57_assign_new.
Print Assumptions C57_assign_extern.
Print Assumptions C57_op_assign.
Print Assumptions C57_inc.
Print Assumptions C57_op_unknown.
Print Assumptions C57_call.
Print Assumptions C57_unset_refuted.
Print Assumptions C62_assigns.
Print Assumptions C62_mismatch.
Print Assumptions C62_no_slice.
Print Assumptions C62_each.
Print Assumptions C62_all_or_nothing_refuted.
