(** Properties C55 and C56: function calls, defer and recover in tpl/qlang. *)
From Coq Require Import String SpecFloat.
From Verif Require Import Base Token Grammar Compiler Interp QValue PropValue Qlang QlangSpec QlangTop QlangEx PropCtrl PropVars.
Local Open Scope Z_scope.

Section Call.
Context {W : Type}.
Variable L : qlib W.
Variable ev : nat -> bytes -> value -> @Q W (option panicq).
Notation St := (est nat value (@rest W)).
Implicit Types s : St.

(** ** The number of arguments *)
Definition count_panic (f : func) (n : nat) : panicq :=
  PUser (if f_variadic f then msg m_argcv [VInt (Z.of_nat (length (f_args f)) - 1); VInt (Z.of_nat n)]
         else msg m_argc [VInt (Z.of_nat (length (f_args f))); VInt (Z.of_nat n)]).
Lemma call_count_iff : forall f args, call_count f args = None <-> right_count f (length args).
Proof.
  intros f args. unfold call_count, right_count. destruct (f_variadic f).
  - destruct (Z.ltb_spec (Z.of_nat (length args)) (Z.of_nat (length (f_args f)) - 1)); split; intro H'; try discriminate H'; try reflexivity; lia.
  - destruct (Z.eqb_spec (Z.of_nat (length args)) (Z.of_nat (length (f_args f)))); split; intro H'; try discriminate H'; try reflexivity; lia.
Qed.
(** A wrong number of arguments panics before anything runs: the state is as it was. *)
Theorem C55_wrong_count : forall f args s, ~ right_count f (length args) -> FnCall ev f args s = inr (count_panic f (length args), s).
Proof.
  intros f args s H. unfold FnCall. destruct (call_count f args) as [p|] eqn:E.
  - unfold call_count in E. unfold count_panic. destruct (f_variadic f).
    + destruct (_ <? _); [|discriminate E]. injection E as <-. reflexivity.
    + destruct (_ =? _); [discriminate E|]. injection E as <-. reflexivity.
  - exfalso. apply H. apply call_count_iff. exact E.
Qed.
(** A function with an empty body returns nil. *)
Theorem C55_no_body : forall f args s, right_count f (length args) -> f_body f = None -> FnCall ev f args s = inl (VNil, s).
Proof. intros f args s H E. unfold FnCall. rewrite (proj2 (call_count_iff f args) H), E. reflexivity. Qed.

(** ** The bindings *)
Lemma bind_args_find : forall names args vars n, length names = length args ->
  (exists v, bound_fixed names args n v /\ find n (bind_args names args vars) = Some v) \/
  (~ In n names /\ find n (bind_args names args vars) = find n vars).
Proof.
  induction names as [|m names IH]; intros args vars n E; [right; auto|]. destruct args as [|a args]; [discriminate E|]. injection E as E. cbn [bind_args].
  destruct (IH args (set_key m a vars) n E) as [(v & (i & H1 & H2 & H3) & F)|(N & F)].
  - left. exists v. split; [|exact F]. exists (S i). split; [exact H1|]. split; [exact H2|]. intros [|j] Hj; [lia|]. apply H3. lia.
  - destruct (beq n m) eqn:B.
    + apply beq_eq in B. subst m. left. exists a. split.
      * exists 0%nat. split; [reflexivity|]. split; [reflexivity|]. intros [|j] Hj; [lia|]. cbn. intro X. apply N. eapply nth_error_In. exact X.
      * rewrite F, find_set, beq_refl. reflexivity.
    + right. split; [intros [->|X]; [rewrite beq_refl in B; discriminate B|exact (N X)]|]. rewrite F, find_set, B. reflexivity.
Qed.
Lemma bound_fixed_fun : forall names args n v v', bound_fixed names args n v -> bound_fixed names args n v' -> v = v'.
Proof.
  intros names args n v v' (i & A & B & C) (j & A' & B' & C'). assert (i = j) as <-; [|congruence].
  destruct (Nat.lt_trichotomy i j) as [X|[X|X]]; [exfalso; exact (C j X A')|exact X|exfalso; exact (C' i X A)].
Qed.
Lemma bind_args_iff : forall names args n v, length names = length args -> (find n (bind_args names args []) = Some v <-> bound_fixed names args n v).
Proof.
  intros names args n v E. destruct (bind_args_find names args [] n E) as [(u & H & F)|(N & F)]; rewrite F.
  - split; [intro X; injection X as <-; exact H|]. intro H'. f_equal. eapply bound_fixed_fun; eassumption.
  - split; [discriminate|]. intros (i & H & _). exfalso. apply N. eapply nth_error_In. exact H.
Qed.
(** The variables of a call are exactly its parameters, bound to the arguments. *)
Theorem C55_bindings : forall f args vars, right_count f (length args) -> call_vars f args = Some vars -> forall n v, find n vars = Some v <-> bound f args n v.
Proof.
  intros f args vars H E n v. unfold call_vars in E. unfold bound. unfold right_count in H. destruct (f_variadic f).
  - destruct (f_args f) as [|p0 ps] eqn:Ea; [discriminate E|]. rewrite <- Ea in *. assert (f_args f <> []) as Na by (rewrite Ea; discriminate).
    destruct (exists_last Na) as (fixed & lp & Es). assert (Elp : last (f_args f) [] = lp) by (rewrite Es; apply last_last). rewrite Elp in E.
    assert (El : (length (f_args f) - 1)%nat = length fixed) by (rewrite Es, app_length; cbn; lia).
    assert (Ef : firstn (length fixed) (f_args f) = fixed) by (rewrite Es, firstn_app, Nat.sub_diag, firstn_all; apply app_nil_r).
    rewrite El, Ef in E. injection E as <-. assert (Hl : length fixed = length (firstn (length fixed) args)) by (rewrite firstn_length; rewrite Es, app_length in H; cbn in H; lia).
    rewrite find_set. split.
    + intro F. exists fixed, lp. split; [exact Es|]. destruct (beq n lp) eqn:B.
      * left. apply beq_eq in B. injection F as <-. auto.
      * right. split; [intros ->; rewrite beq_refl in B; discriminate B|]. apply bind_args_iff; assumption.
    + intros (fixed' & lp' & E' & X). rewrite Es in E'. apply app_inj_tail in E'. destruct E' as (<- & <-). destruct X as [(-> & ->)|(N & X)].
      * rewrite beq_refl. reflexivity.
      * rewrite (beq_neq _ _ N). apply bind_args_iff; assumption.
  - injection E as <-. apply bind_args_iff. lia.
Qed.
(** There are none only for ... without a parameter: that panics. *)
Theorem C55_bindings_total : forall f args, (f_variadic f = true -> f_args f <> []) -> exists vars, call_vars f args = Some vars.
Proof.
  intros f args H. unfold call_vars. destruct (f_variadic f); [|eauto]. destruct (f_args f); [exfalso; apply H; reflexivity|eauto].
Qed.
Theorem C55_variadic_without_parameter : forall f args body s, f_variadic f = true -> f_args f = [] -> f_body f = Some body -> FnCall ev f args s = inr (PUser rt_error, s).
Proof.
  intros f args body s V A B. unfold FnCall. assert (call_count f args = None) as ->.
  { apply call_count_iff. unfold right_count. rewrite V, A. cbn. lia. }
  rewrite B. unfold call_vars. rewrite V, A. reflexivity.
Qed.

(** ** The call *)
Lemma nframes_invoked : forall f vars s, nframes (invoked f vars s) = S (nframes s).
Proof. intros. unfold nframes, invoked. cbn. rewrite app_length. cbn. lia. Qed.
Lemma getf_invoked : forall f vars s, getf (nframes s) (invoked f vars s) = mkFrame vars VNil None (Some (f_parent f)) [] (length (e_stk s)).
Proof. intros. unfold getf, invoked, nframes. cbn. rewrite app_nth2 by lia. rewrite Nat.sub_diag. reflexivity. Qed.
Lemma run_defers_iff : forall k l s o s', ends (run_defers ev k l s) o s' <-> defers_run ev k l s o s'.
Proof.
  intros k l. induction l as [|c l IH]; intros s o s'; cbn [run_defers].
  - split.
    + intro H. destruct o; [discriminate H|]. injection H as <-. constructor.
    + intro H. inversion H; subst. reflexivity.
  - unfold bind. destruct (ev k n_expr c s) as [[[e|] s1]|[e s1]] eqn:E.
    + split; intro H.
      * destruct o; [|discriminate H]. injection H as <- <-. eapply dr_error. exact E.
      * inversion H; subst; cbn; match goal with X : ev _ _ _ _ = _ |- _ => rewrite X in E; (discriminate E || (injection E as <- <-; reflexivity) || (injection E; intros; subst; reflexivity)) end.
    + rewrite IH. split; intro H; [eapply dr_cons; eassumption|]. inversion H; subst; try congruence.
    + split; intro H.
      * destruct o; [|discriminate H]. injection H as <- <-. eapply dr_panic. exact E.
      * inversion H; subst; cbn; match goal with X : ev _ _ _ _ = _ |- _ => rewrite X in E; (discriminate E || (injection E as <- <-; reflexivity) || (injection E; intros; subst; reflexivity)) end.
Qed.
Lemma is_return_iff : forall e, is_return e = true <-> e = p_return.
Proof.
  intro e. split; [|intros ->; reflexivity]. unfold is_return, p_return. repeat (match goal with |- match ?x with _ => _ end = true -> _ => destruct x end; try discriminate). reflexivity.
Qed.
Lemma body_total : forall k body s, exists x s', body_ends ev k body s x s'.
Proof.
  intros k body s. destruct (ev k n_docr (VCode body) s) as [[[e|] s1]|[e s1]] eqn:E.
  - exists (Erred e), s1. exact E.
  - exists Ended, s1. exact E.
  - destruct (uncatchable e) eqn:U; [exists (Aborted e), s1; split; assumption|]. destruct (is_return e) eqn:R.
    + apply is_return_iff in R. subst e. exists Returned, s1. exact E.
    + exists (Paniced e), s1. split; [exact E|]. split; [|exact U]. intros ->. discriminate R.
Qed.
Lemma body_fun1 : forall k body s x s1 x' s1', body_ends ev k body s x s1 -> body_ends ev k body s x' s1' -> x = x' /\ s1 = s1'.
Proof.
  assert (R : uncatchable p_return = false) by reflexivity.
  intros k body s x s1 x' s1' H H'. destruct x, x'; cbn in H, H'; repeat match goal with X : _ /\ _ |- _ => destruct X end;
    match goal with A : ev _ _ _ _ = _, B : ev _ _ _ _ = _ |- _ => rewrite A in B; try discriminate B; injection B; intros; subst end; auto; congruence.
Qed.
Lemma call_end_eq : forall k base e s o s1, (base <= length (e_stk s1))%nat -> (k < nframes s)%nat -> defers_run ev k (fr_defers (getf k s)) (updf k (set_recov e) s) o s1 ->
  call_end ev k base e s = match o with
                           | Some e' => inr (e', s1)
                           | None => match fr_recov (getf k (cut k base s1)) with Some x => inr (x, cut k base s1) | None => inl (tt, cut k base s1) end
                           end.
Proof.
  intros k base e s o s1 Hb Hk H. unfold call_end. unfold bind at 1. unfold modify at 1. unfold ExecDefers. unfold bind at 1. unfold bind at 1, gets at 1.
  assert (fr_defers (getf k (updf k (set_recov e) s)) = fr_defers (getf k s)) as ->.
  { rewrite getf_updf, Nat.eqb_refl. destruct (Nat.ltb_spec k (nframes s)); [reflexivity|lia]. }
  unfold bind at 1. apply run_defers_iff in H. destruct o as [e'|]; cbn in H; rewrite H; [reflexivity|].
  unfold modify at 1. unfold bind at 1, SetFrame.
  assert (e_stk (updf k (set_defers []) s1) = e_stk s1) as Es by reflexivity. rewrite Es. destruct (Nat.leb_spec base (length (e_stk s1))); [|lia].
  unfold bind, gets. unfold cut. rewrite Es. destruct (fr_recov _); reflexivity.
Qed.
Lemma recov_cut : forall k base s, fr_recov (getf k (cut k base s)) = fr_recov (getf k s) /\ fr_ret (getf k (cut k base s)) = fr_ret (getf k s).
Proof.
  intros k base s. assert (X : getf k (cut k base s) = getf k (updf k (set_defers []) s)) by reflexivity.
  rewrite X, getf_updf. destruct (_ && _)%bool; [|auto]. unfold set_defers. cbn. auto.
Qed.
(** A call with the right number of arguments is exactly what [called] says. *)
Theorem C55_call : forall f args body vars s, keeps ev f body vars s -> right_count f (length args) -> f_body f = Some body -> call_vars f args = Some vars ->
  (forall v s', FnCall ev f args s = inl (v, s') <-> called ev f body vars s (inl v) s') /\
  (forall e s', FnCall ev f args s = inr (e, s') <-> called ev f body vars s (inr e) s').
Proof.
  intros f args body vars s K Hc Hb Hv.
  assert (G : exists r s', called ev f body vars s r s' /\ FnCall ev f args s = match r with inl v => inl (v, s') | inr e => inr (e, s') end).
  { unfold FnCall. rewrite (proj2 (call_count_iff f args) Hc), Hb, Hv. unfold bind at 1, new_frame. fold (invoked f vars s). change (length (r_frames (e_rest s))) with (nframes s).
    unfold bind at 1, gets at 1. rewrite getf_invoked. cbn [fr_base].
    destruct (body_total (nframes s) body (invoked f vars s)) as (x & s1 & B). destruct (K x s1 B) as (Hn & _ & Kd).
    destruct x as [|e| |e|e].
    - (* Ended *) cbn in B. rewrite B.
      destruct (ends_total (run_defers ev (nframes s) (fr_defers (getf (nframes s) s1)) (updf (nframes s) (set_recov None) s1))) as (o & s2 & R). apply run_defers_iff in R.
      destruct (Kd ltac:(discriminate) _ _ R) as (l2 & E2).
      unfold bind. rewrite (call_end_eq _ (length (e_stk s)) _ _ _ s2) by first [exact R|lia|rewrite E2, app_length; lia]. destruct o as [e|].
      + exists (inr e), s2. split; [|reflexivity]. eapply c_defer with (x := Ended); [exact B|discriminate|exact R].
      + destruct (recov_cut (nframes s) (length (e_stk s)) s2) as (Hr & Ht). rewrite Hr. destruct (fr_recov (getf (nframes s) s2)) as [e|] eqn:Er.
        * exists (inr e), (cut (nframes s) (length (e_stk s)) s2). split; [|reflexivity]. eapply c_panic with (x := Ended); [exact B|discriminate|exact R|exact Er].
        * eexists (inl _), (cut (nframes s) (length (e_stk s)) s2). split; [|unfold gets; rewrite Ht; reflexivity]. eapply c_return with (x := Ended); [exact B|discriminate|discriminate|exact R|exact Er].
    - (* Erred *) cbn in B. rewrite B.
      destruct (ends_total (run_defers ev (nframes s) (fr_defers (getf (nframes s) s1)) (updf (nframes s) (set_recov None) s1))) as (o & s2 & R). apply run_defers_iff in R.
      destruct (Kd ltac:(discriminate) _ _ R) as (l2 & E2).
      unfold bind. rewrite (call_end_eq _ (length (e_stk s)) _ _ _ s2) by first [exact R|lia|rewrite E2, app_length; lia]. destruct o as [e'|].
      + exists (inr e'), s2. split; [|reflexivity]. eapply c_defer with (x := Erred e); [exact B|discriminate|exact R].
      + destruct (recov_cut (nframes s) (length (e_stk s)) s2) as (Hr & Ht). rewrite Hr. destruct (fr_recov (getf (nframes s) s2)) as [e'|] eqn:Er.
        * exists (inr e'), (cut (nframes s) (length (e_stk s)) s2). split; [|reflexivity]. eapply c_panic with (x := Erred e); [exact B|discriminate|exact R|exact Er].
        * exists (inr e), (cut (nframes s) (length (e_stk s)) s2). split; [|reflexivity]. eapply c_error; [exact B|exact R|exact Er].
    - (* Returned *) cbn in B. rewrite B. cbn [uncatchable p_return]. change (is_return p_return) with true. cbn iota.
      destruct (ends_total (run_defers ev (nframes s) (fr_defers (getf (nframes s) s1)) (updf (nframes s) (set_recov None) s1))) as (o & s2 & R). apply run_defers_iff in R.
      destruct (Kd ltac:(discriminate) _ _ R) as (l2 & E2).
      unfold bind. rewrite (call_end_eq _ (length (e_stk s)) _ _ _ s2) by first [exact R|lia|rewrite E2, app_length; lia]. destruct o as [e|].
      + exists (inr e), s2. split; [|reflexivity]. eapply c_defer with (x := Returned); [exact B|discriminate|exact R].
      + destruct (recov_cut (nframes s) (length (e_stk s)) s2) as (Hr & Ht). rewrite Hr. destruct (fr_recov (getf (nframes s) s2)) as [e|] eqn:Er.
        * exists (inr e), (cut (nframes s) (length (e_stk s)) s2). split; [|reflexivity]. eapply c_panic with (x := Returned); [exact B|discriminate|exact R|exact Er].
        * eexists (inl _), (cut (nframes s) (length (e_stk s)) s2). split; [|unfold gets; rewrite Ht; reflexivity]. eapply c_return with (x := Returned); [exact B|discriminate|discriminate|exact R|exact Er].
    - (* Paniced *) destruct B as (B & Nr & U). rewrite B, U. assert (is_return e = false) as -> by (destruct (is_return e) eqn:X; [apply is_return_iff in X; contradiction|reflexivity]).
      destruct (ends_total (run_defers ev (nframes s) (fr_defers (getf (nframes s) s1)) (updf (nframes s) (set_recov (Some e)) s1))) as (o & s2 & R). apply run_defers_iff in R.
      destruct (Kd ltac:(discriminate) _ _ R) as (l2 & E2).
      assert (B' : body_ends ev (nframes s) body (invoked f vars s) (Paniced e) s1) by (split; [exact B|split; assumption]).
      unfold bind. rewrite (call_end_eq _ (length (e_stk s)) _ _ _ s2) by first [exact R|lia|rewrite E2, app_length; lia]. destruct o as [e'|].
      + exists (inr e'), s2. split; [|reflexivity]. eapply c_defer; [exact B'|discriminate|exact R].
      + destruct (recov_cut (nframes s) (length (e_stk s)) s2) as (Hr & Ht). rewrite Hr. destruct (fr_recov (getf (nframes s) s2)) as [e'|] eqn:Er.
        * exists (inr e'), (cut (nframes s) (length (e_stk s)) s2). split; [|reflexivity]. eapply c_panic; [exact B'|discriminate|exact R|exact Er].
        * eexists (inl _), (cut (nframes s) (length (e_stk s)) s2). split; [|unfold gets; rewrite Ht; reflexivity]. eapply c_return; [exact B'|discriminate|discriminate|exact R|exact Er].
    - (* Aborted *) destruct B as (B & U). rewrite B, U. exists (inr e), s1. split; [|reflexivity]. apply c_abort. split; assumption. }
  destruct G as (r & s' & C & E). rewrite E.
  assert (F : forall r' s'', called ev f body vars s r' s'' -> r = r' /\ s' = s'').
  { clear E. assert (Dd : forall l a o b o' b', defers_run ev (nframes s) l a o b -> defers_run ev (nframes s) l a o' b' -> o = o' /\ b = b').
    { intros l a o b o' b' H H'. apply run_defers_iff in H, H'. exact (ends_fun _ _ _ _ _ H H'). }
    intros r' s'' C'. destruct C as [e s1 B|x s1 e s2 B Na R|x s1 s2 e B Na R Er|e s1 s2 B R Er|x s1 s2 B Na Ne R Er];
      destruct C' as [e' s1' B'|x' s1' e' s2' B' Na' R'|x' s1' s2' e' B' Na' R' Er'|e' s1' s2' B' R' Er'|x' s1' s2' B' Na' Ne' R' Er'];
      destruct (body_fun1 _ _ _ _ _ _ _ B B') as (Ex & <-); subst; try (injection Ex as <-); try (exfalso; eapply Na; reflexivity); try (exfalso; eapply Na'; reflexivity); auto; try discriminate Ex;
      cbn [pending] in *; destruct (Dd _ _ _ _ _ _ R R') as (Eo & Es); try discriminate Eo; try (injection Eo as <-); subst; try congruence; auto.
    - rewrite Er in Er'. injection Er' as <-. auto.
    - exfalso. eapply Ne'. reflexivity.
    - exfalso. eapply Ne. reflexivity. }
  split.
  - intros v s''. split; intro H.
    + destruct r as [v0|e0]; [|discriminate H]. injection H as <- <-. exact C.
    + destruct (F _ _ H) as (-> & ->). reflexivity.
  - intros e s''. split; intro H.
    + destruct r as [v0|e0]; [discriminate H|]. injection H as <- <-. exact C.
    + destruct (F _ _ H) as (-> & ->). reflexivity.
Qed.
(** ** The stack *)
(** A call leaves the stack as it was, when it returns and when it panics, unless a deferred expression panics or the program
    exits. *)
Lemma cut_stk : forall k base l s stk, e_stk s = l ++ stk -> length stk = base -> e_stk (cut k base s) = stk.
Proof.
  intros k base l s stk E Hb. unfold cut. cbn. change (e_stk (updf k (set_defers []) s)) with (e_stk s). rewrite E, app_length, Hb, Nat.add_sub.
  rewrite skipn_app, skipn_all, Nat.sub_diag. reflexivity.
Qed.
Lemma called_stk : forall f body vars s x s1 o s2, keeps ev f body vars s -> body_ends ev (nframes s) body (invoked f vars s) x s1 -> (forall e, x <> Aborted e) ->
  defers_run ev (nframes s) (fr_defers (getf (nframes s) s1)) (updf (nframes s) (set_recov (pending x)) s1) o s2 -> e_stk (cut (nframes s) (length (e_stk s)) s2) = e_stk s.
Proof. intros f body vars s x s1 o s2 K B N R. destruct (K x s1 B) as (_ & _ & Kd). destruct (Kd N _ _ R) as (l2 & E2). exact (cut_stk _ _ l2 _ _ E2 eq_refl). Qed.
Theorem C55_stack_return : forall f args s v s', (forall body vars, f_body f = Some body -> call_vars f args = Some vars -> keeps ev f body vars s) -> FnCall ev f args s = inl (v, s') -> e_stk s' = e_stk s.
Proof.
  intros f args s v s' K H. destruct (call_count f args) as [p|] eqn:Ec; [unfold FnCall in H; rewrite Ec in H; discriminate H|].
  pose proof (proj1 (call_count_iff f args) Ec) as Hc. destruct (f_body f) as [body|] eqn:Eb.
  - destruct (call_vars f args) as [vars|] eqn:Ev.
    + apply (proj1 (C55_call f args body vars s (K _ _ eq_refl eq_refl) Hc Eb Ev)) in H. inversion H; subst. eapply called_stk; [exact (K _ _ eq_refl eq_refl)|eassumption..].
    + unfold FnCall in H. rewrite Ec, Eb, Ev in H. discriminate H.
  - rewrite (C55_no_body f args s Hc Eb) in H. injection H as <- <-. reflexivity.
Qed.
Theorem C55_stack_panic : forall f args s e s', (forall body vars, f_body f = Some body -> call_vars f args = Some vars -> keeps ev f body vars s) -> FnCall ev f args s = inr (e, s') ->
  e_stk s' = e_stk s \/
  (exists body vars s1, body_ends ev (nframes s) body (invoked f vars s) (Aborted e) s1 /\ s' = s1) \/
  (exists body vars x s1, body_ends ev (nframes s) body (invoked f vars s) x s1 /\
     defers_run ev (nframes s) (fr_defers (getf (nframes s) s1)) (updf (nframes s) (set_recov (pending x)) s1) (Some e) s').
Proof.
  intros f args s e s' K H. destruct (call_count f args) as [p|] eqn:Ec; [unfold FnCall in H; rewrite Ec in H; injection H as <- <-; auto|].
  pose proof (proj1 (call_count_iff f args) Ec) as Hc. destruct (f_body f) as [body|] eqn:Eb.
  - destruct (call_vars f args) as [vars|] eqn:Ev.
    + apply (proj2 (C55_call f args body vars s (K _ _ eq_refl eq_refl) Hc Eb Ev)) in H. inversion H; subst.
      * right. left. eauto.
      * right. right. exists body, vars, x, s1. auto.
      * left. eapply called_stk; [exact (K _ _ eq_refl eq_refl)|eassumption..].
      * left. eapply called_stk with (x := Erred e); [exact (K _ _ eq_refl eq_refl)|eassumption|discriminate|eassumption].
    + unfold FnCall in H. rewrite Ec, Eb, Ev in H. injection H as <- <-. auto.
  - rewrite (C55_no_body f args s Hc Eb) in H. discriminate H.
Qed.
(** ** return *)
(** return with or without a value in a function: the value, or nil, is what the call returns. *)
Theorem C55_return : forall k par o s, parent k s = Some par -> (k < nframes s)%nat ->
  exists s', Return ev k (pushed_all (match o with Some v => [v; VInt 1] | None => [VInt 0] end) s) = inr (p_return, s') /\
    fr_ret (getf k s') = match o with Some v => v | None => VNil end /\ e_stk s' = e_stk s /\
    (forall j, (j <> k -> getf j s' = getf j s) /\ fr_vars (getf j s') = fr_vars (getf j s) /\ fr_defers (getf j s') = fr_defers (getf j s) /\ fr_recov (getf j s') = fr_recov (getf j s)).
Proof.
  intros k par o s P Hk. exists (updf k (set_ret (match o with Some v => v | None => VNil end)) s).
  assert (G : forall v j, getf j (updf k (set_ret v) s) = if (j =? k)%nat then set_ret v (getf k s) else getf j s).
  { intros v j. rewrite getf_updf. destruct (Nat.ltb_spec k (nframes s)); [|lia]. rewrite Bool.andb_true_r. reflexivity. }
  split; [|split; [|split]].
  - unfold parent in P. unfold Return. destruct o as [v|]; unfold pushed_all; cbn [rev app].
    + rewrite (bind_inl _ _ _ _ _ _ _ (popArity_set _ _ _)). cbn [Z.eqb]. rewrite (bind_inl _ _ _ _ _ tt (updf k (set_ret v) s)).
      * unfold bind at 1, gets at 1. rewrite G, Nat.eqb_refl. cbn [fr_parent set_ret]. rewrite P. reflexivity.
      * rewrite (bind_inl _ _ _ _ _ _ _ (pop_set _ _ _)), set_same. reflexivity.
    + rewrite (bind_inl _ _ _ _ _ _ _ (popArity_set _ _ _)), set_same. cbn [Z.eqb]. rewrite (bind_inl _ _ _ _ _ tt (updf k (set_ret VNil) s)) by reflexivity.
      unfold bind at 1, gets at 1. rewrite G, Nat.eqb_refl. cbn [fr_parent set_ret]. rewrite P. reflexivity.
  - rewrite G, Nat.eqb_refl. reflexivity.
  - reflexivity.
  - intro j. rewrite G. destruct (Nat.eqb_spec j k) as [->|N]; [|auto]. split; [congruence|]. auto.
Qed.

(** ** C56: defer *)
(** defer: the code is put before what was deferred earlier. *)
Theorem C56_defer : forall k code s, (k < nframes s)%nat ->
  exists s', Defer k (pushed code s) = inl (tt, s') /\ e_stk s' = VNil :: e_stk s /\ fr_defers (getf k s') = code :: fr_defers (getf k s) /\
    (forall j, j <> k -> getf j s' = getf j s) /\ fr_vars (getf k s') = fr_vars (getf k s) /\ fr_ret (getf k s') = fr_ret (getf k s) /\ fr_recov (getf k s') = fr_recov (getf k s).
Proof.
  intros k code s Hk. eexists. split; [reflexivity|]. split; [reflexivity|].
  change (getf ?j (set_stk ?l ?x)) with (getf j x).
  assert (G : forall j, getf j (updf k (fun f => set_defers (code :: fr_defers f) f) s) = if (j =? k)%nat then set_defers (code :: fr_defers (getf k s)) (getf k s) else getf j s).
  { intro j. rewrite getf_updf. destruct (Nat.ltb_spec k (nframes s)); [|lia]. rewrite Bool.andb_true_r. reflexivity. }
  match goal with |- fr_defers (getf k ?x) = _ /\ _ => assert (E : forall j, getf j x = getf j (updf k (fun f => set_defers (code :: fr_defers f) f) s)) by (intro j; destruct s; reflexivity) end.
  repeat split; try (rewrite E, G, Nat.eqb_refl; reflexivity). intros j N. rewrite E, G. destruct (Nat.eqb_spec j k); [contradiction|reflexivity].
Qed.
(** ExecDefers: each runs once, the last registered first; if none fails, none is left. *)
Theorem C56_exec : forall k s o s', ends (ExecDefers ev k s) o s' <->
  exists s1, defers_run ev k (fr_defers (getf k s)) s o s1 /\ s' = match o with None => updf k (set_defers []) s1 | Some _ => s1 end.
Proof.
  intros k s o s'. unfold ExecDefers. unfold bind at 1, gets. unfold bind. split.
  - destruct (run_defers ev k (fr_defers (getf k s)) s) as [[[] s1]|[e s1]] eqn:E; intro H.
    + destruct o; [discriminate H|]. injection H as <-. exists s1. split; [|reflexivity]. apply run_defers_iff. exact E.
    + destruct o; [|discriminate H]. injection H as <- <-. exists s1. split; [|reflexivity]. apply run_defers_iff. exact E.
  - intros (s1 & R & ->). apply run_defers_iff in R. destruct o as [e|]; cbn in R; rewrite R; reflexivity.
Qed.
(** recover: the panic that the enclosing function is ending with is passed on as a value, and cleared; without one, nil. *)
Theorem C56_recover : forall k par s, parent k s = Some par -> (par < nframes s)%nat ->
  exists v s', Recover k s = inl (tt, s') /\ e_stk s' = v :: e_stk s /\
    fr_recov (getf par s') = None /\ (forall j, j <> par -> getf j s' = getf j s) /\
    match fr_recov (getf par s) with
    | None => v = VNil
    | Some e => e = PUser (PvStr (SOther v)) \/ e = PUser (PvOther v) \/ throw_value v s' = inr (e, s')
    end.
Proof.
  intros k par s P Hp. unfold parent in P. unfold Recover. unfold bind at 1, gets at 1. rewrite P. unfold bind at 1, gets at 1. unfold bind at 1, modify at 1.
  assert (G : forall j, getf j (updf par (set_recov None) s) = if (j =? par)%nat then set_recov None (getf par s) else getf j s).
  { intro j. rewrite getf_updf. destruct (Nat.ltb_spec par (nframes s)); [|lia]. rewrite Bool.andb_true_r. reflexivity. }
  assert (Gs : forall l x j, getf j (set_stk l (with_excs x (updf par (set_recov None) s))) = getf j (updf par (set_recov None) s)) by reflexivity.
  assert (Gp : forall l j, getf j (set_stk l (updf par (set_recov None) s)) = getf j (updf par (set_recov None) s)) by reflexivity.
  destruct (fr_recov (getf par s)) as [e|] eqn:Er.
  - unfold bind.
    assert (D : (exists v, exc_value e (updf par (set_recov None) s) = inl (v, updf par (set_recov None) s) /\ (e = PUser (PvStr (SOther v)) \/ e = PUser (PvOther v))) \/
                exc_value e (updf par (set_recov None) s) = inl (VExc (length (r_excs (e_rest s))), with_excs (r_excs (e_rest s) ++ [e]) (updf par (set_recov None) s))).
    { unfold exc_value. destruct e as [m| |x]; try (right; reflexivity). destruct x as [x|x|x t|x|]; try (right; reflexivity).
      - destruct x; try (right; reflexivity). left. eexists. split; [reflexivity|]. auto.
      - left. eexists. split; [reflexivity|]. auto. }
    destruct D as [(v & E & X)|E]; rewrite E.
    + eexists v, _. split; [reflexivity|]. split; [reflexivity|]. split; [rewrite Gp, G, Nat.eqb_refl; reflexivity|]. split; [|tauto].
      intros j N. rewrite Gp, G. destruct (Nat.eqb_spec j par); [contradiction|reflexivity].
    + eexists _, _. split; [reflexivity|]. split; [reflexivity|]. split; [rewrite Gs, G, Nat.eqb_refl; reflexivity|]. split.
      * intros j N. rewrite Gs, G. destruct (Nat.eqb_spec j par); [contradiction|reflexivity].
      * right. right. cbn. rewrite app_nth2 by lia. rewrite Nat.sub_diag. reflexivity.
  - eexists VNil, _. split; [reflexivity|]. split; [reflexivity|]. split; [rewrite Gp, G, Nat.eqb_refl; reflexivity|]. split; [|reflexivity].
    intros j N. rewrite Gp, G. destruct (Nat.eqb_spec j par); [contradiction|reflexivity].
Qed.
End Call.

(** A panic that the deferred expressions recover: the call returns, with the value last given to return (nil without one), on
    the same stack. *)
Theorem C56_recovered : forall W (ev : nat -> bytes -> value -> @Q W (option panicq)) f args body vars s e s1 s2, keeps ev f body vars s ->
  right_count f (length args) -> f_body f = Some body -> call_vars f args = Some vars ->
  body_ends ev (nframes s) body (invoked f vars s) (Paniced e) s1 ->
  defers_run ev (nframes s) (fr_defers (getf (nframes s) s1)) (updf (nframes s) (set_recov (Some e)) s1) None s2 -> fr_recov (getf (nframes s) s2) = None ->
  exists s', FnCall ev f args s = inl (fr_ret (getf (nframes s) s2), s') /\ e_stk s' = e_stk s.
Proof.
  intros W ev f args body vars s e s1 s2 K Hc Hb Hv B R Er. eexists.
  assert (F : FnCall ev f args s = inl (fr_ret (getf (nframes s) s2), cut (nframes s) (length (e_stk s)) s2)).
  { apply (C55_call ev f args body vars s K Hc Hb Hv). eapply c_return; [exact B|discriminate|discriminate|exact R|exact Er]. }
  split; [exact F|]. eapply called_stk; [exact K|exact B|discriminate|exact R].
Qed.
(** A panic that none of them recovers goes on, after they have run. *)
Theorem C56_not_recovered : forall W (ev : nat -> bytes -> value -> @Q W (option panicq)) f args body vars s e s1 s2, keeps ev f body vars s ->
  right_count f (length args) -> f_body f = Some body -> call_vars f args = Some vars ->
  body_ends ev (nframes s) body (invoked f vars s) (Paniced e) s1 ->
  defers_run ev (nframes s) (fr_defers (getf (nframes s) s1)) (updf (nframes s) (set_recov (Some e)) s1) None s2 -> fr_recov (getf (nframes s) s2) = Some e ->
  exists s', FnCall ev f args s = inr (e, s') /\ e_stk s' = e_stk s.
Proof.
  intros W ev f args body vars s e s1 s2 K Hc Hb Hv B R Er. exists (cut (nframes s) (length (e_stk s)) s2). split.
  - apply (C55_call ev f args body vars s K Hc Hb Hv). eapply c_panic; [exact B|discriminate|exact R|exact Er].
  - eapply called_stk; [exact K|exact B|discriminate|exact R].
Qed.

(** ** Examples *)
Local Open Scope string_scope.
Example C55_run : leaves "f = fn(a, b) { 5; return a - b }; x = 1 + f(5, 3)" ["x"] = (Fine, [VInt 3], [Some (VInt 3)]).
Proof. vm_compute. reflexivity. Qed.
Example C55_variadic_run : leaves "f = fn(a, b...) { return b }; x = f(1,2,3); y = f(1)" ["x"; "y"] =
  (Fine, [VSlice TAny []], [Some (VSlice TAny [VInt 2; VInt 3]); Some (VSlice TAny [])]).
Proof. vm_compute. reflexivity. Qed.
Example C55_count_run :
  leaves "f = fn(a) { x; x = 8 }; x = 7; y = f(1, x)" ["x"; "y"] = (Panicked (VMsg m_argc [VInt 1; VInt 2]), [], [Some (VInt 7); None]) /\
  leaves "f = fn(a, b...) { x; x = 8 }; x = 7; y = f()" ["x"; "y"] = (Panicked (VMsg m_argcv [VInt 1; VInt 0]), [], [Some (VInt 7); None]).
Proof. split; vm_compute; reflexivity. Qed.
(** the operands that were on the stack when a call panicked are all that is left *)
Example C55_panic_run : leaves "f = fn() { 5; [6, panic(""a"")] }; x = [1, 2, f(), 3]" ["x"] = (Panicked (VStr (s2b "a")), [VInt 2; VInt 1], [None]).
Proof. vm_compute. reflexivity. Qed.
(** not when a deferred expression panics *)
Theorem C55_stack_refuted : leaves "f = fn() { defer panic(""a""); 5 }; x = [1, 2, f(), 3]" ["x"] = (Panicked (VStr (s2b "a")), [VInt 5; VInt 2; VInt 1], [None]).
Proof. vm_compute. reflexivity. Qed.
(** two deferred calls: at the end, by return, with a panic, and with a panic that one of them recovers *)
Example C56_end_run : leaves "x = 0; f = fn() { x; defer fn(){ x; x = x*10+1 }(); defer fn() { x; x = x*10+2 }() ; x = x*10+3 }; y = f()" ["x"; "y"] =
  (Fine, [VNil], [Some (VInt 321); Some VNil]).
Proof. vm_compute. reflexivity. Qed.
Example C56_return_run : leaves "x = 0; f = fn() { x; defer fn(){ x; x = x*10+1 }(); defer fn() { x; x = x*10+2 }() ; if true { x = x*10+3; return 8 }; x = 9 }; y = f()" ["x"; "y"] =
  (Fine, [VInt 8], [Some (VInt 321); Some (VInt 8)]).
Proof. vm_compute. reflexivity. Qed.
Example C56_panic_run : leaves "x = 0; f = fn() { x; defer fn(){ x; x = x*10+1 }(); defer fn() { x; x = x*10+2 }() ; if true { x = x*10+3; panic(""a"") }; x = 9 }; y = f()" ["x"; "y"] =
  (Panicked (VStr (s2b "a")), [], [Some (VInt 321); None]).
Proof. vm_compute. reflexivity. Qed.
Example C56_recover_run : leaves "x = 0; f = fn() { x; defer fn(){ recover() }(); defer fn() { x; x = x*10+2 }() ; if true { x = x*10+3; panic(""a"") }; x = 9 }; y = f(); z = 1" ["x"; "y"; "z"] =
  (Fine, [VInt 1], [Some (VInt 32); Some VNil; Some (VInt 1)]).
Proof. vm_compute. reflexivity. Qed.
(** Where it fails: recover() itself deferred does not see the panic of the function that defers it; after one that panics the
    others do not run; what a deferred expression defers in its turn never runs; and return in one returns from the caller,
    which is given nil. *)
Theorem C56_direct_refuted : leaves "f = fn() { defer recover(); panic(""a"") }; f(); y = 1" ["y"] = (Panicked (VStr (s2b "a")), [], [None]).
Proof. vm_compute. reflexivity. Qed.
Theorem C56_rest_skipped_refuted : leaves "x = 0; f = fn() { x; defer fn(){ x; x = 7 }(); defer panic(""b"") }; f()" ["x"] = (Panicked (VStr (s2b "b")), [VNil], [Some (VInt 0)]).
Proof. vm_compute. reflexivity. Qed.
Theorem C56_nested_refuted : leaves "x = 0; f = fn() { x; defer if true { defer fn(){ x; x = 7 }() } }; f(); y = 1" ["x"; "y"] = (Fine, [VInt 1], [Some (VInt 0); Some (VInt 1)]).
Proof. vm_compute. reflexivity. Qed.
Theorem C56_return_refuted : leaves "g = fn() { f = fn() { defer if true { return 3 }; return 1 }; f(); return 7 }; x = 1; x = g()" ["x"] = (Fine, [VNil], [Some VNil]).
Proof. vm_compute. reflexivity. Qed.

(** that calls of well-formed programs are as in [keeps]: C55_kept in PropStack *)

Print Assumptions C55_wrong_count.
Print Assumptions C55_no_body.
Print Assumptions C55_bindings.
Print Assumptions C55_bindings_total.
Print Assumptions C55_variadic_without_parameter.
Print Assumptions C55_call.
Print Assumptions C55_stack_return.
Print Assumptions C55_stack_panic.
Print Assumptions C55_return.
Print Assumptions C56_defer.
Print Assumptions C56_exec.
Print Assumptions C56_recover.
Print Assumptions C56_recovered.
Print Assumptions C56_not_recovered.
Print Assumptions C55_stack_refuted.
Print Assumptions C56_direct_refuted.
Print Assumptions C56_rest_skipped_refuted.
Print Assumptions C56_nested_refuted.
Print Assumptions C56_return_refuted.
