(** Calls of functions do what QFun says (Property C94). *)
From Coq Require Import String SpecFloat.
From Verif Require Import Base Token Grammar Compiler Interp QValue PropValue Qlang QlangSpec QlangTop QText QTidy QExpr QEval PropCtrl PropVars PropCall QExprP QEmbed PropEmbed QWhile QWhileP QFun QFunP.
Local Open Scope list_scope.
Local Open Scope Z_scope.

Section FunK.
Context {W : Type}.
Variable L : qlib W.
Notation St := (est nat value (@rest W)).
Notation ev := (QlangTop.ev L).
Variable reads : list token -> option fblock.
(** the texts that are read are programs, written as they are read *)
Definition reads_ok : Prop := forall ts b, reads ts = Some b -> b <> FNil /\ fbwritten L b ts.

Lemma params_find : forall names args vars g, (forall n, find n vars = g n) -> forall n, find n (bind_args names args vars) = params names args g n.
Proof.
  induction names as [|m names IH]; intros args vars g H n; [apply H|]. destruct args as [|a args]; [apply H|]. cbn [bind_args params]. apply IH. intro n'. rewrite find_set. unfold with_var. rewrite H. reflexivity.
Qed.
Lemma params_plain : forall names args g, Forall plain args -> (forall n v, g n = Some v -> plain v) -> forall n v, params names args g n = Some v -> plain v.
Proof.
  induction names as [|m names IH]; intros args g P G n v H; [exact (G _ _ H)|]. destruct args as [|a args]; [exact (G _ _ H)|]. inversion P; subst. cbn [params] in H. apply (IH args (with_var m a g) H3 ltac:(intros n' v'; unfold with_var; destruct (beq n' m); [intros [= <-]; assumption|apply G]) n v H).
Qed.
(** the variables of a call *)
Lemma given_vars : forall f args, (f_variadic f && (length (f_args f) =? 0)%nat)%bool = false -> Forall plain args ->
  exists vars, call_vars f args = Some vars /\ (forall n, find n vars = given f args n) /\ (forall n v, given f args n = Some v -> plain v).
Proof.
  intros f args H P. unfold call_vars, given. destruct (f_variadic f).
  - destruct (f_args f) as [|x xs] eqn:E; [discriminate H|]. eexists. split; [reflexivity|]. split.
    + intro n. rewrite find_set. unfold with_var. destruct (beq n _); [reflexivity|]. apply params_find. reflexivity.
    + intros n v. unfold with_var. destruct (beq n _); [intros [= <-] ?; discriminate|]. apply params_plain; [|intros ? ? [=]].
      apply Forall_forall. intros y Hy. apply (proj1 (Forall_forall _ _) P). rewrite <- (firstn_skipn (length (x :: xs) - 1) args). apply in_or_app. left. exact Hy.
  - eexists. split; [reflexivity|]. split; [intro n; apply params_find; reflexivity|]. apply params_plain; [exact P|intros ? ? [=]].
Qed.
Lemma counts : forall f args, match miscounted f args with Some q => ~ right_count f (length args) /\ count_panic f (length args) = PUser q /\ fine q | None => right_count f (length args) end.
Proof.
  intros f args. unfold miscounted, right_count, count_panic. cbv zeta. destruct (f_variadic f).
  - destruct (Nat.ltb_spec (length args) (length (f_args f) - 1)); [|lia]. split; [lia|]. split; [reflexivity|exact Logic.I].
  - destruct (Nat.eqb_spec (length args) (length (f_args f))); [lia|]. split; [lia|]. split; [reflexivity|exact Logic.I].
Qed.
(** the scope of a call *)
Lemma entered : forall p h (s : St) f vars g, at_store p h s -> (f_parent f < length (st_scopes h))%nat -> (forall n, find n vars = g n) -> (forall n v, g n = Some v -> plain v) ->
  let s1 := invoked f vars s in
  at_store (length (st_scopes h)) (mkStore (st_scopes h ++ [mkScope g (Some (f_parent f)) (fun _ => false) [] None]) (st_made h) (st_caught h)) s1.
Proof.
  intros p h s f vars g (C & F & N & P & V & (I & I1 & I2) & T) Hp Fg Pg s1.
  assert (B : forall n v, find n vars = Some v -> plain v).
  { intros n v E. rewrite Fg in E. exact (Pg n v E). }
  destruct (C57_call vars (f_parent f) s C ltac:(lia) B) as (s' & E & C' & D & Pr). unfold new_frame in E. injection E as E. change (s1 = s') in E. subst s'.
  split; [exact C'|]. unfold s1. rewrite nframes_invoked. cbn [st_scopes st_made]. rewrite app_length. cbn [length]. split; [lia|]. split; [lia|]. fold s1.
  assert (Hi : forall i, nth_error (st_scopes h ++ [mkScope g (Some (f_parent f)) (fun _ => false) [] None]) i = if (i =? length (st_scopes h))%nat then Some (mkScope g (Some (f_parent f)) (fun _ => false) [] None) else nth_error (st_scopes h) i).
  { intro i. destruct (Nat.eqb_spec i (length (st_scopes h))) as [->|X]; [rewrite nth_error_app2 by lia; rewrite Nat.sub_diag; reflexivity|].
    destruct (Nat.lt_ge_cases i (length (st_scopes h))) as [Y|Y]; [apply nth_error_app1; exact Y|]. rewrite (proj2 (nth_error_None _ _)) by (rewrite app_length; cbn; lia). symmetry. apply nth_error_None. exact Y. }
  split; [|split; [|split]].
  - intro i. unfold up. cbn [st_scopes]. rewrite Hi. specialize (P i). unfold up in P. destruct (Nat.eqb_spec i (length (st_scopes h))) as [->|X].
    + apply Pr. right. split; [lia|reflexivity].
    + rewrite <- P. destruct (parent i s1) as [j|] eqn:E.
      * apply Pr in E. destruct E as [E|(E & _)]; [congruence|lia].
      * destruct (parent i s) as [j|] eqn:E'; [|reflexivity]. assert (X' : parent i s1 = Some j) by (apply Pr; auto). congruence.
  - intros i n v. unfold own. cbn [st_scopes]. rewrite Hi, D, V. unfold own. destruct (Nat.eqb_spec i (length (st_scopes h))) as [->|X].
    + cbn [sc_own]. rewrite (proj2 (nth_error_None _ _)) by lia. rewrite Fg. split; [intros [[=]|(_ & H)]; exact H|intro H; right; split; [lia|exact H]].
    + split; [intros [H|(H & _)]; [exact H|lia]|auto].
  - split; [exact I|]. unfold deferred, pending, up. cbn [st_scopes]. split; intro i; rewrite !Hi; destruct (Nat.eqb_spec i (length (st_scopes h))) as [->|X].
    + unfold s1. rewrite <- N, getf_invoked. split; reflexivity.
    + specialize (I1 i). unfold deferred, pending in I1. unfold s1. destruct (Nat.lt_ge_cases i (nframes s)) as [Y|Y].
      * assert (Gi : getf i (invoked f vars s) = getf i s) by (unfold invoked, getf; cbn [r_frames e_rest with_frames set_rest]; apply app_nth1; exact Y). rewrite Gi. exact I1.
      * assert (Z0 : forall z : St, (nframes z <= i)%nat -> getf i z = getf i s) by (intros z Hz; unfold getf; rewrite !nth_overflow by (exact Hz || exact Y); reflexivity).
        rewrite (Z0 (invoked f vars s)) by (rewrite nframes_invoked; lia). exact I1.
    + reflexivity.
    + apply (I2 i).
  - intros i n. unfold knows, own, has_read. cbn [st_scopes]. rewrite Hi. specialize (T i n). unfold knows, own, has_read in T. unfold has_entry, var_of, s1. destruct (Nat.eqb_spec i (length (st_scopes h))) as [->|X].
    + rewrite <- N, getf_invoked. cbn [fr_vars sc_own sc_read]. rewrite Fg. destruct (g n); split; congruence.
    + rewrite <- T. unfold has_entry, var_of. destruct (Nat.lt_ge_cases i (nframes s)) as [Y|Y].
      * assert (Gi : getf i (invoked f vars s) = getf i s) by (unfold invoked, getf; cbn [r_frames e_rest with_frames set_rest]; apply app_nth1; exact Y). rewrite Gi. reflexivity.
      * assert (Z0 : forall z : St, (nframes z <= i)%nat -> find n (fr_vars (getf i z)) = None) by (intros z Hz; unfold getf; rewrite nth_overflow by exact Hz; reflexivity).
        rewrite (Z0 s Y), (Z0 (invoked f vars s)) by (rewrite nframes_invoked; lia). reflexivity.
Qed.
(** the deferred expressions *)
Lemma set_aside : forall p h (s s0 : St), at_store p h s -> at_store p h (aside s0 s).
Proof. intros p h s s0 V. apply (store_like p p h s); [split; [|split]; reflexivity|reflexivity|reflexivity|split; reflexivity|apply V|exact V]. Qed.
Lemma deferred_run : plain_lib L -> reads_ok -> forall call, calls_ok L call -> forall l p h o, run_deferred L reads call l p h = Some o -> exists N, forall n (s : St), (N <= n)%nat -> at_store p h s ->
  match snd o with
  | Gives _ => exists s', defers_run (ev n) p (map VCode l) s None s' /\ (exists l', e_stk s' = l' ++ e_stk s) /\ at_store p (fst o) s' /\ like s s'
  | Panics q => exists e s', defers_run (ev n) p (map VCode l) s (Some e) s' /\ panics_as false q e /\ fine q /\ (exists l', e_stk s' = l' ++ e_stk s) /\ at_store p (fst o) s' /\ still false p s s'
  | Returns _ => True
  end.
Proof.
  intros PL Hr call Hc. induction l as [|ts l IH]; intros p h o E; cbn [run_deferred map] in *.
  { injection E as <-. exists 0%nat. intros n s _ V. exists s. split; [constructor|]. split; [exists []; reflexivity|]. split; [exact V|apply like_refl]. }
  destruct (reads ts) as [[|[|e| | | | | | | | |] [|]]|] eqn:Re; try discriminate E. destruct (Hr ts _ Re) as (_ & Wb).
  assert (We : xwritten L 5 e ts). { inversion Wb as [|? ? ? ? Hw Hr']; subst. inversion Hw; subst. inversion Hr'; subst. rewrite app_nil_r. assumption. }
  destruct (expr_means L PL call Hc e ts We) as (c & He & M). destruct (eval_text L n_expr ts c (or_introl (conj eq_refl He))) as (N' & X).
  destruct (xval L call e p h) as [(h1, r)|] eqn:Ex; [|discriminate E]. destruct (M p h (h1, r) Ex) as (N & G).
  assert (Y : forall n (s : St), (S (N + N') <= n)%nat -> at_store p h s ->
    match r with
    | Gives v => exists s', ev n p n_expr (VCode ts) s = inl (None, s') /\ (exists l', e_stk s' = l' ++ e_stk s) /\ at_store p h1 s' /\ like s s'
    | Panics q => exists e s', ev n p n_expr (VCode ts) s = inr (e, s') /\ panics_as false q e /\ fine q /\ (exists l', e_stk s' = l' ++ e_stk s) /\ at_store p h1 s' /\ still false p s s'
    | Returns _ => True
    end).
  { intros n s Hn V. destruct n as [|n]; [lia|]. rewrite X by lia. unfold evaluated. set (s2 := set_mute 0 (set_ipt p s)).
    assert (V2 : at_store p h s2) by (apply (store_like p p h s); [split; [|split]; reflexivity|reflexivity|reflexivity|split; reflexivity|apply V|exact V]).
    specialize (G n s2 ltac:(lia) V2). change (e_stk s2) with (e_stk s) in G. destruct r as [v|q|v]; cbn [dgave fst snd] in G; [| |exact Logic.I].
    - destruct G as (s3 & -> & _ & K3 & V3 & (A & A1 & A2 & A3 & A4)). exists (aside s s3). split; [reflexivity|]. split; [exists [v]; exact K3|]. split; [apply set_aside; exact V3|].
      split; [exact A|]. split; [exact A1|]. split; [reflexivity|]. split; [reflexivity|exact A4].
    - destruct G as (e0 & s3 & -> & Pe & Fq & K3 & V3 & (A & A1 & A2 & A3 & A4)). exists e0, (aside s s3). split; [reflexivity|]. split; [exact Pe|]. split; [exact Fq|]. split; [exact K3|]. split; [apply set_aside; exact V3|].
      split; [exact A|]. split; [exact A1|]. split; [reflexivity|]. split; [reflexivity|exact A4]. }
  destruct r as [v|q|v]; cbn [fthen] in E.
  - destruct (IH p h1 o E) as (N1 & H). exists (S (N + N') + N1)%nat. intros n s Hn V. destruct (Y n s ltac:(lia) V) as (s1 & E1 & (l1 & K1) & V1 & S1). specialize (H n s1 ltac:(lia) V1).
    destruct o as (h', [v'|q|v']); cbn [fst snd] in *; [| |exact Logic.I].
    + destruct H as (s' & R & (l2 & K2) & V' & S'). exists s'. split; [eapply dr_cons; eassumption|]. split; [exists (l2 ++ l1); rewrite K2, K1; apply app_assoc|]. split; [exact V'|eapply like_trans; eassumption].
    + destruct H as (e0 & s' & R & Pe & Fq & (l2 & K2) & V' & S'). exists e0, s'. split; [eapply dr_cons; eassumption|]. split; [exact Pe|]. split; [exact Fq|]. split; [exists (l2 ++ l1); rewrite K2, K1; apply app_assoc|]. split; [exact V'|eapply like_still; eassumption].
  - injection E as <-. exists (S (N + N')). intros n s Hn V. destruct (Y n s Hn V) as (e0 & s1 & E1 & H). exists e0, s1. split; [apply dr_panic; exact E1|exact H].
  - injection E as <-. exists 0%nat. intros. exact Logic.I.
Qed.
(** the end of a call in frame [j]: what has changed in the other frames, and apart from them *)
Definition apart (j : nat) (s0 s s5 : St) : Prop :=
  (forall i, i <> j -> (i < nframes s)%nat -> fr_parent (getf i s5) = fr_parent (getf i s) /\ fr_ret (getf i s5) = fr_ret (getf i s) /\ fr_base (getf i s5) = fr_base (getf i s)) /\
  (nframes s <= nframes s5)%nat /\ e_mute s5 = e_mute s0 /\ e_ipt s5 = e_ipt s0 /\ r_objs (e_rest s5) = r_objs (e_rest s) /\ r_world (e_rest s5) = r_world (e_rest s).
Lemma left_at : plain_lib L -> reads_ok -> forall call, calls_ok L call -> forall j h x o, run_deferred L reads call (deferred h j) j (set_pending j x h) = Some o -> exists N, forall n p (s s0 : St) y l stk, (N <= n)%nat -> recov_as x y -> at_store j h s -> (p < nframes s)%nat -> e_stk s = l ++ stk ->
  match snd o with
  | Gives _ => exists s5, match pending (fst o) j with
                          | Some q => exists e, call_end (ev n) j (length stk) y (aside s0 s) = inr (e, s5) /\ thrown q e
                          | None => call_end (ev n) j (length stk) y (aside s0 s) = inl (tt, s5)
                          end /\
                 e_stk s5 = stk /\ at_store p (set_deferred j [] (fst o)) s5 /\ fr_ret (getf j s5) = fr_ret (getf j s) /\ apart j s0 s s5
  | Panics q => exists e s5, call_end (ev n) j (length stk) y (aside s0 s) = inr (e, s5) /\ panics_as false q e /\ fine q /\ (exists l', e_stk s5 = l' ++ stk) /\ at_store p (fst o) s5 /\ apart j s0 s s5
  | Returns _ => True
  end.
Proof.
  intros PL Hr call Hc j h x o E. destruct (deferred_run PL Hr call Hc _ j _ o E) as (N & H). exists N. intros n p s s0 y l stk Hn Xy V Fp K. pose proof V as (_ & F & NF0 & _ & _ & (_ & De & _) & _).
  set (s1 := updf j (set_recov y) (aside s0 s)).
  assert (G1 : forall i, getf i s1 = if (i =? j)%nat then set_recov y (getf j s) else getf i s).
  { intro i. unfold s1. rewrite getf_updf. change (nframes (aside s0 s)) with (nframes s). rewrite (proj2 (Nat.ltb_lt _ _) F), Bool.andb_true_r. reflexivity. }
  assert (N1 : nframes s1 = nframes s) by (unfold s1; rewrite nframes_updf; reflexivity).
  assert (V1 : at_store j (set_pending j x h) s1).
  { apply (store_pending j j j x y h s); [lia|exact Xy| |intro i; unfold parent; rewrite G1; destruct (Nat.eqb_spec i j) as [->|]; reflexivity|exact N1|split; reflexivity|exact F|exact V].
    intro i. rewrite G1. destruct (Nat.eqb_spec i j) as [->|]; split; [|split| |split]; reflexivity. }
  specialize (H n s1 Hn V1). rewrite <- (proj1 (De j)) in H. change (getf j s) with (getf j (aside s0 s)) in H.
  assert (Ce : forall o' s', (exists l', e_stk s' = l' ++ e_stk s1) -> defers_run (ev n) j (fr_defers (getf j (aside s0 s))) s1 o' s' -> call_end (ev n) j (length stk) y (aside s0 s) = match o' with Some e' => inr (e', s') | None => match fr_recov (getf j s') with Some e => inr (e, cut j (length stk) s') | None => inl (tt, cut j (length stk) s') end end).
  { intros o' s' (l' & K') R. rewrite (call_end_eq (ev n) j (length stk) y (aside s0 s) o' s'); [rewrite (proj1 (recov_cut j _ _)); reflexivity| |exact F|exact R].
    change (e_stk s1) with (e_stk s) in K'. rewrite K', K, !app_length. lia. }
  destruct o as (h', [v|q|v]); cbn [fst snd] in *; [| |exact Logic.I].
  - destruct H as (s' & R & (l' & K') & V' & (A & A1 & A2 & A3 & A4 & A6)). specialize (Ce None s' (ex_intro _ _ K') R). cbn iota in Ce. destruct (A j ltac:(lia)) as (a2 & a3 & a4). rewrite G1, Nat.eqb_refl in a2, a3, a4. cbn in a2, a3, a4.
    pose proof V' as (_ & F' & NF & _ & _ & (_ & De' & _) & _). destruct (De' j) as (_ & Rj).
    exists (cut j (length stk) s'). split; [destruct (pending h' j) as [q|], (fr_recov (getf j s')) as [e|]; try (exfalso; exact Rj); [exists e; split; [exact Ce|exact Rj]|exact Ce]|]. change (e_stk s1) with (e_stk s) in K'.
    split. { change (skipn (length (e_stk s') - length stk) (e_stk s') = stk). rewrite K', K, app_assoc, app_length. replace (length (l' ++ l) + length stk - length stk)%nat with (length (l' ++ l)) by lia. rewrite skipn_app, skipn_all, Nat.sub_diag. reflexivity. }
    assert (G5 : forall i, getf i (cut j (length stk) s') = if (i =? j)%nat then set_defers [] (getf j s') else getf i s').
    { intro i. change (getf i (cut j (length stk) s')) with (getf i (updf j (set_defers []) s')). rewrite getf_updf. rewrite (proj2 (Nat.ltb_lt _ _) F'), Bool.andb_true_r. reflexivity. }
    assert (N5 : nframes (cut j (length stk) s') = nframes s') by (change (nframes (updf j (set_defers []) s') = nframes s'); apply nframes_updf).
    split. { apply (store_deferred j p j [] h' s'); [lia|reflexivity| | |exact N5|split; reflexivity|lia|exact V'].
      - intro i. rewrite G5. destruct (Nat.eqb_spec i j) as [->|]; split; [|split| |split]; reflexivity.
      - intro i. unfold parent. rewrite G5. destruct (Nat.eqb_spec i j) as [->|]; reflexivity. }
    split; [rewrite G5, Nat.eqb_refl; exact a3|].
    split; [|split; [lia|split; [exact A2|split; [exact A3|exact (conj A4 A6)]]]]. intros i Ni Hi. rewrite G5. destruct (Nat.eqb_spec i j) as [|_]; [contradiction|]. destruct (A i ltac:(lia)) as (b2 & b3 & b4). rewrite b2, b3, b4, G1. destruct (Nat.eqb_spec i j) as [|_]; [contradiction|]. repeat split.
  - destruct H as (e & s' & R & Pe & Fq & (l' & K') & V' & (A & A1 & A2 & A3 & A4 & A6)). specialize (Ce (Some e) s' (ex_intro _ _ K') R). exists e, s'. split; [exact Ce|]. split; [exact Pe|]. split; [exact Fq|].
    split; [exists (l' ++ l); change (e_stk s1) with (e_stk s) in K'; rewrite K', K; apply app_assoc|]. split; [apply (store_like j p h' s'); [split; [|split]; reflexivity|reflexivity|reflexivity|split; reflexivity|lia|exact V']|].
    split; [|split; [lia|split; [exact A2|split; [exact A3|exact (conj A4 A6)]]]]. intros i Ni Hi. destruct (A i ltac:(lia)) as (b2 & b3 & b4). specialize (b3 (or_intror Ni)). destruct b4 as [b4|(X & _)]; [|contradiction]. rewrite b2, b3, b4, G1. destruct (Nat.eqb_spec i j) as [|_]; [contradiction|]. repeat split.
Qed.

Theorem calls_mean : plain_lib L -> reads_ok -> forall k, calls_ok L (fcall L reads k).
Proof.
  intros PL Hr. induction k as [|k IH]; intros f vs h o E Pv; [discriminate E|]. cbn [fcall] in E. pose proof (counts f vs) as R. destruct (miscounted f vs) as [q|].
  { injection E as <-. exists 0%nat. intros n p s _ V. destruct R as (R & Q & Fq). rewrite (C55_wrong_count (ev n) f vs s R). rewrite Q.
    eexists _, s. split; [reflexivity|]. split; [right; split; reflexivity|]. split; [exact Fq|]. split; [exists []; reflexivity|]. split; [exact V|]. apply like_is_still, like_refl. }
  destruct (f_body f) as [ts|] eqn:Bo.
  2:{ injection E as <-. exists 0%nat. intros n p s _ V. rewrite (C55_no_body (ev n) f vs s R Bo). exists s. split; [reflexivity|]. split; [intros ? ?; discriminate|]. split; [reflexivity|]. split; [exact V|apply like_refl]. }
  destruct (f_variadic f && (length (f_args f) =? 0)%nat)%bool eqn:Vz.
  { injection E as <-. apply Bool.andb_true_iff in Vz. destruct Vz as (Va & Z0). apply Nat.eqb_eq in Z0. exists 0%nat. intros n p s _ V.
    rewrite (C55_variadic_without_parameter (ev n) f vs ts s Va ltac:(destruct (f_args f); [reflexivity|discriminate Z0]) Bo).
    eexists _, s. split; [reflexivity|]. split; [right; split; reflexivity|]. split; [exact Logic.I|]. split; [exists []; reflexivity|]. split; [exact V|]. apply like_is_still, like_refl. }
  destruct (given_vars f vs Vz Pv) as (vars & Cv & Fg & Pg).
  destruct (reads ts) as [b|] eqn:Re; [|discriminate E]. destruct (Nat.ltb_spec (f_parent f) (length (st_scopes h))) as [Hp|Hp]; [|discriminate E].
  set (h1 := mkStore (st_scopes h ++ [mkScope (given f vs) (Some (f_parent f)) (fun _ => false) [] None]) (st_made h) (st_caught h)) in *. set (j := length (st_scopes h)) in *.
  destruct (Hr ts b Re) as (Nb & Wb). destruct (texts_mean L PL (fcall L reads k) k IH) as (_ & TB & _). specialize (TB b ts Wb). destruct b as [|st b]; [contradiction|]. destruct TB as (Nt & c & Hd & M).
  destruct (fbrun L (fcall L reads k) k (FCons st b) j h1) as [o2|] eqn:E2; [|discriminate E]. destruct (M j h1 o2 E2) as (N & G). destruct o2 as (h2, r2). destruct (run_deferred L reads (fcall L reads k) (deferred h2 j) j (set_pending j (match r2 with Panics q => Some q | _ => None end) h2)) as [(h3, r3)|] eqn:E3; [|discriminate E].
  destruct (left_at PL Hr _ IH j h2 _ _ E3) as (N3 & G3). cbn [fst snd] in G3.
  destruct (eval_text L n_docr ts c (or_intror (or_introl (conj eq_refl Hd)))) as (N' & X). exists (S (N + N' + N3)). intros n p s Hn V. destruct n as [|n]; [lia|].
  pose proof (entered p h s f vars (given f vs) V Hp Fg Pg) as V1. fold h1 j in V1. set (s1 := invoked f vars s) in *. cbn zeta in V1.
  assert (Ej : nframes s = j) by (destruct V as (_ & _ & NF & _); exact NF).
  assert (G1 : getf j s1 = mkFrame vars VNil None (Some (f_parent f)) [] (length (e_stk s))) by (rewrite <- Ej; apply getf_invoked).
  assert (Gi : forall i, (i < j)%nat -> getf i s1 = getf i s).
  { intros i Hi. unfold s1, invoked, getf. cbn [r_frames e_rest with_frames set_rest]. apply app_nth1. rewrite <- Ej in Hi. exact Hi. }
  set (s2 := set_mute 0 (set_ipt j s1)). assert (V2 : at_store j h1 s2) by (apply (store_like j j h1 s1); [split; [|split]; reflexivity|reflexivity|reflexivity|split; reflexivity|apply V1|exact V1]).
  specialize (G n s2 ltac:(lia) V2). change (getf j s2) with (getf j s1) in G. rewrite G1 in G. cbn [fr_base] in G. change (e_stk s2) with (e_stk s) in G. specialize (G (Nat.le_refl _)).
  assert (G' : dgave false j (e_stk s) s2 (h2, r2) (c (ev n) n j s2)) by (destruct b; [exact G|]; rewrite cut_self in G; exact G). clear G.
  assert (Fe : FnCall (ev (S n)) f vs s = match evaluated (ev n) n j c s1 with
    | inl (r, s') => (call_end (ev (S n)) j (length (e_stk s)) None ;;; match r with Some e => throw e | None => gets (fun s => fr_ret (getf j s)) end) s'
    | inr (e, s') => if uncatchable e then inr (e, s') else (call_end (ev (S n)) j (length (e_stk s)) (if is_return e then None else Some e) ;;; gets (fun s => fr_ret (getf j s))) s'
    end).
  { unfold FnCall. rewrite (proj2 (call_count_iff f vs) R), Bo. rewrite Cv. unfold new_frame. unfold bind at 1. fold (nframes s). rewrite Ej. change (with_frames _ s) with s1. unfold bind at 1, gets at 1. rewrite G1. cbn [fr_base]. rewrite (X n j s1) by lia. reflexivity. }
  rewrite Fe. clear Fe. unfold evaluated. fold s2.
  destruct V as (C & F & NF & P & Vd & I & T). rewrite Ej in F.
  assert (J : (j < nframes s2)%nat) by apply V2.
  assert (N2 : nframes s2 = S j) by (change (nframes s2) with (nframes s1); unfold s1; rewrite nframes_invoked; lia).
  assert (T2 : fr_ret (getf j s2) = VNil) by (change (getf j s2) with (getf j s1); rewrite G1; reflexivity).
  (* what the body and the deferred expressions leave of the other frames *)
  assert (LK : forall r s3 s5, still r j s2 s3 -> apart j s1 s3 s5 -> like s s5).
  { intros r s3 s5 (A & A1 & A2 & A3 & A4 & A6) (B & B1 & B2 & B3 & B4 & B6). split; [|split; [lia|split; [exact B2|split; [exact B3|split; [exact (eq_trans B4 A4)|exact (eq_trans B6 A6)]]]]].
    intros i Hi. rewrite Ej in Hi. destruct (B i ltac:(lia) ltac:(lia)) as (b2 & b3 & b4). destruct (A i ltac:(lia)) as (a2 & a3 & a4). specialize (a3 ltac:(right; lia)). destruct a4 as [a4|(-> & _)]; [|lia].
    change (getf i s2) with (getf i s1) in *. rewrite (Gi i Hi) in *. split; [|split]; congruence. }
  (* the end: [v] is what the body returned *)
  assert (EN : forall r y v s3 l (m : @Q W value), at_store j h2 s3 -> still r j s2 s3 -> e_stk s3 = l ++ e_stk s -> recov_as (match r2 with Panics q => Some q | _ => None end) y -> fr_ret (getf j s3) = v -> plain v ->
    match r2 with Returns w => v = w | _ => v = VNil end -> (forall s', m s' = inl (fr_ret (getf j s'), s')) -> fgave p s o ((call_end (ev (S n)) j (length (e_stk s)) y ;;; m) (aside s1 s3))).
  { intros r y v s3 l m V3 S3 K3 Ry Rv Pv0 Hv Hm. assert (Fp : (p < nframes s3)%nat) by (destruct S3 as (_ & Y & _); lia). specialize (G3 (S n) p s3 s1 y l (e_stk s) ltac:(lia) Ry V3 Fp K3). unfold bind. destruct r3 as [w|q|w]; [| |discriminate E].
    - destruct G3 as (s5 & B1 & B2 & B3 & B4 & B5). injection E as <-. destruct (pending h3 j) as [q|].
      + destruct B1 as (e & -> & Fq & Th). exists e, s5. split; [reflexivity|]. split; [left; exact Th|]. split; [exact Fq|]. split; [exists []; exact B2|]. split; [exact B3|]. apply like_is_still. exact (LK r s3 s5 S3 B5).
      + rewrite B1, Hm, B4, Rv. destruct r2; rewrite Hv in Pv0 |- *; exists s5; (split; [reflexivity|]); (split; [exact Pv0|]); (split; [exact B2|]); (split; [exact B3|]); exact (LK r s3 s5 S3 B5).
    - destruct G3 as (e & s5 & -> & B2 & B3 & B4 & B5 & B6). injection E as <-. exists e, s5. split; [reflexivity|]. split; [destruct B2 as [B2|(Y & _)]; [left; exact B2|discriminate Y]|]. split; [exact B3|]. split; [exact B4|]. split; [exact B5|]. apply like_is_still. exact (LK r s3 s5 S3 B6). }
  assert (Pn : plain VNil) by (intros ? ?; discriminate).
  destruct r2 as [v|q|v]; cbn [dgave fst snd] in G'.
  - destruct G' as (s3 & -> & _ & K3 & V3 & S3). destruct (proj1 S3 j J) as (_ & a3 & _). exact (EN false None VNil s3 [v] _ V3 (like_is_still _ j _ _ S3) K3 Logic.I ltac:(congruence) Pn eq_refl (fun _ => eq_refl)).
  - destruct G' as (e & s3 & -> & Pe & Fq & (l & K3) & V3 & S3). destruct Pe as [(src & ->)|(Y & _)]; [|discriminate Y].
    assert (Uc : uncatchable (wrap src (PUser q)) = false) by (destruct q as [?|?|? ?|[]|]; try destruct Fq; reflexivity).
    assert (Ir : is_return (wrap src (PUser q)) = false).
    { destruct q; try destruct Fq; try reflexivity. destruct e; try reflexivity. destruct x; try reflexivity; destruct Fq. }
    rewrite Uc, Ir. cbn iota. destruct (proj1 S3 j J) as (_ & a3 & _). specialize (a3 (or_introl eq_refl)).
    exact (EN false (Some (wrap src (PUser q))) VNil s3 l _ V3 S3 K3 (conj Fq (ex_intro _ src eq_refl)) ltac:(congruence) Pn eq_refl (fun _ => eq_refl)).
  - destruct G' as (s3 & -> & (Pv' & _) & R3 & (l & K3) & V3 & S3). change (uncatchable p_return) with false. change (is_return p_return) with true. cbn iota.
    exact (EN true None v s3 l _ V3 S3 K3 Logic.I R3 Pv' eq_refl (fun _ => eq_refl)).
Qed.
End FunK.
