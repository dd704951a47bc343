(** The calculators' actions do what CalcValue.v asks of them, and the specification with and without traces agree. *)
From Coq Require Import String.
From Verif Require Import Base Token Utf8 Scanner Tokenize Grammar Matcher PegSpec MatchProofs MatchProofs2 MatchProofs3 MatchProofs4 MatchObs Wf PegTools Compiler CompilerBack Interp Calc CalcSpec CalcProofs CalcValue.

(** ** v_* and d_* *)
Section Same.
Variables leaves1 leaves2 muls : list (Z * bytes).
Context {E : Type}.
Variable lit : bytes -> bytes -> option E.
Variable bin : bytes -> E -> E -> option E.
Variable neg : E -> option E.
Variable call : bytes -> list E -> option E.
Definition tab {Y : Type} (f : bytes -> Y) (l : list (Z * bytes)) : list (Z * Y) := map (fun p => (fst p, f (snd p))) l.
Lemma in_tab : forall (Y : Type) (f : bytes -> Y) l k y, In (k, y) (tab f l) <-> exists m, y = f m /\ In (k, m) l.
Proof.
  intros Y f l k y. unfold tab. rewrite in_map_iff. split.
  - intros ((k', m) & H & Hi). injection H as <- <-. exists m. split; [reflexivity|exact Hi].
  - intros (m & -> & Hi). exists (k, m). split; [reflexivity|exact Hi].
Qed.
Notation D_factor := (d_factor leaves1 leaves2 muls lit bin neg call).
Notation D_muls := (d_muls leaves1 leaves2 muls lit bin neg call).
Notation D_term := (d_term leaves1 leaves2 muls lit bin neg call).
Notation D_adds := (d_adds leaves1 leaves2 muls lit bin neg call).
Notation D_doc' := (d_doc leaves1 leaves2 muls lit bin neg call).
Notation D_more' := (d_more leaves1 leaves2 muls lit bin neg call).
Notation lits := (tab lit (leaves1 ++ leaves2)).
Notation mulv := (tab bin muls).
Notation addv := (tab bin adds).
Notation V_factor := (v_factor lits mulv addv neg call).
Notation V_muls := (v_muls lits mulv addv neg call).
Notation V_term' := (v_term lits mulv addv neg call).
Notation V_adds := (v_adds lits mulv addv neg call).
Notation V_doc' := (v_doc lits mulv addv neg call).
Notation V_more' := (v_more lits mulv addv neg call).
Lemma d_v : (forall ts r y, D_factor ts r y -> V_factor ts r) /\ (forall a ts r y, D_muls a ts r y -> V_muls a ts r) /\
  (forall ts r y, D_term ts r y -> V_term' ts r) /\ (forall a ts r y, D_adds a ts r y -> V_adds a ts r) /\
  (forall ts r y, D_doc' ts r y -> V_doc' ts r) /\ (forall ts r y, D_more' ts r y -> V_more' ts r).
Proof.
  apply (d_ind6 leaves1 leaves2 muls lit bin neg call (fun ts r _ _ => V_factor ts r) (fun a ts r _ _ => V_muls a ts r) (fun ts r _ _ => V_term' ts r)
    (fun a ts r _ _ => V_adds a ts r) (fun ts r _ _ => V_doc' ts r) (fun ts r _ _ => V_more' ts r)); intros; try (econstructor; eassumption).
  - eapply V_lit with (f := lit m); [|eassumption]. apply in_tab. exists m. auto.
  - eapply V_mul with (f := bin m); [|eassumption|eassumption]. apply in_tab. exists m. auto.
  - eapply V_add with (f := bin m); [|eassumption|eassumption]. apply in_tab. exists m. auto.
Qed.
Scheme vf_mut := Induction for v_factor Sort Prop
  with vm_mut := Induction for v_muls Sort Prop
  with vt_mut := Induction for v_term Sort Prop
  with va_mut := Induction for v_adds Sort Prop
  with vd_mut := Induction for v_doc Sort Prop
  with vr_mut := Induction for v_more Sort Prop.
Combined Scheme v_ind6 from vf_mut, vm_mut, vt_mut, va_mut, vd_mut, vr_mut.
Lemma v_d : (forall ts r, V_factor ts r -> exists y, D_factor ts r y) /\ (forall a ts r, V_muls a ts r -> exists y, D_muls a ts r y) /\
  (forall ts r, V_term' ts r -> exists y, D_term ts r y) /\ (forall a ts r, V_adds a ts r -> exists y, D_adds a ts r y) /\
  (forall ts r, V_doc' ts r -> exists y, D_doc' ts r y) /\ (forall ts r, V_more' ts r -> exists y, D_more' ts r y).
Proof.
  apply (v_ind6 _ lits mulv addv neg call (fun ts r _ => exists y, D_factor ts r y) (fun a ts r _ => exists y, D_muls a ts r y) (fun ts r _ => exists y, D_term ts r y)
    (fun a ts r _ => exists y, D_adds a ts r y) (fun ts r _ => exists y, D_doc' ts r y) (fun ts r _ => exists y, D_more' ts r y)); intros;
    repeat match goal with H : exists y, _ |- _ => destruct H end; try (eexists; econstructor; eassumption).
  - apply in_tab in i. destruct i as (m & -> & Hi). eexists. eapply D_lit; [exact Hi|exact k0].
  - apply in_tab in i. destruct i as (m & -> & Hi). eexists. eapply D_mul; [exact Hi|eassumption|eassumption].
  - apply in_tab in i. destruct i as (m & -> & Hi). eexists. eapply D_add; [exact Hi|eassumption|eassumption].
Qed.
Lemma doc_iff : forall ts r, V_doc' ts r <-> exists y, D_doc' ts r y.
Proof. intros ts r. split; [apply (proj1 (proj2 (proj2 (proj2 (proj2 v_d)))))|]. intros (y & H). eapply (proj1 (proj2 (proj2 (proj2 (proj2 d_v))))). exact H. Qed.
End Same.

(** ** The actions *)
Section Acts.
Context {F X E : Type}.
Variable k : calc F X E.
Variable to_float : val F X unit E -> F.
Variable of_int : Z -> F.
Variable parse_float : bytes -> F + nerr.
Notation S := (est unit E unit).
Notation act := (kact k to_float of_int parse_float).
Notation u := (kclient k to_float of_int parse_float).
Notation tbl := (ctable k to_float).
Definition leaf_val (lf : leaf F E) (s : bytes) : option E :=
  match lf with
  | LFloat f => match ParseFloat of_int parse_float s with Val (inl v) => Some (f v) | _ => None end
  | LStr f => f s
  end.
(** a function of the library applied to values *)
Definition lib_call (name : bytes) (vs : list E) : option E :=
  match k_lib k name with
  | None => None
  | Some l =>
      if (if l_variadic l then (l_arity l - 1 <=? length vs)%nat else (length vs =? l_arity l)%nat) then l_run l vs else None
  end.
Variable N : nat.
Hypothesis Hval : forall e, validateType to_float (k_emb k e) (k_type k) = Val (inl (k_emb k e)).
Hypothesis Hunemb : forall e, k_unemb k (k_emb k e) = Some e.
Hypothesis Hunret : forall e, k_unret k (k_emb k e) = inl e.
Hypothesis Hty : teq (k_type k) tstk = false /\ teq (k_type k) tipt = false.
Hypothesis Hlen : forall n, 0 <= n <= Z.of_nat N -> k_to_len k (k_of_len k n) = Some n.
Hypothesis Hlib0 : forall name l, k_lib k name = Some l -> l_variadic l = true -> l_arity l <> 0%nat.
Definition good (x : S) : Prop := e_mute x = 0.
Notation acts := (acts u push).

Lemma wrap_runtime : forall ts, wrap ts (runtime : @panic X) = PUser (PvRuntime ERuntime ts).
Proof. reflexivity. Qed.
Lemma good_push : forall v x, good x -> good (push v x).
Proof. intros v x H. exact H. Qed.
Lemma act_unfold : forall m fn ts l x, tbl (36 :: m) = Some fn -> good x ->
  act m ts l x = match body (k_emb k) (PushRet (k_unret k)) to_float of_int parse_float tstk tipt None m fn ts l x with inl s' => inl s' | inr (p, s') => inr (wrap ts p, s') end.
Proof. intros m fn ts l x H Hg. unfold kact, iact, fn_of. rewrite H. unfold silenced. rewrite Hg. reflexivity. Qed.

Lemma validate_emb : forall vs ts, (forall t, In t ts -> t = k_type k) -> length vs = length ts ->
  validate to_float (combine (map (k_emb k) vs) ts) = Val (inl (map (k_emb k) vs)).
Proof.
  induction vs as [|v vs IH]; intros ts Ht L; destruct ts as [|t ts]; try discriminate L; [reflexivity|].
  cbn [map combine validate]. rewrite (Ht t (or_introl eq_refl)), Hval. rewrite IH; [reflexivity| |injection L as L; exact L].
  intros t' Ht'. apply Ht. right. exact Ht'.
Qed.
Lemma validate_all : forall vs, validate to_float (map (fun v => (v, k_type k)) (map (k_emb k) vs)) = Val (inl (map (k_emb k) vs)).
Proof. induction vs as [|v vs IH]; [reflexivity|]. cbn [map validate]. rewrite Hval, IH. reflexivity. Qed.
Lemma unembs_emb : forall vs, unembs k (map (k_emb k) vs) = Some vs.
Proof. induction vs as [|v vs IH]; [reflexivity|]. cbn [map unembs]. rewrite Hunemb, IH. reflexivity. Qed.

(** a call of a function on numbers *)
Lemma rev_pushes : forall vs (x : S), e_stk (pushes push vs x) = rev vs ++ e_stk x.
Proof. induction vs as [|v vs IH]; intro x; [reflexivity|]. cbn [pushes rev]. rewrite IH, <- app_assoc. reflexivity. Qed.
Lemma pushes_rest : forall vs (x : S), pushes push vs x = set_stk (rev vs ++ e_stk x) x.
Proof.
  induction vs as [|v vs IH]; intro x; [destruct x; reflexivity|]. cbn [pushes rev]. rewrite IH, <- app_assoc. reflexivity.
Qed.
Lemma pop_pushes : forall vs (x : S), PopArgs (k_emb k) (Z.of_nat (length vs)) (rev vs ++ e_stk x) = Val (Some (map (k_emb k) vs, e_stk x)).
Proof.
  intros vs x. unfold PopArgs. rewrite app_length, rev_length.
  destruct (Z.leb_spec (Z.of_nat (length vs)) (Z.of_nat (length vs + length (e_stk x)))); [|lia].
  destruct (Z.ltb_spec (Z.of_nat (length vs)) 0); [lia|]. rewrite Nat2Z.id.
  replace (length vs) with (length (rev vs)) by apply rev_length.
  rewrite firstn_app, Nat.sub_diag, firstn_all, skipn_app, Nat.sub_diag, skipn_all. cbn [firstn skipn].
  rewrite app_nil_r, map_rev, rev_involutive. reflexivity.
Qed.
Lemma set_stk_same : forall x : S, set_stk (e_stk x) x = x.
Proof. intros []; reflexivity. Qed.
Lemma apply_pure : forall l vs (x : S), apply_fn (PushRet (k_unret k)) (pure k l) (map (k_emb k) vs) x =
  match l_run l vs with Some v => inl (None, push v x) | None => inr (runtime, x) end.
Proof.
  intros l vs x. unfold apply_fn, pure. cbn [fn_call]. rewrite unembs_emb. destruct (l_run l vs) as [v|]; [|reflexivity].
  cbn [PushRet]. rewrite Hunret. reflexivity.
Qed.
(** the right number of arguments *)
Definition right_count (l : libfn E) (n : nat) : bool := if l_variadic l then (l_arity l - 1 <=? n)%nat else (n =? l_arity l)%nat.
Lemma count_pure : forall l n, (l_variadic l = true -> l_arity l <> 0%nat) -> 
  if right_count l n then count_err (pure k l) (Z.of_nat n) = None else exists e, count_err (pure k l) (Z.of_nat n) = Some e.
Proof.
  intros l n H0. unfold right_count, count_err, pure. cbn [fn_in fn_variadic]. rewrite repeat_length. destruct (l_variadic l).
  - specialize (H0 eq_refl). destruct (Nat.leb_spec (l_arity l - 1) n).
    + destruct (Z.ltb_spec (Z.of_nat n) (Z.of_nat (l_arity l) - 1)); [lia|reflexivity].
    + destruct (Z.ltb_spec (Z.of_nat n) (Z.of_nat (l_arity l) - 1)); [eauto|lia].
  - destruct (Nat.eqb_spec n (l_arity l)) as [->|Hn].
    + rewrite Z.eqb_refl. reflexivity.
    + destruct (Z.eqb_spec (Z.of_nat n) (Z.of_nat (l_arity l))); [lia|eauto].
Qed.
Lemma validate_pure : forall l vs, (l_variadic l = true -> l_arity l <> 0%nat) -> right_count l (length vs) = true ->
  validateArgs to_float (fn_in (pure k l)) (l_variadic l) (map (k_emb k) vs) = Val (inl (map (k_emb k) vs)).
Proof.
  intros l vs H0 Hc. unfold validateArgs, right_count, pure in *. cbn [fn_in]. destruct (l_variadic l).
  - specialize (H0 eq_refl). apply Nat.leb_le in Hc. rewrite repeat_length, skipn_map, firstn_map.
    assert (L : last (repeat (k_type k) (l_arity l)) typeIntf = k_type k).
    { destruct (l_arity l) as [|n]; [congruence|]. clear. induction n as [|n IH]; [reflexivity|]. exact IH. }
    rewrite L, validate_all.
    replace (combine (map (k_emb k) (firstn (l_arity l - 1) vs)) (repeat (k_type k) (l_arity l)))
      with (combine (map (k_emb k) (firstn (l_arity l - 1) vs)) (repeat (k_type k) (l_arity l - 1))).
    + rewrite validate_emb; [|intros t Ht; apply repeat_spec in Ht; exact Ht|rewrite repeat_length, firstn_length; lia].
      rewrite <- map_app, firstn_skipn. reflexivity.
    + assert (G : forall (B C : Type) (a : list B) (c : C) n m, (length a <= n)%nat -> (length a <= m)%nat -> combine a (repeat c n) = combine a (repeat c m)).
      { clear. induction a as [|b a IH]; intros c n m H1 H2; [reflexivity|]. simpl in H1, H2. destruct n; [lia|]. destruct m; [lia|]. cbn [repeat combine]. rewrite (IH c n m) by lia. reflexivity. }
      apply G; rewrite map_length, firstn_length; lia.
  - apply Nat.eqb_eq in Hc. apply validate_emb; [intros t Ht; apply repeat_spec in Ht; exact Ht|rewrite repeat_length; exact Hc].
Qed.
Lemma DoCall_pure : forall l vs (x : S), (l_variadic l = true -> l_arity l <> 0%nat) -> right_count l (length vs) = true ->
  DoCall (k_emb k) (PushRet (k_unret k)) to_float (pure k l) (Z.of_nat (length vs)) (l_variadic l) (pushes push vs x) =
  match l_run l vs with Some v => inl (None, push v x) | None => inr (runtime, x) end.
Proof.
  intros l vs x H0 Hc. unfold DoCall. destruct (Z.ltb_spec 0 (Z.of_nat (length vs))) as [L|L].
  - rewrite pushes_rest. cbn [e_stk set_stk]. rewrite pop_pushes, validate_pure by assumption.
    change (set_stk (e_stk x) (set_stk (rev vs ++ e_stk x) x)) with (set_stk (e_stk x) x). rewrite set_stk_same, apply_pure. reflexivity.
  - destruct vs as [|v vs]; [|cbn [length] in L; lia]. cbn [pushes]. apply (apply_pure l []).
Qed.

Lemma A_arity : forall ts l x, 0 <= l <= Z.of_nat N -> good x -> u_act u m_ARITY ts l x = inl (push (k_of_len k l) x).
Proof. intros ts l x _ Hg. change (u_act u) with act. rewrite (act_unfold _ (fn_arity k)); [|reflexivity|exact Hg]. reflexivity. Qed.

Lemma recvr_pure : forall l, l_arity l <> 0%nat -> recvr tstk tipt (pure k l) = 0%nat.
Proof. intros l Hl. unfold recvr, pure. cbn [fn_in]. destruct (l_arity l); [congruence|]. cbn [repeat]. rewrite (proj1 Hty), (proj2 Hty). reflexivity. Qed.
Lemma act_pure : forall m l ts n vs x, tbl (36 :: m) = Some (pure k l) -> l_variadic l = false -> l_arity l <> 0%nat -> length vs = l_arity l -> good x ->
  acts m ts n (pushes push vs x) (l_run l vs) x.
Proof.
  intros m l ts n vs x Hm Hv Ha Hl Hg. unfold CalcValue.acts. change (u_act u) with act.
  rewrite (act_unfold _ (pure k l)); [|exact Hm|rewrite pushes_rest; exact Hg].
  unfold body. rewrite recvr_pure by exact Ha. cbn [Nat.eqb].
  replace (length (fn_in (pure k l))) with (length vs) by (unfold pure; cbn [fn_in]; rewrite repeat_length; exact Hl).
  rewrite <- Hv. rewrite DoCall_pure; [|rewrite Hv; discriminate|unfold right_count; rewrite Hv, Hl, Nat.eqb_refl; reflexivity].
  destruct (l_run l vs) as [v|]; [reflexivity|]. exists ERuntime, ts, x. reflexivity.
Qed.
Lemma A_neg : forall ts l a x, good x -> acts m_neg ts l (push a x) (k_neg k a) x.
Proof. intros ts l a x Hg. apply (act_pure m_neg (lib1 (k_neg k)) ts l [a] x); try reflexivity; [discriminate|exact Hg]. Qed.
Lemma A_bin : forall m f ts l a b x, tbl (36 :: m) = Some (pure k (lib2 f)) -> good x -> acts m ts l (push b (push a x)) (f a b) x.
Proof. intros m f ts l a b x Hm Hg. apply (act_pure m (lib2 f) ts l [a; b] x); try reflexivity; [exact Hm|discriminate|exact Hg]. Qed.
Lemma A_lit : forall m lf t l x, tbl (36 :: m) = Some (fn_leaf lf) -> isLen m = Some false -> good x -> acts m [t] l x (leaf_val lf (tlit t)) x.
Proof.
  intros m lf t l x Hm Hi Hg. unfold CalcValue.acts. change (u_act u) with act. rewrite (act_unfold _ (fn_leaf lf)); [|exact Hm|exact Hg].
  destruct lf as [f|f]; unfold body; cbn [fn_leaf fn_in recvr]; change (teq tstk tstk) with true; cbn [Nat.eqb]; unfold arg1; rewrite Hi; cbn [teq].
  - change (teq typeFloat64 typeCtx) with false. change (teq typeFloat64 typeIntf) with false. change (teq typeFloat64 typeEng) with false. cbn [GetValue t_kind typeFloat64].
    cbn [leaf_val]. destruct (ParseFloat of_int parse_float (tlit t)) as [[v|e]|]; cbn [fn_call raise_ret wrap].
    + reflexivity.
    + exists (EOfStr (SBadArg m (Some e))), [t], x. reflexivity.
    + exists ERuntime, [t], x. reflexivity.
  - change (teq typeStr typeCtx) with false. change (teq typeStr typeIntf) with false. change (teq typeStr typeEng) with false. cbn [GetValue t_kind typeStr fn_call leaf_val].
    destruct (f (tlit t)) as [v|]; [reflexivity|]. exists ERuntime, [t], x. reflexivity.
Qed.
Lemma A_call : forall t ts l vs x, (length vs <= N)%nat -> good x ->
  acts m_call (t :: ts) l (push (k_of_len k (Z.of_nat (length vs))) (pushes push vs x)) (lib_call (tlit t) vs) x.
Proof.
  intros t ts l vs x HN Hg. unfold CalcValue.acts. change (u_act u) with act.
  assert (Hg' : good (push (k_of_len k (Z.of_nat (length vs))) (pushes push vs x))) by (rewrite pushes_rest; exact Hg).
  rewrite (act_unfold _ (fn_call_ k to_float)); [|reflexivity|exact Hg'].
  unfold body. cbn [fn_call_ fn_in recvr]. change (teq tipt tstk) with false. change (teq tipt tipt) with true. cbn [Nat.eqb].
  unfold arg1. change (isLen m_call) with (Some false). cbn iota.
  change (teq typeStr typeCtx) with false. change (teq typeStr typeIntf) with false. change (teq typeStr typeEng) with false. cbn [GetValue t_kind typeStr]. unfold fn_call_. cbn [fn_call].
  unfold calc_call, lib_table, lib_call. pose proof (Hlib0 (tlit t)) as H0. destruct (k_lib k (tlit t)) as [lf|]; [|].
  - cbn [e_stk push set_stk]. rewrite Hlen by lia. specialize (H0 lf eq_refl).
    change (set_stk (e_stk (pushes push vs x)) (push (k_of_len k (Z.of_nat (length vs))) (pushes push vs x))) with (set_stk (e_stk (pushes push vs x)) (pushes push vs x)).
    rewrite set_stk_same. unfold Call. pose proof (count_pure lf (length vs) H0) as Hc. change (if l_variadic lf then _ else _) with (right_count lf (length vs)).
    destruct (right_count lf (length vs)) eqn:Ec.
    + rewrite Hc. change (fn_variadic (pure k lf)) with (l_variadic lf). rewrite DoCall_pure by assumption. destruct (l_run lf vs) as [v|]; [reflexivity|].
      exists ERuntime, (t :: ts), x. reflexivity.
    + destruct Hc as (e & ->). cbn [raise_ret wrap]. eexists _, (t :: ts), _. reflexivity.
  - cbn [raise_ret wrap]. eexists _, (t :: ts), _. reflexivity.
Qed.
End Acts.
