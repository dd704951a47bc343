(** Proofs about the extractor: the heap of nodes represents the history, and toMap reads it. *)
From Verif Require Import Base Token Grammar PegSpec MatchProofs MatchProofs2 MatchProofs4 Matcher Compiler Extractor ExtractSpec.

(** ** maps *)
Section Maps.
Context {X : Type}.
Implicit Types (t : bytes) (es : list (entry X)).
Lemma find_app : forall (Y : Type) t (a b : list (bytes * Y)), find t (a ++ b) = match find t a with Some v => Some v | None => find t b end.
Proof. intros Y t a b. induction a as [|(k, v) a IH]; [reflexivity|]. cbn. destruct (beq t k); [reflexivity|exact IH]. Qed.
Lemma uniq_in : forall l t, In t (uniq l) <-> In t l.
Proof.
  induction l as [|x l IH]; intro t; [reflexivity|]. cbn. rewrite filter_In, IH. split.
  - intros [H|(H & _)]; auto.
  - intros [H|H]; [auto|]. destruct (beq x t) eqn:E; [left; apply beq_eq; exact E|right; auto].
Qed.
Lemma filter_false : forall t l, ~ In t l -> filter (fun y => negb (beq t y)) l = l.
Proof.
  induction l as [|x l IH]; intro H; [reflexivity|]. cbn. destruct (beq t x) eqn:E; [exfalso; apply H; left; symmetry; apply beq_eq; exact E|].
  cbn. rewrite IH; [reflexivity|]. intro Q. apply H. right. exact Q.
Qed.
Lemma filter_comm : forall (Y : Type) (p q : Y -> bool) l, filter p (filter q l) = filter q (filter p l).
Proof. intros Y p q l. induction l as [|x l IH]; [reflexivity|]. cbn. destruct (q x) eqn:Eq, (p x) eqn:Ep; cbn; rewrite ?Eq, ?Ep, ?IH; reflexivity. Qed.
(** a tag behind others *)
Lemma uniq_snoc : forall l t, uniq (l ++ [t]) = if existsb (beq t) l then uniq l else uniq l ++ [t].
Proof.
  induction l as [|x l IH]; intro t; [reflexivity|]. cbn [app uniq existsb]. rewrite IH. destruct (beq t x) eqn:E.
  - apply beq_eq in E. subst x. cbn [orb]. f_equal. destruct (existsb (beq t) l); [reflexivity|]. rewrite filter_app. cbn. rewrite beq_refl. cbn. apply app_nil_r.
  - cbn [orb]. destruct (existsb (beq t) l); [reflexivity|]. rewrite filter_app. cbn [filter].
    assert (E' : beq x t = false) by (apply beq_neq; intros ->; rewrite beq_refl in E; discriminate). rewrite E'. reflexivity.
Qed.
Lemma existsb_beq : forall t l, existsb (beq t) l = true <-> In t l.
Proof. intros t l. rewrite existsb_exists. split; [intros (x & H & E); apply beq_eq in E; subst; exact H|intro H; exists t; split; [exact H|apply beq_refl]]. Qed.

Lemma keys_cons : forall e es, keys (e :: es) = if existsb (beq (en_tag e)) (rev (map en_tag es)) then keys es else keys es ++ [en_tag e].
Proof. intros e es. unfold keys. cbn [map rev]. apply uniq_snoc. Qed.
Lemma keys_in : forall t es, In t (keys es) <-> In t (map en_tag es).
Proof. intros t es. unfold keys. rewrite uniq_in, <- in_rev. reflexivity. Qed.
Lemma value_some : forall t es, value t es <> None <-> In t (map en_tag es).
Proof.
  intros t es. unfold value. assert (H : from t es <> [] <-> In t (map en_tag es)).
  { induction es as [|e es IH]; [cbn; tauto|]. cbn. destruct (beq (en_tag e) t) eqn:E.
    - apply beq_eq in E. split; [auto|discriminate].
    - rewrite IH. split; [auto|]. intros [Q|Q]; [subst; rewrite beq_refl in E; discriminate|exact Q]. }
  rewrite <- H. destruct (from t es) as [|[t' [|] [x|m]] r]; split; congruence.
Qed.
Definition bind_of es t : list (bytes * jval X) := match value t es with Some v => [(t, v)] | None => [] end.
Lemma find_binds : forall es l t, NoDup l -> find t (flat_map (bind_of es) l) = if existsb (beq t) l then value t es else None.
Proof.
  intros es l t. induction l as [|x l IH]; intro H; [reflexivity|]. inversion H as [|? ? H1 H2]; subst. cbn [flat_map existsb]. rewrite find_app, IH by exact H2.
  unfold bind_of at 1. destruct (beq t x) eqn:E.
  - apply beq_eq in E. subst x. destruct (value t es) eqn:Ev; cbn [find]; [rewrite beq_refl; reflexivity|].
    destruct (existsb (beq t) l); reflexivity.
  - cbn [orb]. destruct (value x es); cbn [find]; [rewrite E|]; reflexivity.
Qed.
Lemma uniq_nodup : forall l, NoDup (uniq l).
Proof.
  induction l as [|x l IH]; [constructor|]. cbn. constructor; [|apply NoDup_filter; exact IH].
  rewrite filter_In. intros (_ & E). rewrite beq_refl in E. discriminate.
Qed.
Lemma keys_nodup : forall es, NoDup (keys es).
Proof. intro es. apply uniq_nodup. Qed.
(** a binding is the value *)
Lemma find_bindings : forall t es, find t (bindings es) = value t es.
Proof.
  intros t es. unfold bindings. change (fun t0 : bytes => match value t0 es with Some v => [(t0, v)] | None => [] end) with (bind_of es).
  rewrite find_binds by apply keys_nodup. destruct (existsb (beq t) (keys es)) eqn:E; [reflexivity|]. destruct (value t es) eqn:Ev; [|reflexivity].
  exfalso. assert (H : In t (keys es)) by (apply keys_in, value_some; congruence). apply existsb_beq in H. congruence.
Qed.
Lemma bindings_keys : forall es, map fst (bindings es) = keys es.
Proof.
  intro es. unfold bindings. assert (H : forall l, (forall t, In t l -> value t es <> None) -> map fst (flat_map (fun t0 : bytes => match value t0 es with Some v => [(t0, v)] | None => [] end) l) = l).
  { induction l as [|x l IH]; intro H; [reflexivity|]. cbn [flat_map]. rewrite map_app, IH by (intros t Ht; apply H; right; exact Ht).
    specialize (H x (or_introl eq_refl)). destruct (value x es); [reflexivity|congruence]. }
  apply H. intros t Ht. apply value_some, keys_in, Ht.
Qed.

(** ** the loop of toMap *)
Definition kind_of (e : entry X) : bool * bool := (match en_val e with inl _ => false | inr _ => true end, en_arr e).
Definition cate_of (k : bool * bool) : nat := match k with (false, false) => 0 | (true, false) => 1 | (false, true) => 2 | (true, true) => 3 end%nat.
(** a cell holds an entry *)
Definition holds (node : nat -> option (jmap X)) (c : cell X) (e : entry X) : Prop :=
  c_tag c = en_tag e /\ c_cate c = cate_of (kind_of e) /\
  match c_val c, en_val e with VLeaf x, inl y => x = y | VNode id, inr m => node id = Some m | _, _ => False end.
Definition all_same (t : bytes) (k : bool * bool) (g : list (entry X)) : Prop := Forall (fun e => en_tag e = t /\ kind_of e = k) g.
Definition starts (t : bytes) (k : bool * bool) (es : list (entry X)) : Prop := exists e r, es = e :: r /\ en_tag e = t /\ kind_of e = k.

Lemma value_other : forall t' t k g es, all_same t k g -> t' <> t -> value t' (g ++ es) = value t' es.
Proof.
  intros t' t k g es H Hn. unfold value. assert (E : from t' (g ++ es) = from t' es).
  { induction g as [|e g IH]; [reflexivity|]. inversion H as [|? ? (H1 & _) H2]; subst. cbn. destruct (beq (en_tag e) t') eqn:E; [apply beq_eq in E; congruence|]. apply IH. exact H2. }
  rewrite E. reflexivity.
Qed.
Lemma keys_group : forall t k g es, all_same t k g -> g <> [] -> keys (g ++ es) = if existsb (beq t) (keys es) then keys es else keys es ++ [t].
Proof.
  intros t k g es H Hn. induction g as [|e g IH]; [congruence|]. inversion H as [|? ? (H1 & _) H2]; subst. cbn [app]. rewrite keys_cons.
  destruct g as [|e2 g].
  - cbn [app]. assert (E : existsb (beq (en_tag e)) (rev (map en_tag es)) = existsb (beq (en_tag e)) (keys es)).
    { apply eq_true_iff_eq. rewrite !existsb_beq, keys_in, <- in_rev. reflexivity. }
    rewrite E. reflexivity.
  - inversion H2 as [|? ? (H3 & _) _]; subst.
    assert (E : existsb (beq (en_tag e)) (rev (map en_tag ((e2 :: g) ++ es))) = true) by (apply existsb_beq; rewrite <- in_rev; left; exact H3).
    rewrite E. apply IH; [exact H2|discriminate].
Qed.
Lemma update_binds : forall t v l (f : bytes -> list (bytes * jval X)), NoDup l -> In t l -> (forall x, In x l -> exists w, f x = [(x, w)]) ->
  update t v (flat_map f l) = flat_map (fun x => if beq x t then [(t, v)] else f x) l.
Proof.
  intros t v l f. induction l as [|x l IH]; intros Hd Hi Hf; [destruct Hi|]. inversion Hd as [|? ? D1 D2]; subst. cbn [flat_map].
  destruct (Hf x (or_introl eq_refl)) as (w & Ew). rewrite Ew. cbn [app update]. destruct (beq t x) eqn:E.
  - apply beq_eq in E. subst x. rewrite beq_refl. cbn [app]. f_equal.
    assert (G : forall l, ~ In t l -> flat_map f l = flat_map (fun x => if beq x t then [(t, v)] else f x) l).
    { clear. induction l as [|y l IH]; intro H; [reflexivity|]. cbn. destruct (beq y t) eqn:E; [apply beq_eq in E; exfalso; apply H; left; exact E|].
      rewrite IH; [reflexivity|]. intro Q; apply H; right; exact Q. }
    apply G. exact D1.
  - assert (E' : beq x t = false) by (apply beq_neq; intros ->; rewrite beq_refl in E; discriminate). rewrite E'. cbn [app]. f_equal.
    apply IH; [exact D2| |intros y Hy; apply Hf; right; exact Hy]. destruct Hi as [Hi|Hi]; [subst; rewrite beq_refl in E; discriminate|exact Hi].
Qed.
Lemma put_group : forall t k g es v, all_same t k g -> g <> [] -> value t (g ++ es) = Some v -> put t v (bindings es) = bindings (g ++ es).
Proof.
  intros t k g es v H Hn Hv. unfold put. rewrite find_bindings. unfold bindings at 3. rewrite (keys_group t k g es H Hn).
  destruct (value t es) as [w|] eqn:Ew.
  - assert (Hi : In t (keys es)) by (apply keys_in, value_some; congruence). pose proof Hi as Hb. apply existsb_beq in Hb. rewrite Hb.
    unfold bindings. rewrite update_binds; [|apply keys_nodup|exact Hi|].
    + apply flat_map_ext. intro x. destruct (beq x t) eqn:E; [apply beq_eq in E; subst x; rewrite Hv; reflexivity|].
      rewrite (value_other x t k g es H); [reflexivity|]. intros ->. rewrite beq_refl in E. discriminate.
    + intros x Hx. apply keys_in, value_some in Hx. destruct (value x es) as [u|]; [eauto|congruence].
  - assert (Hb : existsb (beq t) (keys es) = false).
    { destruct (existsb (beq t) (keys es)) eqn:E; [|reflexivity]. apply existsb_beq, keys_in, value_some in E. congruence. }
    rewrite Hb, flat_map_app. cbn [flat_map]. rewrite Hv. cbn [app]. f_equal. unfold bindings.
    assert (G : forall l, ~ In t l -> flat_map (fun t0 : bytes => match value t0 es with Some v0 => [(t0, v0)] | None => [] end) l = flat_map (fun t0 : bytes => match value t0 (g ++ es) with Some v0 => [(t0, v0)] | None => [] end) l).
    { induction l as [|x l IH]; intro Q; [reflexivity|]. cbn [flat_map]. rewrite (value_other x t k g es H) by (intros ->; apply Q; left; reflexivity). rewrite IH; [reflexivity|]. intro Z; apply Q; right; exact Z. }
    apply G. intro Q. apply existsb_beq in Q. congruence.
Qed.

(** the value of a group of entries *)
Lemma from_here : forall t k e g es, all_same t k (e :: g) -> from t ((e :: g) ++ es) = (e :: g) ++ es.
Proof. intros t k e g es H. inversion H as [|? ? (H1 & _) _]; subst. cbn. rewrite beq_refl. reflexivity. Qed.
Lemma leaf_run_group : forall t g es, all_same t (false, true) g -> ~ starts t (false, true) es -> exists xs, map en_val g = map inl xs /\ leaf_run t (g ++ es) = xs.
Proof.
  intros t g es H Hn. induction g as [|[t' a v] g IH].
  - exists []. split; [reflexivity|]. cbn [app]. destruct es as [|[t2 [|] [x|m]] es]; try reflexivity. cbn. destruct (beq t2 t) eqn:E; [|reflexivity].
    exfalso. apply Hn. eexists _, es. split; [reflexivity|]. split; [apply beq_eq; exact E|reflexivity].
  - inversion H as [|? ? (H1 & H0) H2]. cbn in H1. subst. destruct (IH H2) as (xs & E1 & E2). destruct v as [x|m]; [|discriminate]. unfold kind_of in H0. cbn in H0. injection H0 as ->.
    exists (x :: xs). cbn. rewrite beq_refl, E1, E2. split; reflexivity.
Qed.
Lemma node_run_group : forall t g es, all_same t (true, true) g -> ~ starts t (true, true) es -> exists xs, map en_val g = map inr xs /\ node_run t (g ++ es) = xs.
Proof.
  intros t g es H Hn. induction g as [|[t' a v] g IH].
  - exists []. split; [reflexivity|]. cbn [app]. destruct es as [|[t2 [|] [x|m]] es]; try reflexivity. cbn. destruct (beq t2 t) eqn:E; [|reflexivity].
    exfalso. apply Hn. eexists _, es. split; [reflexivity|]. split; [apply beq_eq; exact E|reflexivity].
  - inversion H as [|? ? (H1 & H0) H2]. cbn in H1. subst. destruct (IH H2) as (xs & E1 & E2). destruct v as [x|m]; [discriminate|]. unfold kind_of in H0. cbn in H0. injection H0 as ->.
    exists (m :: xs). cbn. rewrite beq_refl, E1, E2. split; reflexivity.
Qed.

Variable node : nat -> option (jmap X).
Lemma leaf_items_spec : forall l es, Forall2 (holds node) l es -> forall xs, map en_val es = map inl xs -> leaf_items l = Some (rev xs).
Proof.
  intros l es H. induction H as [|c e l es Hc H IH]; intros xs E; destruct xs as [|x xs]; try discriminate E; [reflexivity|].
  cbn in E. injection E as E1 E2. cbn [leaf_items rev]. rewrite (IH xs E2). destruct Hc as (_ & _ & Hv). rewrite E1 in Hv. destruct (c_val c); [subst; reflexivity|contradiction].
Qed.
Lemma node_items_spec : forall l es, Forall2 (holds node) l es -> forall ms, map en_val es = map inr ms -> node_items node l = Some (rev ms).
Proof.
  intros l es H. induction H as [|c e l es Hc H IH]; intros ms E; destruct ms as [|m ms]; try discriminate E; [reflexivity|].
  cbn in E. injection E as E1 E2. cbn [node_items rev]. rewrite (IH ms E2). destruct Hc as (_ & _ & Hv). rewrite E1 in Hv. destruct (c_val c); [contradiction|]. rewrite Hv. reflexivity.
Qed.
Lemma cate_inj : forall k k', cate_of k = cate_of k' -> k = k'.
Proof. intros [[|] [|]] [[|] [|]] H; try discriminate H; reflexivity. Qed.
(** arrayCollect finds the group *)
Lemma run_spec : forall cate tag l es k, Forall2 (holds node) l es -> cate = cate_of k ->
  all_same tag k (firstn (same_run cate tag l) es) /\ ~ starts tag k (skipn (same_run cate tag l) es).
Proof.
  intros cate tag l es k H Hc. induction H as [|c e l es Hh H IH].
  - cbn. split; [constructor|]. intros (e & r & E & _). discriminate.
  - cbn [same_run]. destruct Hh as (Ht & Hk & _).
    destruct ((c_cate c =? cate)%nat) eqn:E1; [destruct (beq (c_tag c) tag) eqn:E2|].
    + cbn [negb orb]. apply Nat.eqb_eq in E1. apply beq_eq in E2. cbn [firstn skipn]. destruct IH as (I1 & I2). split; [|exact I2]. constructor; [|exact I1].
      split; [congruence|]. apply cate_inj. congruence.
    + cbn [negb orb firstn skipn]. split; [constructor|]. intros (e' & r & E & T1 & _). injection E as <- <-. apply beq_neq in E2. congruence.
    + cbn [negb orb firstn skipn]. split; [constructor|]. intros (e' & r & E & _ & K). injection E as <- <-. apply Nat.eqb_neq in E1. congruence.
Qed.
Lemma Forall2_split : forall (Y Z : Type) (R : Y -> Z -> Prop) l m, Forall2 R l m -> forall n, Forall2 R (firstn n l) (firstn n m) /\ Forall2 R (skipn n l) (skipn n m).
Proof. intros Y Z R l m H. induction H; intros [|n]; cbn; try (split; constructor; assumption). destruct (IHForall2 n). split; [constructor; assumption|assumption]. Qed.
(** boundary between what is processed (older part [es1], newest first) and the rest *)
Definition boundary (rs es2 : list (entry X)) : Prop := forall e, hd_error rs = Some e -> en_arr e = true -> ~ starts (en_tag e) (kind_of e) es2.
Lemma loop_spec : forall n k l rs es2, (length l <= n)%nat -> (length l <= k)%nat -> Forall2 (holds node) l rs -> boundary rs es2 ->
  map_loop node k l (bindings es2) = Some (bindings (rev rs ++ es2)).
Proof.
  induction n as [|n IH]; intros k l rs es2 Hn Hk H Hb.
  - destruct l; [|cbn in Hn; lia]. inversion H; subst. destruct k; reflexivity.
  - destruct l as [|c l]; [inversion H; subst; destruct k; reflexivity|]. destruct k as [|k]; [cbn in Hk; lia|]. inversion H as [|? e ? rs' Hc H']; subst.
    assert (Scal : forall v, en_arr e = false -> value (en_tag e) (e :: es2) = Some v -> map_loop node k l (put (c_tag c) v (bindings es2)) = Some (bindings (rev (e :: rs') ++ es2))).
    { intros v Ea Ev. destruct Hc as (Ht & _). rewrite Ht.
      assert (As : all_same (en_tag e) (kind_of e) [e]) by (repeat constructor). change (e :: es2) with ([e] ++ es2) in Ev.
      rewrite (put_group (en_tag e) (kind_of e) [e] es2 v As ltac:(discriminate) Ev). rewrite (IH k l rs' ([e] ++ es2)); [|cbn in Hn; lia|cbn in Hk; lia|exact H'|].
      - cbn [rev]. rewrite <- app_assoc. reflexivity.
      - intros e' _ Ea' (e2 & r & E & _ & K2). cbn in E. injection E as <- <-. unfold kind_of in K2. injection K2 as _ K2. congruence. }
    assert (Arr : forall v, en_arr e = true -> let m := arrayCollect c l in
        (value (en_tag e) (rev (firstn m (e :: rs')) ++ es2) = Some v) ->
        map_loop node k (skipn m (c :: l)) (put (c_tag c) v (bindings es2)) = Some (bindings (rev (e :: rs') ++ es2))).
    { intros v Ea m Ev. destruct Hc as (Ht & Hcat & _). rewrite Ht. unfold m, arrayCollect in *. cbn [firstn skipn] in *.
      destruct (run_spec (c_cate c) (c_tag c) l rs' (kind_of e) H' Hcat) as (R1 & R2). set (j := same_run (c_cate c) (c_tag c) l) in *. rewrite Ht in R1, R2.
      assert (As : all_same (en_tag e) (kind_of e) (rev (e :: firstn j rs'))).
      { unfold all_same. apply Forall_rev. constructor; [split; reflexivity|exact R1]. }
      rewrite (put_group (en_tag e) (kind_of e) _ es2 v As); [|cbn; intro Q; apply app_eq_nil in Q; destruct Q as (_ & Q); discriminate Q|exact Ev].
      destruct (Forall2_split _ _ _ _ _ H' j) as (_ & F2).
      rewrite (IH k (skipn j l) (skipn j rs')); [| | |exact F2|].
      - rewrite app_assoc. f_equal. f_equal. f_equal. rewrite <- rev_app_distr. cbn [app]. rewrite firstn_skipn. reflexivity.
      - cbn in Hn. rewrite skipn_length. lia.
      - cbn in Hk. rewrite skipn_length. lia.
      - intros e' He' Ea' (e2 & r & E & T2 & K2). apply R2. destruct (skipn j rs') as [|e0 r0] eqn:Es; [discriminate|]. cbn in He'. injection He' as ->.
        exists e', r0. split; [reflexivity|].
        assert (I2 : In e2 (rev (e :: firstn j rs'))).
        { destruct (rev (e :: firstn j rs')) as [|z zs] eqn:Ez; [exfalso; cbn in Ez; apply app_eq_nil in Ez; destruct Ez as (_ & Ez); discriminate|]. cbn in E. injection E as -> _. left. reflexivity. }
        apply (proj1 (Forall_forall _ _) As) in I2. destruct I2 as (I3 & I4). split; congruence. }
    cbn [map_loop]. destruct Hc as (Ht & Hcat & Hv). rewrite Hcat.
    destruct (run_spec (c_cate c) (c_tag c) l rs' (kind_of e) H' Hcat) as (R1 & R2). rewrite Ht in R1, R2.
    assert (Gr : Forall2 (holds node) (firstn (arrayCollect c l) (c :: l)) (firstn (arrayCollect c l) (e :: rs'))) by (apply Forall2_split; exact H).
    assert (As : all_same (en_tag e) (kind_of e) (firstn (arrayCollect c l) (e :: rs'))).
    { unfold arrayCollect. cbn [firstn]. constructor; [split; reflexivity|]. rewrite Ht. exact R1. }
    assert (Hb0 : en_arr e = true -> ~ starts (en_tag e) (kind_of e) es2) by (intro Qa; exact (Hb e eq_refl Qa)).
    assert (Ne : exists e0 g0, rev (firstn (arrayCollect c l) (e :: rs')) = e0 :: g0 /\ en_tag e0 = en_tag e /\ kind_of e0 = kind_of e).
    { destruct (rev (firstn (arrayCollect c l) (e :: rs'))) as [|e0 g0] eqn:Er; [unfold arrayCollect in Er; cbn in Er; apply app_eq_nil in Er; destruct Er as (_ & Er); discriminate|].
      exists e0, g0. split; [reflexivity|]. apply Forall_rev in As. rewrite Er in As. inversion As as [|? ? Q _]. exact Q. }
    destruct (en_val e) as [x|m] eqn:Ev; destruct (en_arr e) eqn:Ea; unfold kind_of in *; rewrite Ev, Ea in *; cbn [cate_of Nat.eqb cateLeaf cateNode cateNodeArray cateLeafArray].
    + (* leaf array *)
      destruct (leaf_run_group (en_tag e) (rev (firstn (arrayCollect c l) (e :: rs'))) es2) as (xs & E1 & E2); [apply Forall_rev; exact As|apply (Hb0 eq_refl)|].
      rewrite (leaf_items_spec _ _ Gr (rev xs)) by (rewrite map_rev, <- E1, map_rev, rev_involutive; reflexivity). rewrite rev_involutive.
      apply Arr; [reflexivity|]. destruct Ne as (e0 & g0 & Er & T0 & K0). unfold value. rewrite Er in *.
      rewrite (from_here (en_tag e) (false, true) e0 g0 es2) by (rewrite <- Er; apply Forall_rev; exact As). cbn [app]. destruct e0 as [t0 a0 [x0|m0]]; [|discriminate]. unfold kind_of in K0. cbn in K0, T0. injection K0 as ->.
      subst t0. cbn [app] in E2. rewrite E2. reflexivity.
    + destruct (c_val c) as [y|id]; [|contradiction]. subst y. apply Scal; [reflexivity|]. unfold value. cbn [from]. rewrite beq_refl. destruct e as [t a v]. cbn in *. subst. reflexivity.
    + (* node array *)
      destruct (node_run_group (en_tag e) (rev (firstn (arrayCollect c l) (e :: rs'))) es2) as (xs & E1 & E2); [apply Forall_rev; exact As|apply (Hb0 eq_refl)|].
      rewrite (node_items_spec _ _ Gr (rev xs)) by (rewrite map_rev, <- E1, map_rev, rev_involutive; reflexivity). rewrite rev_involutive.
      apply Arr; [reflexivity|]. destruct Ne as (e0 & g0 & Er & T0 & K0). unfold value. rewrite Er in *.
      rewrite (from_here (en_tag e) (true, true) e0 g0 es2) by (rewrite <- Er; apply Forall_rev; exact As). cbn [app]. destruct e0 as [t0 a0 [x0|m0]]; [discriminate|]. unfold kind_of in K0. cbn in K0, T0. injection K0 as ->.
      subst t0. cbn [app] in E2. rewrite E2. reflexivity.
    + destruct (c_val c) as [y|id]; [contradiction|]. rewrite Hv. apply Scal; [reflexivity|]. unfold value. cbn [from]. rewrite beq_refl. destruct e as [t a v]. cbn in *. subst. reflexivity.
Qed.
End Maps.

(** ** the heap represents the history *)
Section Rep.
Context {X : Type}.
Notation cate t a := (match t, a with false, false => cateLeaf | false, true => cateLeafArray | true, false => cateNode | true, true => cateNodeArray end).
(** [cells] (newest first) represent [its] (newest first); the nodes used are those from [lo] to [hi] *)
Inductive rep (h : heap X) : nat -> nat -> list (cell X) -> list (item X) -> Prop :=
| R_nil : forall lo hi, rep h lo hi [] []
| R_leaf : forall lo hi t v (a : bool) cs its, rep h lo hi cs its ->
    rep h lo hi (mkCell t (VLeaf v) (if a then cateLeafArray else cateLeaf) :: cs) (Leaf t v a :: its)
| R_node : forall lo hi t (a : bool) id sub cs its, (lo <= id < hi)%nat -> rep h (S id) hi (hd_of h id) (rev sub) -> rep h lo hi cs its ->
    rep h lo hi (mkCell t (VNode id) (if a then cateNodeArray else cateNode) :: cs) (Sub t a sub :: its).
Lemma rep_frame : forall h lo hi cs its, rep h lo hi cs its -> forall h' lo' hi', (lo' <= lo)%nat -> (hi <= hi')%nat ->
  (forall id, (lo <= id < hi)%nat -> hd_of h' id = hd_of h id) -> rep h' lo' hi' cs its.
Proof.
  intros h lo hi cs its H. induction H as [lo hi|lo hi t v a cs its H IH|lo hi t a id sub cs its Hi H1 IH1 H2 IH2]; intros h' lo' hi' L1 L2 E.
  - constructor.
  - constructor. apply IH; assumption.
  - constructor; [lia| |apply IH2; assumption]. rewrite E by exact Hi. apply IH1; [lia|exact L2|]. intros j Hj. apply E. lia.
Qed.
Lemma rep_app : forall h lo hi cs1 its1 cs2 its2, rep h lo hi cs1 its1 -> rep h lo hi cs2 its2 -> rep h lo hi (cs1 ++ cs2) (its1 ++ its2).
Proof. intros h lo hi cs1 its1 cs2 its2 H H2. induction H; cbn; [exact H2|constructor; auto|constructor; auto]. Qed.
Lemma toMap_hd : forall f (h : heap X) id es, Forall2 (holds (toMap f h)) (hd_of h id) es -> toMap (S f) h id = Some (document (rev es)).
Proof.
  intros f h id es H. cbn [toMap]. destruct (hd_of h id) as [|c l] eqn:E; [inversion H; reflexivity|].
  change (@nil (bytes * jval X)) with (bindings (@nil (entry X))). rewrite (loop_spec (toMap f h) (length (c :: l)) (length (c :: l)) (c :: l) es []); [|lia|lia|exact H|].
  - rewrite app_nil_r. inversion H; subst. cbn [rev]. unfold document. destruct (rev l' ++ [y]) eqn:Q; [apply app_eq_nil in Q; destruct Q as (_ & Q); discriminate|reflexivity].
  - intros e _ _ (e2 & r & Q & _). discriminate.
Qed.
Lemma rep_holds : forall h lo hi cs its, rep h lo hi cs its -> forall f, (hi - lo <= f)%nat -> Forall2 (holds (toMap f h)) cs (map entry_of its).
Proof.
  intros h lo hi cs its H. induction H as [lo hi|lo hi t v a cs its H IH|lo hi t a id sub cs its Hi H1 IH1 H2 IH2]; intros f Hf.
  - constructor.
  - cbn [map]. constructor; [|apply IH; exact Hf]. split; [reflexivity|]. split; [destruct a; reflexivity|reflexivity].
  - cbn [map]. constructor; [|apply IH2; exact Hf]. split; [reflexivity|]. split; [destruct a; reflexivity|]. cbn [c_val en_val entry_of].
    destruct f as [|f]; [lia|]. rewrite (toMap_hd f h id (map entry_of (rev sub))) by (apply IH1; lia). rewrite <- map_rev, rev_involutive. reflexivity.
Qed.
Lemma toMap_doc : forall h id hi its f, rep h (S id) hi (hd_of h id) (rev its) -> (hi - S id <= f)%nat -> toMap (S f) h id = Some (doc_of its).
Proof. intros h id hi its f H Hf. rewrite (toMap_hd f h id (map entry_of (rev its))) by (apply (rep_holds _ _ _ _ _ H); exact Hf). rewrite <- map_rev, rev_involutive. reflexivity. Qed.

Lemma set_len : forall (h : heap X) id l, length (set_hd h id l) = length h.
Proof. induction h as [|x h IH]; intros [|id] l; cbn; [reflexivity|reflexivity|reflexivity|rewrite IH; reflexivity]. Qed.
Lemma hd_set : forall (h : heap X) id l, (id < length h)%nat -> hd_of (set_hd h id l) id = l.
Proof. unfold hd_of. induction h as [|x h IH]; intros [|id] l H; cbn in *; [lia|lia|reflexivity|apply IH; lia]. Qed.
Lemma hd_set_other : forall (h : heap X) id id' l, id <> id' -> hd_of (set_hd h id l) id' = hd_of h id'.
Proof. unfold hd_of. induction h as [|x h IH]; intros [|id] [|id'] l H; cbn; try reflexivity; [congruence|]. apply IH. congruence. Qed.
Lemma hd_snoc : forall (h : heap X) id l, (id < length h)%nat -> hd_of (h ++ [l]) id = hd_of h id.
Proof. intros h id l H. unfold hd_of. apply app_nth1. exact H. Qed.
Lemma hd_new : forall (h : heap X) l, hd_of (h ++ [l]) (length h) = l.
Proof. intros h l. unfold hd_of. rewrite app_nth2 by lia. rewrite Nat.sub_diag. reflexivity. Qed.
End Rep.

(** ** what a trace does to the state *)
Lemma run_app : forall (A T P U V : Type) (u : uclient A T P U V) y z vs x, run u (y ++ z) vs x = match run u y vs x with inl (vs', x') => run u z vs' x' | inr p => inr p end.
Proof.
  intros A T P U V u. induction y as [|[a ts l|t|t ok] y IH]; intros z vs x; [reflexivity| | |]; cbn.
  - destruct (u_act u a ts l x); [apply IH|reflexivity].
  - destruct (u_begin u t x). apply IH.
  - destruct vs; apply IH.
Qed.
Section Run.
Context {X PV : Type}.
Variable getValue : bytes -> bytes -> X + PV.
Notation run := (run (xclient getValue)).
Notation size x := (length (x_heap x)).
Definition grows (x x' : xst X) : Prop :=
  x_stk x' = x_stk x /\ (size x <= size x')%nat /\ forall id, (id < size x)%nat -> id <> x_stk x -> hd_of (x_heap x') id = hd_of (x_heap x) id.
Lemma run_inserted : forall tr its, inserted getValue tr its -> forall vs x, (x_stk x < size x)%nat ->
  exists x', run tr vs x = inl (vs, x') /\ grows x x' /\
    exists new, hd_of (x_heap x') (x_stk x) = new ++ hd_of (x_heap x) (x_stk x) /\ rep (x_heap x') (size x) (size x') new (rev its).
Proof.
  intros tr its H. induction H as [|m t ts l tr v its Hv H IH|m tr1 sub tr2 its H1 IH1 H2 IH2|m tr1 sub tr2 its H1 IH1 H2 IH2]; intros vs x Hx.
  - exists x. split; [reflexivity|]. split; [repeat split; auto|]. exists []. split; [reflexivity|constructor].
  - cbn [PegSpec.run u_act xclient xact]. rewrite Hv. set (x1 := mkX _ _).
    assert (L1 : size x1 = size x) by apply set_len.
    destruct (IH vs x1) as (x' & E & (G1 & G2 & G3) & new & N1 & N2); [rewrite L1; exact Hx|]. rewrite L1 in *. exists x'. split; [exact E|]. split.
    + split; [exact G1|]. split; [exact G2|]. intros id Hi Hn. rewrite G3 by assumption. unfold x1, insertLeaf. cbn. apply hd_set_other. auto.
    + exists (new ++ [mkCell (lf_tag m) (VLeaf v) (if lf_arr m then cateLeafArray else cateLeaf)]). split.
      * cbn [x_stk x1] in N1. rewrite N1. unfold x1, insertLeaf. cbn [x_heap]. rewrite hd_set by exact Hx. rewrite <- app_assoc. reflexivity.
      * cbn [rev]. apply rep_app; [exact N2|]. constructor. constructor.
  - pose (x1 := mkX (set_hd (x_heap x) (x_stk x) (mkCell (nd_tag m) (VNode (size x)) (if nd_arr m then cateNodeArray else cateNode) :: hd_of (x_heap x) (x_stk x)) ++ [[]]) (size x)).
    assert (L1 : size x1 = S (size x)) by (unfold x1; cbn; rewrite app_length, set_len; cbn; lia).
    destruct (IH1 ((x_stk x, hd_of (x_heap x) (x_stk x)) :: vs) x1) as (x2 & E2 & (G1 & G2 & G3) & new & N1 & N2); [rewrite L1; cbn; lia|].
    assert (R1 : run (EvBegin m :: tr1 ++ EvEnd m true :: tr2) vs x = run tr2 vs (mkX (x_heap x2) (x_stk x))).
    { change (run (EvBegin m :: tr1 ++ EvEnd m true :: tr2) vs x) with (run (tr1 ++ EvEnd m true :: tr2) ((x_stk x, hd_of (x_heap x) (x_stk x)) :: vs) x1). rewrite run_app, E2. reflexivity. }
    rewrite R1. rewrite L1 in *. set (x3 := mkX (x_heap x2) (x_stk x)).
    destruct (IH2 vs x3) as (x4 & E4 & (G4 & G5 & G6) & new4 & N3 & N4); [cbn; lia|]. exists x4. split; [exact E4|]. cbn [x_stk x_heap x3] in *.
    assert (Hsub : hd_of (x_heap x4) (size x) = hd_of (x_heap x2) (size x)) by (apply G6; lia).
    assert (Hn2 : hd_of (x_heap x2) (size x) = new).
    { cbn [x_stk x1] in N1. rewrite N1. unfold x1. cbn [x_heap]. rewrite <- (set_len (x_heap x) (x_stk x) (mkCell (nd_tag m) (VNode (size x)) (if nd_arr m then cateNodeArray else cateNode) :: hd_of (x_heap x) (x_stk x))) at 1. rewrite set_len. replace (hd_of _ (size x)) with (@nil (cell X)); [apply app_nil_r|]. symmetry.
      transitivity (hd_of (set_hd (x_heap x) (x_stk x) (mkCell (nd_tag m) (VNode (size x)) (if nd_arr m then cateNodeArray else cateNode) :: hd_of (x_heap x) (x_stk x)) ++ [[]]) (length (set_hd (x_heap x) (x_stk x) (mkCell (nd_tag m) (VNode (size x)) (if nd_arr m then cateNodeArray else cateNode) :: hd_of (x_heap x) (x_stk x))))); [rewrite set_len; reflexivity|apply hd_new]. }
    assert (H3 : forall id, (id < size x)%nat -> hd_of (x_heap x2) id = hd_of (set_hd (x_heap x) (x_stk x) (mkCell (nd_tag m) (VNode (size x)) (if nd_arr m then cateNodeArray else cateNode) :: hd_of (x_heap x) (x_stk x))) id).
    { intros id Hi. rewrite G3; [|lia|cbn; lia]. unfold x1. cbn [x_heap]. apply hd_snoc. rewrite set_len. exact Hi. }
    split.
    + split; [exact G4|]. split; [lia|]. intros id Hi Hn. rewrite G6 by (try assumption; lia). rewrite H3 by exact Hi. apply hd_set_other. auto.
    + exists (new4 ++ [mkCell (nd_tag m) (VNode (size x)) (if nd_arr m then cateNodeArray else cateNode)]). split.
      * rewrite N3, H3 by exact Hx. rewrite hd_set by exact Hx. rewrite <- app_assoc. reflexivity.
      * cbn [rev]. apply rep_app.
        -- apply (rep_frame _ _ _ _ _ N4); auto; lia.
        -- constructor; [lia| |constructor]. rewrite Hsub, Hn2. apply (rep_frame _ _ _ _ _ N2); [lia|lia|]. intros id Hi. apply G6; lia.
  - pose (x1 := mkX (set_hd (x_heap x) (x_stk x) (mkCell (nd_tag m) (VNode (size x)) (if nd_arr m then cateNodeArray else cateNode) :: hd_of (x_heap x) (x_stk x)) ++ [[]]) (size x)).
    assert (L1 : size x1 = S (size x)) by (unfold x1; cbn; rewrite app_length, set_len; cbn; lia).
    destruct (IH1 ((x_stk x, hd_of (x_heap x) (x_stk x)) :: vs) x1) as (x2 & E2 & (G1 & G2 & G3) & new & N1 & N2); [rewrite L1; cbn; lia|].
    set (x3 := mkX (set_hd (x_heap x2) (x_stk x) (hd_of (x_heap x) (x_stk x))) (x_stk x)).
    assert (R1 : run (EvBegin m :: tr1 ++ EvEnd m false :: tr2) vs x = run tr2 vs x3).
    { change (run (EvBegin m :: tr1 ++ EvEnd m false :: tr2) vs x) with (run (tr1 ++ EvEnd m false :: tr2) ((x_stk x, hd_of (x_heap x) (x_stk x)) :: vs) x1). rewrite run_app, E2. reflexivity. }
    rewrite R1. rewrite L1 in *. 
    assert (L3 : size x3 = size x2) by apply set_len.
    destruct (IH2 vs x3) as (x4 & E4 & (G4 & G5 & G6) & new4 & N3 & N4); [rewrite L3; cbn; lia|]. exists x4. split; [exact E4|]. rewrite L3 in *. cbn [x_stk x3] in *.
    split.
    + split; [exact G4|]. split; [lia|]. intros id Hi Hn. rewrite G6 by (try assumption; lia). unfold x3. cbn [x_heap]. rewrite hd_set_other by auto. rewrite G3; [|lia|cbn; lia].
      unfold x1. cbn [x_heap]. rewrite hd_snoc by (rewrite set_len; exact Hi). apply hd_set_other. auto.
    + exists new4. split.
      * rewrite N3. f_equal. unfold x3. cbn [x_heap]. apply hd_set. lia.
      * apply (rep_frame _ _ _ _ _ N4); auto; lia.
Qed.
Lemma run_bal : forall tr, balanced tr -> forall vs x r, run tr vs x = inl r -> exists its, inserted getValue tr its.
Proof.
  intros tr H. induction H as [|a ts l tr H IH|t ok tr1 tr2 H1 IH1 H2 IH2]; intros vs x r E.
  - exists []. constructor.
  - cbn [PegSpec.run u_act xclient xact] in E. destruct ts as [|t ts]; cbn [PegSpec.run u_act xclient xact] in E; [discriminate|]. unfold xact in E. destruct (getValue (lf_typ a) (tlit t)) as [v|p] eqn:Ev; [|discriminate].
    destruct (IH _ _ _ E) as (its & Hi). exists (Leaf (lf_tag a) v (lf_arr a) :: its). constructor; assumption.
  - cbn [PegSpec.run u_begin xclient] in E. destruct (xbegin t x) as (v, x1). rewrite run_app in E. destruct (run tr1 (v :: vs) x1) as [(vs1, x2)|px] eqn:E1; [|discriminate].
    destruct (IH1 _ _ _ E1) as (sub & Hs). cbn [PegSpec.run] in E.
    assert (Ex : exists its, inserted getValue tr2 its) by (destruct vs1; apply (IH2 _ _ _ E)). destruct Ex as (its & Hi).
    destruct ok; [exists (Sub (nd_tag t) (nd_arr t) sub :: its)|exists its]; econstructor; eassumption.
Qed.
End Run.
