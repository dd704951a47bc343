(** Proofs about the containers of qlang: every call keeps storage and values in order; keys; what writing and appending do. *)
From Coq Require Import String SpecFloat.
From Verif Require Import Base Token Utf8 Scanner Tokenize Grammar Matcher Compiler Interp QValue QCont QContSpec.
Local Open Scope Z_scope.

(** ** Lists *)
Lemma upd_length : forall A n (x : A) l, length (upd n x l) = length l.
Proof. induction n; destruct l; cbn; auto. Qed.
Lemma nth_upd : forall A (d : A) l n x j, nth j (upd n x l) d = if ((j =? n) && (n <? length l))%nat then x else nth j l d.
Proof.
  intros A d l. induction l as [|y l IH]; intros [|n] x [|j]; cbn; try reflexivity; try (rewrite andb_false_r; reflexivity).
  - rewrite IH. change (S j =? S n)%nat with (j =? n)%nat. change (S n <? S (length l))%nat with (n <? length l)%nat. reflexivity.
Qed.
Lemma upd_ge : forall A n (x : A) l, (length l <= n)%nat -> upd n x l = l.
Proof. induction n; destruct l; cbn; intros; try lia; auto. f_equal. apply IHn. lia. Qed.
Lemma Forall_upd : forall A (P : A -> Prop) n x l, P x -> Forall P l -> Forall P (upd n x l).
Proof. intros A P n x l Hx H. revert n. induction H; intros [|n]; cbn; constructor; auto. Qed.
Lemma Forall2_upd : forall A B (R : A -> B -> Prop) n y e l l', nth_error l n = Some e -> R e y -> Forall2 R l l' -> Forall2 R l (upd n y l').
Proof. intros A B R n y e l l' Hn Hy H. revert n Hn. induction H; intros [|n]; cbn; intro E; try discriminate; constructor; auto. injection E as <-. exact Hy. Qed.
Lemma Forall2_nth : forall A B (R : A -> B -> Prop) l l' n e d, Forall2 R l l' -> nth_error l n = Some e -> R e (nth n l' d).
Proof. intros A B R l l' n e d H. revert n. induction H; intros [|n] E; try discriminate; cbn; auto. injection E as <-. exact H. Qed.
Lemma Forall2_len : forall A B (R : A -> B -> Prop) l l', Forall2 R l l' -> length l = length l'.
Proof. induction 1; cbn; congruence. Qed.

(** ** Types *)
Lemma ty_eqb_eq : forall a b, ty_eqb a b = true <-> a = b.
Proof.
  induction a; destruct b; cbn; split; intro H; try discriminate; try reflexivity.
  - apply IHa in H. congruence.
  - injection H as <-. apply IHa. reflexivity.
  - apply andb_true_iff in H. destruct H as (H1 & H2). apply IHa1 in H1. apply IHa2 in H2. congruence.
  - injection H as <- <-. apply andb_true_iff. split; [apply IHa1|apply IHa2]; reflexivity.
  - apply Nat.eqb_eq in H. congruence.
  - injection H as <-. apply Nat.eqb_refl.
Qed.
Lemma assignable_iff : forall v t, assignable v t = true <-> storable v t.
Proof.
  intros v t. unfold assignable, storable, has_type. destruct (dyn v) as [d|] eqn:E.
  - assert (N : v <> CNil) by (intros ->; discriminate E). destruct t; rewrite ?ty_eqb_eq; split; intro H; auto; try (split; auto; right; congruence); destruct H as (_ & [H|H]); congruence.
  - split; [discriminate|]. intros (N & H). destruct v; try discriminate E. congruence.
Qed.
Lemma zero_type : forall t, has_type (zero t) t.
Proof. destruct t; (left; reflexivity) || (right; reflexivity). Qed.
Lemma zero_in : forall T t, val_in T (zero t).
Proof. destruct t; cbn; auto. split; [lia|lia]. Qed.
Lemma stored_other : forall t v, t <> TyVar -> t <> TyFloat -> stored t v = match v with CNil => Some (zero t) | _ => match dyn v with Some d => if ty_eqb d t then Some v else None | None => None end end.
Proof. intros t v H1 H2. destruct t; try congruence; destruct v; reflexivity. Qed.
Lemma stored_cases : forall t v x, stored t v = Some x -> (t = TyVar /\ x = v) \/ (exists f, t = TyFloat /\ x = CFloat f) \/ x = zero t \/ (x = v /\ dyn v = Some t).
Proof.
  intros t v x H. assert (D : t = TyVar \/ t = TyFloat \/ (t <> TyVar /\ t <> TyFloat)) by (destruct t; auto; right; right; split; discriminate).
  destruct D as [->|[->|(D1 & D2)]].
  - left. cbn in H. split; congruence.
  - right. left. cbn in H. destruct v; try discriminate H; injection H as <-; eauto.
  - right. right. rewrite stored_other in H by assumption. assert (X : v = CNil \/ v <> CNil) by (destruct v; (left; reflexivity) || (right; discriminate)). destruct X as [->|X]; [left; congruence|].
    right. replace (match v with CNil => Some (zero t) | _ => _ end) with (match dyn v with Some d => if ty_eqb d t then Some v else None | None => None end) in H by (destruct v; congruence || reflexivity).
    destruct (dyn v) as [d|]; [|discriminate H]. destruct (ty_eqb d t) eqn:E; [|discriminate H]. apply ty_eqb_eq in E. subst. split; congruence.
Qed.
Lemma stored_type : forall t v x, stored t v = Some x -> has_type x t.
Proof. intros t v x H. destruct (stored_cases _ _ _ H) as [(-> & ->)|[(f & -> & ->)|[->|(-> & E)]]]; [left; reflexivity|right; reflexivity|apply zero_type|right; exact E]. Qed.
Lemma stored_in : forall T t v x, val_in T v -> stored t v = Some x -> val_in T x.
Proof. intros T t v x Hv H. destruct (stored_cases _ _ _ H) as [(-> & ->)|[(f & -> & ->)|[->|(-> & E)]]]; [exact Hv|exact Logic.I|apply zero_in|exact Hv]. Qed.
Lemma or_zero_stored : forall t v, t <> TyVar -> t <> TyFloat -> or_zero t v = stored t v.
Proof. intros t v H1 H2. unfold or_zero, assignable. destruct t; try congruence; destruct v; reflexivity. Qed.
Lemma float_of_stored : forall v, float_of v = stored TyFloat v.
Proof. destruct v; reflexivity. Qed.

(** ** Keys *)
Lemma f_eq_sym : forall a b, f_eq a b = f_eq b a.
Proof.
  assert (P : forall p q c, Pos.compare_cont c p q = CompOpp (Pos.compare_cont (CompOpp c) q p)) by (intros; rewrite Pos.compare_cont_antisym; rewrite CompOpp_involutive; reflexivity).
  intros [[]|[]| |[] m e] [[]|[]| |[] m' e']; try reflexivity; unfold f_eq, SFeqb, SFcompare; rewrite (Z.compare_antisym e e'); destruct (e ?= e')%Z; try reflexivity; cbn [CompOpp];
    rewrite (P m m' Eq); destruct (Pos.compare_cont (CompOpp Eq) m' m) eqn:E; cbn in E |- *; rewrite E; reflexivity.
Qed.
Lemma f_eq_iff : forall a b, f_eq a b = true <-> match a, b with S754_zero _, S754_zero _ => True | S754_nan, _ => False | _, _ => a = b end.
Proof.
  intros [[]|[]| |[] m e] [[]|[]| |[] m' e']; unfold f_eq, SFeqb, SFcompare; try (split; intro H; try reflexivity; try discriminate; try exact Logic.I; contradiction).
  all: try (destruct (Z.compare_spec e e') as [->|H|H]; [|split; [discriminate|intros [= <- <-]; lia]..];
    destruct (Pos.compare_cont Eq m m') eqn:E; cbn; split; intro H; try discriminate; try reflexivity;
    try (apply Pos.compare_eq in E; congruence); injection H as <-; change (Pos.compare_cont Eq m m) with (Pos.compare m m) in E; rewrite Pos.compare_refl in E; discriminate E).
Qed.
Lemma f_eq_trans : forall a b c, f_eq a b = true -> f_eq b c = f_eq a c.
Proof.
  intros a b c H. apply f_eq_iff in H. destruct a, b; try contradiction; try discriminate H; try (rewrite H; reflexivity).
  destruct c as [[]|[]| |[] ? ?]; destruct s, s0; reflexivity.
Qed.
Lemma key_eq_sym : forall a b, key_eq a b = key_eq b a.
Proof.
  intros [] []; cbn; try reflexivity; try apply Z.eqb_sym; try apply f_eq_sym.
  - destruct b, b0; reflexivity.
  - destruct (beq b b0) eqn:E, (beq b0 b) eqn:E'; try reflexivity; [apply beq_eq in E; subst; rewrite beq_refl in E'|apply beq_eq in E'; subst; rewrite beq_refl in E]; discriminate.
  - destruct (ty_eqb t t0) eqn:E, (ty_eqb t0 t) eqn:E'; try reflexivity; [apply ty_eqb_eq in E; subst; rewrite (proj2 (ty_eqb_eq t0 t0) eq_refl) in E'|apply ty_eqb_eq in E'; subst; rewrite (proj2 (ty_eqb_eq t t) eq_refl) in E]; discriminate.
  - rewrite (Nat.eqb_sym t t0), (Nat.eqb_sym id id0). reflexivity.
Qed.
Lemma key_eq_trans : forall a b c, key_eq a b = true -> key_eq b c = key_eq a c.
Proof.
  intros [] [] c H; cbn in H; try discriminate H.
  - apply Z.eqb_eq in H. congruence.
  - apply Bool.eqb_prop in H. congruence.
  - destruct c; try reflexivity. apply f_eq_trans, H.
  - apply beq_eq in H. congruence.
  - apply Z.eqb_eq in H. congruence.
  - apply ty_eqb_eq in H. congruence.
  - reflexivity.
  - apply andb_true_iff in H. destruct H as (A & B). apply Nat.eqb_eq in A, B. congruence.
Qed.
(** a key equals itself unless it cannot be one or is NaN *)
Lemma key_eq_refl : forall k, hashable k = true -> k <> CNil -> k <> CFloat S754_nan -> key_eq k k = true.
Proof.
  intros [] H N F; cbn in *; try discriminate; try congruence; rewrite ?Z.eqb_refl, ?beq_refl, ?Nat.eqb_refl; auto.
  - destruct b; reflexivity.
  - apply f_eq_iff. destruct f; auto.
  - apply ty_eqb_eq. reflexivity.
Qed.
Lemma find_put : forall k v k2 l, find_key k2 (put_key k v l) = if key_eq k2 k then Some v else find_key k2 l.
Proof.
  intros k v k2 l. induction l as [|(k0, w) l IH]; cbn; [reflexivity|]. destruct (key_eq k k0) eqn:E; cbn.
  - rewrite (key_eq_sym k2 k0), (key_eq_sym k2 k), <- (key_eq_trans k k0 k2 E). destruct (key_eq k0 k2); reflexivity.
  - rewrite IH. destruct (key_eq k2 k0) eqn:E0; [|reflexivity]. destruct (key_eq k2 k) eqn:E1; [|reflexivity].
    rewrite key_eq_sym in E1. rewrite <- (key_eq_trans k k2 k0 E1) in E. congruence.
Qed.
Lemma find_none : forall k l, Forall (fun e => key_eq k (fst e) = false) l -> find_key k l = None.
Proof. induction 1 as [|(k0, v) l H _ IH]; cbn in *; [reflexivity|]. rewrite H. exact IH. Qed.
Lemma find_del : forall k k2 l, distinct l -> find_key k2 (del_key k l) = if key_eq k2 k then None else find_key k2 l.
Proof.
  intros k k2 l D. induction D as [|k0 w l H D IH]; cbn; [destruct (key_eq k2 k); reflexivity|]. destruct (key_eq k k0) eqn:E.
  - destruct (key_eq k2 k) eqn:E1.
    + rewrite (key_eq_trans k2 k k0 E1) in E. apply find_none. revert H. apply Forall_impl. intros (k1, v1) X. cbn in *. rewrite <- (key_eq_trans k2 k0 k1 E). exact X.
    + destruct (key_eq k2 k0) eqn:E0; [|reflexivity]. rewrite key_eq_sym in E. rewrite <- (key_eq_trans k2 k0 k E0) in E1. congruence.
  - cbn. rewrite IH. destruct (key_eq k2 k0) eqn:E0; [|reflexivity]. destruct (key_eq k2 k) eqn:E1; [|reflexivity].
    rewrite key_eq_sym in E1. rewrite <- (key_eq_trans k k2 k0 E1) in E. congruence.
Qed.
Lemma put_len : forall k v l, length (put_key k v l) = match find_key k l with Some _ => length l | None => S (length l) end.
Proof. intros k v l. induction l as [|(k0, w) l IH]; cbn; [reflexivity|]. destruct (key_eq k k0); cbn; [reflexivity|]. rewrite IH. destruct (find_key k l); reflexivity. Qed.
Lemma del_len : forall k l, length (del_key k l) = match find_key k l with Some _ => pred (length l) | None => length l end.
Proof. intros k l. induction l as [|(k0, w) l IH]; cbn; [reflexivity|]. destruct (key_eq k k0) eqn:E; cbn; [reflexivity|]. rewrite IH. destruct (find_key k l) eqn:F; [|reflexivity]. destruct l; [discriminate F|reflexivity]. Qed.
Lemma Forall_put : forall (P : cv * cv -> Prop) k v l, (forall k' w, P (k', w) -> P (k', v)) -> P (k, v) -> Forall P l -> Forall P (put_key k v l).
Proof. intros P k v l Hk Hp H. induction H as [|(k0, w) l H0 H IH]; cbn; [auto|]. destruct (key_eq k k0); constructor; eauto. Qed.
Lemma put_distinct : forall k v l, distinct l -> distinct (put_key k v l).
Proof.
  intros k v l D. induction D as [|k0 w l H D IH]; cbn; [repeat constructor|]. destruct (key_eq k k0) eqn:E; constructor; auto.
  clear IH D. induction H as [|(k1, w1) l H0 H IH]; cbn in *; [repeat constructor; rewrite key_eq_sym; exact E|]. destruct (key_eq k k1); constructor; auto.
Qed.
Lemma Forall_del : forall (P : cv * cv -> Prop) k l, Forall P l -> Forall P (del_key k l).
Proof. intros P k l H. induction H as [|(k0, w) l H0 H IH]; cbn; [constructor|]. destruct (key_eq k k0); auto. Qed.
Lemma del_distinct : forall k l, distinct l -> distinct (del_key k l).
Proof. intros k l D. induction D as [|k0 w l H D IH]; cbn; [constructor|]. destruct (key_eq k k0); auto. constructor; [apply Forall_del, H|exact IH]. Qed.

(** ** Storage *)
Definition ext (T T' : typing) : Prop := exists x y, t_arrs T' = t_arrs T ++ x /\ t_maps T' = t_maps T ++ y.
Lemma ext_refl : forall T, ext T T.
Proof. intro T. exists [], []. rewrite !app_nil_r. auto. Qed.
Lemma ext_trans : forall A B C, ext A B -> ext B C -> ext A C.
Proof. intros A B C (x & y & H1 & H2) (x' & y' & H3 & H4). exists (x ++ x'), (y ++ y'). rewrite H3, H4, H1, H2, !app_assoc. auto. Qed.
Lemma ext_arr : forall T T' a e, ext T T' -> nth_error (t_arrs T) a = Some e -> nth_error (t_arrs T') a = Some e.
Proof. intros T T' a e (x & y & H & _) E. rewrite H, nth_error_app1; [exact E|]. apply nth_error_Some. congruence. Qed.
Lemma ext_map : forall T T' a e, ext T T' -> nth_error (t_maps T) a = Some e -> nth_error (t_maps T') a = Some e.
Proof. intros T T' a e (x & y & _ & H) E. rewrite H, nth_error_app1; [exact E|]. apply nth_error_Some. congruence. Qed.
Lemma val_in_ext : forall T T' v, ext T T' -> val_in T v -> val_in T' v.
Proof.
  intros T T' v X. destruct v; cbn; auto.
  - intros (A & B). split; [exact A|]. intro H. destruct (B H) as (n & N & O). exists n. split; [exact (ext_arr _ _ _ _ X N)|exact O].
  - destruct m; auto. intro H. exact (ext_map _ _ _ _ X H).
Qed.
Lemma vals_in_ext : forall T T' l, ext T T' -> Forall (val_in T) l -> Forall (val_in T') l.
Proof. intros T T' l X. apply Forall_impl. intro v. apply val_in_ext, X. Qed.
Lemma arr_in_ext : forall T T' e l, ext T T' -> arr_in T e l -> arr_in T' e l.
Proof. intros T T' e l X (A & B). split; [exact A|]. revert B. apply Forall_impl. intros v (H1 & H2). split; [exact H1|exact (val_in_ext _ _ _ X H2)]. Qed.
Lemma map_in_ext : forall T T' e l, ext T T' -> map_in T e l -> map_in T' e l.
Proof. intros T T' e l X (A & B). split; [exact A|]. revert B. apply Forall_impl. intros (k, v) (H1 & H2 & H3 & H4). cbn in *. eauto 6 using val_in_ext. Qed.
Lemma Forall2_impl' : forall A B (R S : A -> B -> Prop) l l', (forall a b, R a b -> S a b) -> Forall2 R l l' -> Forall2 S l l'.
Proof. intros A B R S l l' X H. induction H; constructor; auto. Qed.

(** [keep T m Q]: from storage of type [T], [m] ends, or panics, with storage of a larger type, and a result as in [Q] *)
Definition keep {A : Type} (T : typing) (m : M A) (Q : typing -> A -> Prop) : Prop :=
  forall h, heap_in T h -> exists T', ext T T' /\ heap_in T' (snd (m h)) /\ forall x, fst (m h) = Some x -> Q T' x.
Lemma keep_ret : forall A T (x : A) (Q : typing -> A -> Prop), Q T x -> keep T (ret x) Q.
Proof. intros A T x Q H h I. exists T. split; [apply ext_refl|]. split; [exact I|]. intros y [= <-]. exact H. Qed.
Lemma keep_panics : forall A T (Q : typing -> A -> Prop), keep T panics Q.
Proof. intros A T Q h I. exists T. split; [apply ext_refl|]. split; [exact I|]. discriminate. Qed.
Lemma keep_bind : forall A B T (m : M A) (k : A -> M B) (R : typing -> A -> Prop) (Q : typing -> B -> Prop),
  keep T m R -> (forall T' x, ext T T' -> R T' x -> keep T' (k x) Q) -> keep T (bind m k) Q.
Proof.
  intros A B T m k R Q Hm Hk h I. destruct (Hm h I) as (T1 & X1 & I1 & R1). unfold bind. destruct (m h) as ([x|], h1); cbn in *.
  - destruct (Hk T1 x X1 (R1 x eq_refl) h1 I1) as (T2 & X2 & I2 & Q2). exists T2. split; [exact (ext_trans _ _ _ X1 X2)|auto].
  - exists T1. split; [exact X1|]. split; [exact I1|discriminate].
Qed.
Lemma keep_must : forall A T (o : option A), keep T (must o) (fun _ x => o = Some x).
Proof. intros A T [x|]; [apply keep_ret; reflexivity|apply keep_panics]. Qed.
Lemma keep_read : forall A T (f : heap -> A) (Q : typing -> A -> Prop), (forall h, heap_in T h -> Q T (f h)) -> keep T (fun h => (Some (f h), h)) Q.
Proof. intros A T f Q H h I. exists T. split; [apply ext_refl|]. split; [exact I|]. cbn. intros y [= <-]. apply H, I. Qed.
Lemma keep_impl : forall A T (m : M A) (Q R : typing -> A -> Prop), keep T m Q -> (forall T' x, ext T T' -> Q T' x -> R T' x) -> keep T m R.
Proof. intros A T m Q R H X h I. destruct (H h I) as (T' & E & I' & Q'). exists T'. split; [exact E|]. split; [exact I'|]. intros x Ex. apply X; auto. Qed.
Lemma keep_write : forall T a i v e, nth_error (t_arrs T) a = Some e -> has_type v (fst e) -> val_in T v -> keep T (write a i v) (fun _ _ => True).
Proof.
  intros T a i v e Hn Ht Hv h (I1 & I2). exists T. split; [apply ext_refl|]. split; [|auto]. split; [|exact I2]. cbn. apply (Forall2_upd _ _ _ _ _ e); [exact Hn| |exact I1].
  destruct (Forall2_nth _ _ _ _ _ _ _ [] I1 Hn) as (L & F). unfold arr. split; [rewrite upd_length; exact L|]. apply Forall_upd; auto.
Qed.
Lemma keep_new_arr : forall T t l, Forall (fun v => has_type v t /\ val_in T v) l -> keep T (new_arr l) (fun T' a => nth_error (t_arrs T') a = Some (t, length l)).
Proof.
  intros T t l H h (I1 & I2). set (T' := mkTyping (t_arrs T ++ [(t, length l)]) (t_maps T)). assert (X : ext T T') by (exists [(t, length l)], []; cbn; rewrite app_nil_r; auto).
  exists T'. split; [exact X|]. split.
  - split; cbn.
    + apply Forall2_app; [revert I1; apply Forall2_impl'; intros; apply (arr_in_ext T); assumption|]. constructor; [|constructor]. split; [reflexivity|]. revert H. apply Forall_impl. intros v (H1 & H2). split; [exact H1|exact (val_in_ext _ _ _ X H2)].
    + revert I2. apply Forall2_impl'. intros. apply (map_in_ext T); assumption.
  - cbn. intros a [= <-]. rewrite <- (Forall2_len _ _ _ _ _ I1), nth_error_app2, Nat.sub_diag by lia. reflexivity.
Qed.
Lemma keep_new_map : forall T k v l, map_in T (k, v) l -> keep T (new_map l) (fun T' a => nth_error (t_maps T') a = Some (k, v)).
Proof.
  intros T k v l H h (I1 & I2). set (T' := mkTyping (t_arrs T) (t_maps T ++ [(k, v)])). assert (X : ext T T') by (exists [], [(k, v)]; cbn; rewrite app_nil_r; auto).
  exists T'. split; [exact X|]. split.
  - split; cbn.
    + revert I1. apply Forall2_impl'. intros. apply (arr_in_ext T); assumption.
    + apply Forall2_app; [revert I2; apply Forall2_impl'; intros; apply (map_in_ext T); assumption|]. constructor; [|constructor]. apply (map_in_ext T); assumption.
  - cbn. intros a [= <-]. rewrite <- (Forall2_len _ _ _ _ _ I2), nth_error_app2, Nat.sub_diag by lia. reflexivity.
Qed.
Lemma keep_set_entries : forall T m e (f : list (cv * cv) -> list (cv * cv)), nth_error (t_maps T) m = Some e -> (forall l, map_in T e l -> map_in T e (f l)) ->
  keep T (fun h => set_entries m (f (entries h m)) h) (fun _ _ => True).
Proof.
  intros T m e f Hn Hf h (I1 & I2). exists T. split; [apply ext_refl|]. split; [|auto]. split; [exact I1|]. cbn. apply (Forall2_upd _ _ _ _ _ e); [exact Hn| |exact I2].
  apply Hf. exact (Forall2_nth _ _ _ _ _ _ _ [] I2 Hn).
Qed.

(** ** The calls *)
Ltac ends := first [apply keep_panics|apply keep_ret].
Lemma key_in : forall k key, key_ok k key = true -> has_type key k.
Proof. intros k key H. apply andb_true_iff in H. destruct H as (H & _). apply assignable_iff in H. apply H. Qed.
Lemma map_put : forall T k v e l, has_type k (fst e) -> val_in T k -> has_type v (snd e) -> val_in T v -> map_in T e l -> map_in T e (put_key k v l).
Proof.
  intros T k v e l H1 H2 H3 H4 (D & F). split; [apply put_distinct, D|]. apply Forall_put; [|cbn; auto|exact F]. cbn. intros k' w (A & B & _ & _). auto.
Qed.
Lemma map_del : forall T k e l, map_in T e l -> map_in T e (del_key k l).
Proof. intros T k e l (D & F). split; [apply del_distinct, D|apply Forall_del, F]. Qed.
Lemma keep_SetMapIndex : forall T k v m key o, val_in T (CMap k v m) -> val_in T key -> (forall x, o = Some x -> has_type x v /\ val_in T x) -> keep T (SetMapIndex k v m key o) (fun _ _ => True).
Proof.
  intros T k v m key o Hm Hk Ho. unfold SetMapIndex. destruct (key_ok k key) eqn:E; cbn; [|apply keep_panics]. apply key_in in E. destruct o as [x|], m as [i|]; cbn in Hm; try (ends; exact Logic.I).
  - destruct (Ho x eq_refl) as (H1 & H2). apply (keep_set_entries _ _ _ (put_key key x) Hm). intros l Hl. apply map_put; auto.
  - apply (keep_set_entries _ _ _ (del_key key) Hm). intros l Hl. apply map_del; auto.
Qed.
Lemma pairs_in : forall T l, Forall (val_in T) l -> Forall (fun p => val_in T (fst p) /\ val_in T (snd p)) (pairs l).
Proof.
  intros T l. assert (X : forall n l, (length l <= n)%nat -> Forall (val_in T) l -> Forall (fun p => val_in T (fst p) /\ val_in T (snd p)) (pairs l)).
  { induction n as [|n IH]; intros [|a [|b l0]] L H; cbn in *; try lia; try constructor.
    - inversion H as [|? ? H1 H2]; subst. inversion H2; subst. cbn. auto.
    - inversion H as [|? ? H1 H2]; subst. inversion H2; subst. apply IH; [lia|assumption]. }
  exact (X (length l) l (Nat.le_refl _)).
Qed.
Lemma keep_set_map : forall k v m l T, val_in T (CMap k v m) -> Forall (fun p => val_in T (fst p) /\ val_in T (snd p)) l -> keep T (set_map k v m l) (fun _ _ => True).
Proof.
  intros k v m. induction l as [|(key, t) l IH]; intros T Hm Hl; [apply keep_ret; exact Logic.I|]. inversion Hl as [|? ? (H1 & H2) H3]; subst. cbn in H1, H2 |- *.
  assert (S0 : storable t v -> keep T (SetMapIndex k v m key (Some t)) (fun _ _ => True)) by (intros (_ & S2); apply keep_SetMapIndex; auto; intros x [= <-]; auto).
  apply (keep_bind _ _ _ _ _ (fun _ _ => True)).
  - destruct t; try (destruct (assignable _ v) eqn:E; [apply S0, assignable_iff, E|apply keep_panics]).
    + apply keep_SetMapIndex; auto. intros x [= <-]. split; [apply zero_type|apply zero_in].
    + apply keep_SetMapIndex; auto. discriminate.
  - intros T' x X _. apply IH; [exact (val_in_ext _ _ _ X Hm)|]. revert H3. apply Forall_impl. intros p (A & B). split; apply (val_in_ext T); assumption.
Qed.
Lemma in_range_lt : forall key n i, in_range key n = Some i <-> key = CInt (Z.of_nat i) /\ (i < n)%nat.
Proof.
  intros key n i. unfold in_range. destruct key; try (split; [discriminate|intros (H & _); discriminate H]). destruct (Z.leb_spec 0 z); cbn; [|split; [discriminate|intros ([= ->] & L); lia]].
  destruct (Z.ltb_spec z (Z.of_nat n)); (split; [intros [= <-]; rewrite Z2Nat.id by lia; split; [reflexivity|lia]|intros ([= ->] & L); try lia; rewrite Nat2Z.id; reflexivity]) || (split; [discriminate|intros ([= ->] & L); lia]).
Qed.
Lemma slice_arr : forall T t a off len cap i, val_in T (CSlice t a off len cap) -> (i < cap)%nat -> exists n, nth_error (t_arrs T) a = Some (t, n) /\ (off + i < n)%nat.
Proof. intros T t a off len cap i (H1 & H2) L. destruct H2 as (n & N & O); [lia|]. exists n. split; [exact N|lia]. Qed.
Lemma keep_set_slice : forall t a off len cap l T, val_in T (CSlice t a off len cap) -> Forall (fun p => val_in T (fst p) /\ val_in T (snd p)) l -> keep T (set_slice t a off len l) (fun _ _ => True).
Proof.
  intros t a off len cap. induction l as [|(key, v) l IH]; intros T Hs Hl; [apply keep_ret; exact Logic.I|]. inversion Hl as [|? ? (H1 & H2) H3]; subst. cbn in H1, H2 |- *.
  eapply keep_bind; [apply keep_must|]. intros T1 i X1 E. apply in_range_lt in E. destruct E as (_ & L). assert (Hs1 := val_in_ext _ _ _ X1 Hs).
  apply (keep_bind _ _ _ _ _ (fun _ _ => True)).
  - destruct (assignable v t) eqn:E; [|apply keep_panics]. apply assignable_iff in E. destruct (slice_arr _ _ _ _ _ _ i Hs1) as (n & N & _); [destruct Hs; lia|]. exact (keep_write _ _ _ _ _ N (proj2 E) (val_in_ext _ _ _ X1 H2)).
  - intros T2 x X2 _. apply IH; [exact (val_in_ext _ _ _ X2 Hs1)|]. revert H3. apply Forall_impl. intros p (A & B). split; apply (val_in_ext T1); try apply (val_in_ext T); assumption.
Qed.
Lemma keep_CSet : forall T m l, val_in T m -> Forall (val_in T) l -> keep T (CSet m l) (fun _ _ => True).
Proof.
  intros T m l Hm Hl. unfold CSet. destruct (Nat.odd _); [apply keep_panics|]. destruct m; try apply keep_panics.
  - apply (keep_set_slice _ _ _ _ cap); [exact Hm|apply pairs_in, Hl].
  - apply keep_set_map; [exact Hm|apply pairs_in, Hl].
Qed.
Lemma cell_in : forall T h t a off len cap i, heap_in T h -> val_in T (CSlice t a off len cap) -> (i < cap)%nat -> has_type (cell h a (off + i)) t /\ val_in T (cell h a (off + i)).
Proof.
  intros T h t a off len cap i (I1 & _) Hs L. destruct (slice_arr _ _ _ _ _ _ i Hs L) as (n & N & O). destruct (Forall2_nth _ _ _ _ _ _ _ [] I1 N) as (E & F). cbn in E, F. unfold cell, arr.
  apply (proj1 (Forall_forall _ _) F). apply nth_In. rewrite E. exact O.
Qed.
Lemma find_in : forall k l v, find_key k l = Some v -> exists k', In (k', v) l.
Proof. intros k l. induction l as [|(k0, w) l IH]; cbn; intros v H; [discriminate|]. destruct (key_eq k k0); [injection H as <-; eauto|]. destruct (IH _ H) as (k' & X). eauto. Qed.
Definition elem_type (m : cv) : option ty := match m with CSlice t _ _ _ _ => Some t | CMap _ v _ => Some v | CStr _ => Some TyByte | _ => None end.
Lemma keep_CGet : forall T m key, val_in T m -> keep T (CGet m key) (fun T' v => val_in T' v /\ (v = CUndef \/ exists t, elem_type m = Some t /\ has_type v t)).
Proof.
  intros T m key Hm. unfold CGet. destruct m; try apply keep_panics.
  - eapply keep_bind; [apply keep_must|]. intros T1 i X1 _. apply keep_ret. split; [exact Logic.I|]. right. exists TyByte. split; [reflexivity|right; reflexivity].
  - eapply keep_bind; [apply keep_must|]. intros T1 i X1 E. apply in_range_lt in E. destruct E as (_ & L). apply keep_read. intros h I.
    destruct (cell_in T1 h t a off len cap i I (val_in_ext _ _ _ X1 Hm)) as (A & B); [destruct Hm; lia|]. split; [exact B|]. right. exists t. auto.
  - destruct (key_ok k key); [|apply keep_panics]. destruct m as [i|]; [|apply keep_ret; split; [exact Logic.I|auto]]. apply keep_read. intros h (_ & I2).
    destruct (find_key key (entries h i)) as [x|] eqn:E; [|split; [exact Logic.I|auto]]. destruct (find_in _ _ _ E) as (k' & X). destruct (Forall2_nth _ _ _ _ _ _ _ [] I2 Hm) as (_ & F).
    destruct (proj1 (Forall_forall _ _) F _ X) as (_ & _ & A & B). cbn in A, B. split; [exact B|]. right. exists v. auto.
Qed.
Lemma keep_Reflect : forall T t, keep T (Reflect t) (fun _ _ => True).
Proof. intros T t. unfold Reflect. destruct t; try apply keep_panics; [destruct (Compiler.find _ _)|]; ends; exact Logic.I. Qed.
Lemma keep_as_int : forall T v, keep T (as_int v) (fun _ _ => True).
Proof. intros T v. destruct v; ends; exact Logic.I. Qed.
Lemma keep_CSub : forall T a i j, val_in T a -> keep T (CSub a i j) val_in.
Proof.
  intros T a i j Ha. unfold CSub. eapply keep_bind; [destruct i; first [apply (keep_ret _ _ _ (fun _ _ => True)); exact Logic.I|apply keep_as_int]|]. intros T1 i1 X1 _. cbn beta.
  eapply keep_bind; [destruct j; [destruct a; first [apply (keep_ret _ _ _ (fun _ _ => True)); exact Logic.I|apply keep_panics]|..]; apply keep_as_int|]. intros T2 j1 X2 _. cbn beta.
  pose proof (val_in_ext _ _ _ (ext_trans _ _ _ X1 X2) Ha) as H. destruct a; try apply keep_panics.
  - destruct (_ && _); ends. exact Logic.I.
  - destruct ((0 <=? i1) && (i1 <=? j1) && (j1 <=? Z.of_nat cap)) eqn:E; ends. apply andb_true_iff in E. destruct E as (E & E3). apply andb_true_iff in E. destruct E as (E1 & E2).
    apply Z.leb_le in E1, E2, E3. destruct H as (H1 & H2). split; [lia|]. intro L. destruct H2 as (n & N & O); [lia|]. exists n. split; [exact N|lia].
Qed.
Lemma keep_make_with : forall T t l c, (length l <= c)%nat -> Forall (fun v => has_type v t /\ val_in T v) l -> keep T (make_with t l c) (fun T' s => val_in T' s).
Proof.
  intros T t l c Hc Hl. unfold make_with. eapply keep_bind; [apply (keep_new_arr T t)|].
  - apply Forall_app. split; [exact Hl|]. apply Forall_forall. intros x Hx. apply repeat_spec in Hx. subst. split; [apply zero_type|apply zero_in].
  - intros T' a X N. apply keep_ret. split; [exact Hc|]. intros _. exists c. split; [|lia]. rewrite N, app_length, repeat_length. do 2 f_equal. lia.
Qed.
Lemma keep_grow : forall g T t a off len cap n, val_in T (CSlice t a off len cap) ->
  keep T (grow g t a off len cap n) (fun T' r => let '(b, o, c) := r in val_in T' (CSlice t b o len c) /\ (len + n <= c)%nat).
Proof.
  intros g T t a off len cap n Hs. unfold grow. destruct (Nat.leb_spec (len + n) cap) as [L|L]; [apply keep_ret; auto|]. set (c := Nat.max _ _).
  intros h I. pose proof (keep_make_with T t (firstn len (skipn off (arr h a))) c) as X. unfold make_with in X.
  assert (F : Forall (fun v => has_type v t /\ val_in T v) (firstn len (skipn off (arr h a))) /\ length (firstn len (skipn off (arr h a))) = len).
  { destruct Hs as (H1 & H2). destruct (Nat.eq_dec len 0) as [->|N0]; [split; [constructor|reflexivity]|]. destruct H2 as (m & N & O); [lia|]. destruct (Forall2_nth _ _ _ _ _ _ _ [] (proj1 I) N) as (E & F). cbn in E, F. fold (arr h a) in E, F.
    split; [|rewrite firstn_length, skipn_length, E; lia]. apply Forall_forall. intros x Hx. apply (proj1 (Forall_forall _ _) F). rewrite <- (firstn_skipn off (arr h a)). apply in_or_app. right. rewrite <- (firstn_skipn len (skipn off (arr h a))). apply in_or_app. left. exact Hx. }
  destruct F as (F & E). rewrite E in X. destruct (X ltac:(lia) F h I) as (T' & X1 & X2 & X3). exists T'. split; [exact X1|]. split; [exact X2|]. intros ((b, o), c') H. cbn in H. injection H as <- <- <-. split; [apply X3; reflexivity|lia].
Qed.
Lemma keep_write_all : forall t put a off len cap l T k, (forall T v x, val_in T v -> put v = Some x -> has_type x t /\ val_in T x) -> val_in T (CSlice t a off len cap) -> (k + length l <= cap)%nat ->
  Forall (val_in T) l -> keep T (write_all put a (off + k) l) (fun _ _ => True).
Proof.
  intros t put a off len cap. induction l as [|v l IH]; intros T k Hp Hs Hk Hl; cbn; [apply keep_ret; exact Logic.I|]. inversion Hl; subst. cbn in Hk.
  eapply keep_bind; [apply keep_must|]. intros T1 x X1 E. cbn beta. assert (Hs1 := val_in_ext _ _ _ X1 Hs). destruct (slice_arr _ _ _ _ _ _ k Hs1) as (n & N & _); [lia|].
  destruct (Hp T1 v x) as (A & B); [apply (val_in_ext T); assumption|exact E|]. eapply keep_bind; [exact (keep_write _ _ _ _ _ N A B)|]. intros T2 y X2 _. cbn beta.
  rewrite <- Nat.add_succ_r. apply IH; [exact Hp|exact (val_in_ext _ _ _ X2 Hs1)|lia|]. eapply vals_in_ext; [exact X2|]. eapply vals_in_ext; eassumption.
Qed.
Lemma longer : forall T t b o len c n, val_in T (CSlice t b o len c) -> (len + n <= c)%nat -> val_in T (CSlice t b o (len + n) c).
Proof. intros T t b o len c n (H1 & H2) L. split; assumption. Qed.
Lemma keep_append_with : forall g put t a off len cap l T, (forall T v x, val_in T v -> put v = Some x -> has_type x t /\ val_in T x) -> val_in T (CSlice t a off len cap) -> Forall (val_in T) l ->
  keep T (append_with g put t a off len cap l) val_in.
Proof.
  intros g put t a off len cap l T Hp Hs Hl. unfold append_with. eapply keep_bind; [apply keep_grow, Hs|]. intros T1 ((b, o), c) X1 (A & B). cbn beta iota.
  eapply keep_bind; [apply (keep_write_all t put b o len c); [exact Hp|exact A|exact B|exact (vals_in_ext _ _ _ X1 Hl)]|]. intros T2 x X2 _. apply keep_ret. apply longer; [exact (val_in_ext _ _ _ X2 A)|exact B].
Qed.
Lemma keep_appendFloat : forall g l a off len cap T, val_in T (CSlice TyFloat a off len cap) -> Forall (val_in T) l -> keep T (appendFloat g a off len cap l) val_in.
Proof.
  intros g. induction l as [|v l IH]; intros a off len cap T Hs Hl; cbn; [apply keep_ret; exact Hs|]. inversion Hl; subst.
  eapply keep_bind; [apply keep_must|]. intros T1 x X1 E. cbn beta. eapply keep_bind; [apply keep_grow; exact (val_in_ext _ _ _ X1 Hs)|]. intros T2 ((b, o), c) X2 (A & B). cbn beta iota.
  destruct (slice_arr _ _ _ _ _ _ len A) as (n & N & _); [lia|].
  assert (C : has_type x TyFloat /\ val_in T2 x) by (destruct v; try discriminate E; injection E as <-; split; (right; reflexivity) || exact Logic.I).
  eapply keep_bind; [exact (keep_write _ _ _ _ _ N (proj1 C) (proj2 C))|]. intros T3 y X3 _. cbn beta. apply IH.
  - rewrite <- Nat.add_1_r. apply longer; [exact (val_in_ext _ _ _ X3 A)|exact B].
  - eapply vals_in_ext; [exact X3|]. eapply vals_in_ext; [exact X2|]. eapply vals_in_ext; eassumption.
Qed.
Lemma append_put : forall g t a off len cap l, t <> TyFloat -> CAppend g (CSlice t a off len cap) l = append_with g (match t with TyVar => Some | _ => or_zero t end) t a off len cap l.
Proof. intros g t a off len cap l H. destruct t; try congruence; reflexivity. Qed.
Lemma put_stored : forall t v, t <> TyFloat -> (match t with TyVar => Some | _ => or_zero t end) v = stored t v.
Proof. intros t v H. destruct t; try congruence; first [apply or_zero_stored; discriminate|reflexivity]. Qed.
Lemma keep_CAppend : forall g T a l, val_in T a -> Forall (val_in T) l -> keep T (CAppend g a l) val_in.
Proof.
  intros g T a l Ha Hl. destruct a; try apply keep_panics. assert (D : t = TyFloat \/ t <> TyFloat) by (destruct t; auto; right; discriminate). destruct D as [->|D]; [apply keep_appendFloat; assumption|].
  rewrite append_put by exact D. apply keep_append_with; auto. intros T' v x Hv E. rewrite put_stored in E by exact D. split; [exact (stored_type _ _ _ E)|exact (stored_in _ _ _ _ Hv E)].
Qed.
Lemma keep_make_append : forall g T t n l, Forall (val_in T) l -> keep T (s <-- make_with t [] n ;; CAppend g s l) val_in.
Proof. intros g T t n l H. eapply keep_bind; [apply keep_make_with; [cbn; lia|constructor]|]. intros T' s X Hs. apply keep_CAppend; [exact Hs|exact (vals_in_ext _ _ _ X H)]. Qed.
Lemma keep_CSliceFrom : forall g T l, Forall (val_in T) l -> keep T (CSliceFrom g l) val_in.
Proof.
  intros g T l H. unfold CSliceFrom. destruct l as [|v l]; [apply keep_ret; split; cbn; lia|]. cbv zeta. repeat match goal with |- context [if ?b then _ else _] => destruct b end; apply keep_make_append, H.
Qed.
Lemma keep_CMkSlice : forall T t l, keep T (CMkSlice t l) val_in.
Proof.
  intros T t l. unfold CMkSlice. eapply keep_bind; [instantiate (1 := fun _ _ => True)|].
  { destruct l as [|n [|c l]]; [apply keep_ret; exact Logic.I|..].
    - eapply keep_bind; [apply keep_as_int|]. intros. apply keep_ret. exact Logic.I.
    - eapply keep_bind; [apply keep_as_int|]. intros. eapply keep_bind; [apply keep_as_int|]. intros. apply keep_ret. exact Logic.I. }
  intros T1 (n, c) X1 _. cbn beta. eapply keep_bind; [apply keep_Reflect|]. intros T2 t' X2 _. cbn beta iota. destruct ((0 <=? n) && (n <=? c)) eqn:E; [|apply keep_panics].
  apply andb_true_iff in E. destruct E as (E1 & E2). apply Z.leb_le in E1, E2. apply keep_make_with; [rewrite repeat_length; lia|]. apply Forall_forall. intros x Hx. apply repeat_spec in Hx. subst. split; [apply zero_type|apply zero_in].
Qed.
Lemma keep_fill : forall T kt vt key val l acc, (forall T v, keep T (key v) (fun T' x => has_type x kt /\ val_in T' x)) ->
  (forall T v, val_in T v -> keep T (val v) (fun T' o => forall x, o = Some x -> has_type x vt /\ val_in T' x)) ->
  Forall (fun p => val_in T (fst p) /\ val_in T (snd p)) l -> map_in T (kt, vt) acc -> keep T (fill key val l acc) (fun T' r => map_in T' (kt, vt) r).
Proof.
  intros T kt vt key val l acc Hk Hv. revert T acc. induction l as [|(a, b) l IH]; intros T acc Hl Ha; cbn; [apply keep_ret; exact Ha|]. inversion Hl as [|? ? (H1 & H2) H3]; subst. cbn in H1, H2.
  assert (W : forall T1, ext T T1 -> Forall (fun p => val_in T1 (fst p) /\ val_in T1 (snd p)) l) by (intros T1 X; revert H3; apply Forall_impl; intros p (A & B); split; apply (val_in_ext T); assumption).
  eapply keep_bind; [apply Hv; exact H2|]. intros T1 [x|] X1 Hx; cbn beta iota.
  - destruct (Hx x eq_refl) as (A & B). eapply keep_bind; [apply Hk|]. intros T2 k X2 (C & D). cbn beta. pose proof (ext_trans _ _ _ X1 X2) as X. apply IH; [apply W, X|].
    apply map_put; cbn; auto; [apply (val_in_ext T1); assumption|apply (map_in_ext T); assumption].
  - apply IH; [apply W, X1|apply (map_in_ext T); assumption].
Qed.
Lemma keep_str_key : forall T v, keep T (str_key v) (fun T' x => has_type x TyString /\ val_in T' x).
Proof. intros T v. unfold str_key. destruct v; try apply keep_panics. apply (keep_ret _ T (CStr b)). split; [right; reflexivity|exact Logic.I]. Qed.
Lemma keep_int_key : forall T v, keep T (int_key v) (fun T' x => has_type x TyInt /\ val_in T' x).
Proof. intros T v. unfold int_key. destruct v; try apply keep_panics. apply (keep_ret _ T (CInt z)). split; [right; reflexivity|exact Logic.I]. Qed.
Lemma keep_float_val : forall T v, keep T (float_val v) (fun T' x => has_type x TyFloat /\ val_in T' x).
Proof. intros T v. unfold float_val. destruct v; try apply keep_panics; apply (keep_ret _ T (CFloat _)); (split; [right; reflexivity|exact Logic.I]). Qed.
Lemma keep_as_elem : forall T f v t, keep T (f v) (fun T' x => has_type x t /\ val_in T' x) -> keep T (as_elem f v) (fun T' o => forall x, o = Some x -> has_type x t /\ val_in T' x).
Proof. intros T f v t H. unfold as_elem. eapply keep_bind; [exact H|]. intros T' x X Hx. apply keep_ret. intros y [= <-]. exact Hx. Qed.
Lemma val_case_in : forall n T v, val_in T v -> keep T (snd (val_case n) v) (fun T' o => forall x, o = Some x -> has_type x (fst (val_case n)) /\ val_in T' x).
Proof.
  intros n T v Hv. unfold val_case. destruct (n =? kString); [apply keep_as_elem, keep_str_key|]. destruct (n =? kInt); [apply keep_as_elem, keep_int_key|].
  destruct (n =? kFloat64); [apply keep_as_elem, keep_float_val|]. apply keep_ret. intros x E. cbn. split; [left; reflexivity|]. destruct v; congruence.
Qed.
Lemma empty_map_in : forall T e, map_in T e [].
Proof. intros. split; constructor. Qed.
Lemma keep_MapFrom : forall T l, Forall (val_in T) l -> keep T (MapFrom l) val_in.
Proof.
  intros T l H. unfold MapFrom. destruct (Nat.odd _); [apply keep_panics|].
  assert (N : forall T k v l0, map_in T (k, v) l0 -> keep T (i <-- new_map l0 ;; ret (CMap k v (Some i))) val_in).
  { intros T0 k v l0 Hm. eapply keep_bind; [apply keep_new_map, Hm|]. intros T' i X E. apply keep_ret. exact E. }
  destruct l as [|v l]; [apply N, empty_map_in|]. cbv zeta. set (ps := pairs (v :: l)). pose proof (pairs_in T _ H : Forall _ ps) as P.
  pose proof (val_case_in (kinds (map snd ps))) as V. destruct (val_case (kinds (map snd ps))) as (vt, val). cbn [fst snd] in V.
  destruct (_ =? kString); [|destruct (_ =? kInt); [|apply keep_panics]].
  - eapply keep_bind; [apply (keep_fill T TyString vt); [intros; apply keep_str_key|exact V|exact P|apply empty_map_in]|]. intros T' r X Hr. apply N, Hr.
  - eapply keep_bind; [apply (keep_fill T TyInt vt); [intros; apply keep_int_key|exact V|exact P|apply empty_map_in]|]. intros T' r X Hr. apply N, Hr.
Qed.
Lemma keep_does : forall g T c, Forall (val_in T) (args_of c) -> keep T (does g c) val_in.
Proof.
  intros g T c H. destruct c; cbn in H |- *; repeat match goal with Y : Forall _ (_ :: _) |- _ => apply Forall_cons_iff in Y; destruct Y end.
  - unfold Mkmap. eapply keep_bind; [apply keep_Reflect|]. intros T1 [] X1 _; try apply keep_panics. eapply keep_bind; [apply keep_new_map, empty_map_in|]. intros T2 i X2 E. apply keep_ret. exact E.
  - unfold MapOf. eapply keep_bind; [apply keep_Reflect|]. intros T1 k1 X1 _. cbn beta. eapply keep_bind; [apply keep_Reflect|]. intros T2 v1 X2 _. destruct k1; ends; exact Logic.I.
  - unfold SliceOf. eapply keep_bind; [apply keep_Reflect|]. intros T1 k1 X1 _. apply keep_ret. exact Logic.I.
  - apply keep_MapFrom, H.
  - unfold nothing. eapply keep_bind; [|intros T1 x X1 _; apply keep_ret; exact Logic.I]. unfold Delete. destruct m; try apply (keep_panics _ _ (fun _ _ => True)). apply keep_SetMapIndex; auto. discriminate.
  - unfold nothing. eapply keep_bind; [apply keep_CSet; assumption|]. intros. apply keep_ret. exact Logic.I.
  - eapply keep_impl; [apply keep_CGet; assumption|]. intros T' x _ (A & _). exact A.
  - destruct a; try destruct m; first [apply keep_panics|apply keep_ret; exact Logic.I|apply keep_read; intros; exact Logic.I].
  - destruct a; ends; exact Logic.I.
  - apply keep_CSub. assumption.
  - apply keep_CAppend; assumption.
  - apply keep_CMkSlice.
  - apply keep_CSliceFrom, H.
Qed.
Theorem reached_sound : forall g h vs, reached g h vs -> sound h vs.
Proof.
  induction 1 as [|h vs v H IH C|h vs c r h' H (T & I & V) C E].
  - exists (mkTyping [] []). split; [split; constructor|constructor].
  - destruct IH as (T & I & V). exists T. split; [exact I|]. constructor; [|exact V]. destruct v; cbn in C |- *; auto; contradiction.
  - assert (A : Forall (val_in T) (args_of c)) by (apply Forall_forall; intros x Hx; apply (proj1 (Forall_forall _ _) V), C, Hx).
    destruct (keep_does g T c A h I) as (T' & X & I' & Q). rewrite E in I', Q. exists T'. split; [exact I'|]. pose proof (vals_in_ext _ _ _ X V). destruct r as [v|]; [|assumption]. constructor; [apply Q; reflexivity|assumption].
Qed.
