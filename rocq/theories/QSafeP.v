(** Proofs for Property C76: the parts of the interpreter that do not evaluate code, and those that do given a safe evaluator. *)
From Coq Require Import String SpecFloat.
From Verif Require Import Base Token Grammar Compiler Interp QValue Qlang QlangSpec QText QSafe.
Local Open Scope Z_scope.

Section SafeP.
Context {W : Type}.
Variable L : qlib W.
Variable IW : W -> Prop.
Hypothesis HL : wf_lib L IW.
Notation St := (est nat value (@rest W)).
Notation Inv := (wf_state L IW).
Notation wfv := (wf_value L).
Notation wfp := (wf_panic L).
Notation wfr := (wf_arg L).
Notation Q := (@Q W).
Notation panicked := (panicked L IW).

(** ** Values *)
Lemma wf_slice : forall t l, wfv (VSlice t l) <-> Forall wfv l.
Proof. intros t l. cbn. induction l as [|x l IH]; [split; auto|]. rewrite Forall_cons_iff. rewrite <- IH. reflexivity. Qed.
Lemma wf_find : forall {A} (ok : A -> Prop) n l (v : A), Forall (fun e => ok (snd e)) l -> find n l = Some v -> ok v.
Proof. intros A ok n l v H. induction H as [|(k, x) l Hx Hl IH]; cbn; [discriminate|]. destruct (beq n k); [injection 1 as <-; exact Hx|exact IH]. Qed.
Lemma wf_filter : forall {A} (ok : A -> Prop) f l, Forall ok l -> Forall ok (filter f l).
Proof. intros A ok f l H. induction H; cbn; [constructor|]. destruct (f x); auto. Qed.
Lemma wf_set_key : forall {A} (ok : A -> Prop) n (v : A) l, ok v -> Forall (fun e => ok (snd e)) l -> Forall (fun e => ok (snd e)) (set_key n v l).
Proof. intros A ok n v l Hv H. constructor; [exact Hv|apply wf_filter, H]. Qed.
Lemma wf_nth : forall {A} (ok : A -> Prop) n l d, ok d -> Forall ok l -> ok (nth n l d).
Proof. intros A ok n l d Hd H. revert n. induction H; intros [|n]; cbn; auto. Qed.
Lemma wf_set_nth : forall {A} (ok : A -> Prop) n x l, ok x -> Forall ok l -> Forall ok (set_nth n x l).
Proof. intros A ok n x l Hx H. revert n. induction H; intros [|n]; cbn; constructor; auto. Qed.
Lemma wf_firstn : forall {A} (ok : A -> Prop) n l, Forall ok l -> Forall ok (firstn n l).
Proof. intros A ok n l H. revert n. induction H; intros [|n]; cbn; constructor; auto. Qed.
Lemma wf_skipn : forall {A} (ok : A -> Prop) n l, Forall ok l -> Forall ok (skipn n l).
Proof. intros A ok n l H. revert n. induction H; intros [|n]; cbn; auto. Qed.
Lemma wf_frame0 : wf_frame L frame0.
Proof. repeat split; cbn; auto. discriminate. Qed.
Lemma wf_wrap : forall ts e, wfp e -> wfp (wrap ts e).
Proof. intros ts [e| |[[]|[]|[]| |]]; cbn; auto. Qed.
Ltac triv := exact Logic.I || reflexivity.

(** operators *)
Definition op_ok (r : opres) : Prop := match r with inl v => wfv v | inr q => wfp (PUser q) end.
Ltac crush_op := intros; repeat match goal with |- context [match ?x with _ => _ end] => destruct x end; cbn; auto.

(** ** States *)
Lemma nth_set_nth : forall {A} (l : list A) i j x d, nth j (set_nth i x l) d = if ((i =? j)%nat && (j <? length l)%nat)%bool then x else nth j l d.
Proof.
  induction l as [|y l IH]; intros i j x d; cbn; [destruct i; cbn; destruct j; rewrite ?Bool.andb_false_r; reflexivity|].
  destruct i, j; cbn; try reflexivity. rewrite IH. reflexivity.
Qed.
Lemma set_nth_length : forall {A} (l : list A) i x, length (set_nth i x l) = length l.
Proof. induction l; intros [|i] x; cbn; congruence. Qed.
Lemma getf_updf : forall i f q (s : St), getf q (updf i f s) = if ((i =? q)%nat && (q <? nframes s)%nat)%bool then f (getf i s) else getf q s.
Proof. intros. exact (nth_set_nth (r_frames (e_rest s)) i q (f (getf i s)) frame0). Qed.
Lemma nframes_updf : forall i f (s : St), nframes (updf i f s) = nframes s.
Proof. intros. unfold nframes. cbn. apply set_nth_length. Qed.
Lemma inv_getf : forall s q, Inv s -> wf_frame L (getf q s).
Proof. intros s q (H & _). exact (wf_nth (wf_frame L) q (r_frames (e_rest s)) frame0 wf_frame0 H). Qed.
Lemma inv_updf : forall s q f, Inv s -> (wf_frame L (getf q s) -> wf_frame L (f (getf q s))) -> Inv (updf q f s).
Proof. intros s q f H Hf. pose proof (inv_getf s q H) as Hq. destruct H as (A & B & C & D). split; [|split; [|split]]; cbn; auto. apply (wf_set_nth (wf_frame L)); auto. Qed.
Lemma inv_stk : forall s l, Inv s -> Inv (set_stk l s).
Proof. intros s l H. exact H. Qed.
Lemma inv_var : forall s q n v, Inv s -> var_of q n s = Some v -> wfv v.
Proof. intros s q n v H. pose proof (inv_getf s q H) as (A & _). apply wf_find with (ok := wfv). exact A. Qed.
Lemma inv_val : forall s q n, Inv s -> wfv (val_or_nil (var_of q n s)).
Proof. intros s q n H. destruct (var_of q n s) eqn:E; cbn; [apply (inv_var _ _ _ _ H E)|triv]. Qed.

Lemma grown_refl : forall p (s : St), grown p s s.
Proof. split; auto. Qed.
Lemma grown_trans : forall p (s1 s2 s3 : St), grown p s1 s2 -> grown p s2 s3 -> grown p s1 s3.
Proof. intros p s1 s2 s3 (A & B) (C & D). split; [lia|]. intros q Hq Hp. rewrite D by (auto; lia). auto. Qed.
Lemma grown_weak : forall p (s1 s2 : St), grown None s1 s2 -> grown p s1 s2.
Proof. intros p s1 s2 (A & B). split; [exact A|]. intros q Hq _. apply B; [exact Hq|discriminate]. Qed.
Lemma grown_updf : forall p q f (s : St), (p = Some q \/ fr_base (f (getf q s)) = fr_base (getf q s)) -> grown p s (updf q f s).
Proof.
  intros p q f s H. split; [rewrite nframes_updf; lia|]. intros i Hi Hp. rewrite getf_updf. destruct (_ =? _)%nat eqn:E; cbn [andb]; [|reflexivity].
  apply Nat.eqb_eq in E. subst i. destruct (_ <? _)%nat; [|reflexivity]. destruct H as [->|H]; [congruence|exact H].
Qed.

(** ** Triples *)
(** From a state reached from [s0] that satisfies [P], frame [p] running above [st]: ends in such a state that satisfies [R], or panics
    without having touched [st]. *)
Definition ctx (p : nat) (st : list value) (s0 : St) : Prop := (p < nframes s0)%nat /\ (fr_base (getf p s0) <= length st)%nat.
Definition good (s0 s : St) : Prop := Inv s /\ grown None s0 s.
Definition ends {A} (p : nat) (st : list value) (s0 : St) (R : A -> St -> Prop) (r : qres A) : Prop :=
  match r with inl (x, s) => good s0 s /\ R x s | inr (e, s) => panicked p st s0 e s end.
Definition safe {A} (p : nat) (st : list value) (s0 : St) (m : Q A) (P : St -> Prop) (R : A -> St -> Prop) : Prop :=
  ctx p st s0 -> forall s, good s0 s -> P s -> ends p st s0 R (m s).
Definition at_ (l : list value) (s : St) : Prop := e_stk s = l.
Definition one {A} (l : list value) (_ : A) (s : St) : Prop := exists v, wfv v /\ at_ (v :: l) s.

Lemma over_length : forall st (s : St), over st s -> (length st <= length (e_stk s))%nat.
Proof. intros st s (l & ->). rewrite app_length. lia. Qed.
Lemma bad_intro : forall p st s0 s e, ctx p st s0 -> good s0 s -> over st s -> wfp e -> panicked p st s0 e s.
Proof.
  intros p st s0 s e (A & B) (C & D) E F. split; [exact C|]. split; [exact F|]. split; [apply grown_weak, D|]. split; [exact E|].
  rewrite (proj2 D p A) by discriminate. pose proof (over_length _ _ E). lia.
Qed.
Lemma at_over : forall st l (s : St), at_ (l ++ st) s -> over st s.
Proof. intros st l s H. exists l. exact H. Qed.

Lemma safe_ret : forall {A} p st s0 (x : A) P, safe p st s0 (ret x) P (fun y s => y = x /\ P s).
Proof. intros A p st s0 x P Hc s Hg HP. split; auto. Qed.
Lemma safe_ret' : forall {A} p st s0 (x : A) (P : St -> Prop) (R : A -> St -> Prop), (forall s, P s -> R x s) -> safe p st s0 (ret x) P R.
Proof. intros A p st s0 x P R H Hc s Hg HP. split; auto. Qed.
Lemma safe_bind : forall {A B} p st s0 (m : Q A) (k : A -> Q B) P M R, safe p st s0 m P M -> (forall x, safe p st s0 (k x) (M x) R) -> safe p st s0 (bind m k) P R.
Proof. intros A B p st s0 m k P M R Hm Hk Hc s Hg HP. unfold bind. specialize (Hm Hc s Hg HP). destruct (m s) as [(x, s')|(e, s')]; cbn in *; [|exact Hm]. destruct Hm. apply Hk; auto. Qed.
Lemma safe_bind_eq : forall {A B} p st s0 (m : Q A) (k : A -> Q B) P v (M : St -> Prop) R,
  safe p st s0 m P (fun x s => x = v /\ M s) -> safe p st s0 (k v) M R -> safe p st s0 (bind m k) P R.
Proof. intros A B p st s0 m k P v M R Hm Hk. eapply safe_bind; [exact Hm|]. intros x Hc s Hg (-> & HM). apply Hk; auto. Qed.
Lemma safe_conseq : forall {A} p st s0 (m : Q A) (P P' : St -> Prop) (R R' : A -> St -> Prop),
  safe p st s0 m P' R' -> (forall s, P s -> P' s) -> (forall x s, R' x s -> R x s) -> safe p st s0 m P R.
Proof. intros A p st s0 m P P' R R' H HP HR Hc s Hg Hs. specialize (H Hc s Hg (HP s Hs)). destruct (m s) as [(x, s')|(e, s')]; cbn in *; [|exact H]. destruct H; auto. Qed.
Lemma safe_ex : forall {A B} p st s0 (m : Q A) (P : B -> St -> Prop) R, (forall x, safe p st s0 m (P x) R) -> safe p st s0 m (fun s => exists x, P x s) R.
Proof. intros A B p st s0 m P R H Hc s Hg (x & Hx). exact (H x Hc s Hg Hx). Qed.
Lemma safe_and : forall {A} p st s0 (m : Q A) (X : Prop) (P : St -> Prop) R, (X -> safe p st s0 m P R) -> safe p st s0 m (fun s => X /\ P s) R.
Proof. intros A p st s0 m X P R H Hc s Hg (x & Hx). exact (H x Hc s Hg Hx). Qed.
Lemma safe_one : forall {A B} p st s0 l (x : B) (m : Q A) R, (forall v, wfv v -> safe p st s0 m (at_ (v :: l)) R) -> safe p st s0 m (one l x) R.
Proof. intros A B p st s0 l x m R H. apply safe_ex. intro v. apply safe_and. intro Hv. exact (H v Hv). Qed.
Lemma safe_up : forall {A} p l st s0 (m : Q A) P R, safe p (l ++ st) s0 m P R -> safe p st s0 m P R.
Proof.
  intros A p l st s0 m P R H (C1 & C2) s Hg HP. assert (C : ctx p (l ++ st) s0) by (split; [exact C1|rewrite app_length; lia]). specialize (H C s Hg HP).
  destruct (m s) as [(x, s')|(e, s')]; cbn in *; [exact H|]. destruct H as (H1 & H2 & H3 & (l' & H4) & H5). refine (conj H1 (conj H2 (conj H3 (conj _ H5)))). exists (l' ++ l). rewrite <- app_assoc. exact H4.
Qed.
Lemma safe_throw : forall {A} p st s0 e (P : St -> Prop) R, wfp e -> (forall s, P s -> over st s) -> safe p st s0 (throw (A := A) e) P R.
Proof. intros A p st s0 e P R He Ho Hc s Hg HP. cbn. apply bad_intro; auto. Qed.
Lemma safe_pstr : forall {A} p st s0 m vs (P : St -> Prop) R, stack_msg m = false -> (forall s, P s -> over st s) -> safe p st s0 (panic_str (A := A) m vs) P R.
Proof. intros. apply safe_throw; auto. Qed.
Lemma safe_crash : forall {A} p st s0 (P : St -> Prop) R, (forall s, P s -> over st s) -> safe p st s0 (crash (A := A)) P R.
Proof. intros. apply safe_throw; auto. triv. Qed.
Lemma safe_modify : forall p st s0 (f : St -> St) (P : St -> Prop) (R : unit -> St -> Prop),
  (forall s, good s0 s -> P s -> good s0 (f s) /\ R tt (f s)) -> safe p st s0 (modify f) P R.
Proof. intros p st s0 f P R H Hc s Hg HP. cbn. auto. Qed.
Lemma safe_push : forall p st s0 v l, safe p st s0 (push v) (at_ l) (fun _ => at_ (v :: l)).
Proof. intros p st s0 v l. apply safe_modify. intros s Hg Hs. split; [exact Hg|]. unfold at_ in *. cbn. congruence. Qed.
Lemma safe_push1 : forall p st s0 v l, wfv v -> safe p st s0 (push v) (at_ l) (one l).
Proof. intros p st s0 v l Hv. eapply (safe_conseq p st s0 (push v) (at_ l) (at_ l)); [apply safe_push|intros s H; exact H|]. intros x s H. exists v. auto. Qed.
Lemma safe_pop : forall p st s0 v l, safe p st s0 pop (at_ (v :: l)) (fun o s => o = Some v /\ at_ l s).
Proof. intros p st s0 v l Hc s Hg Hs. unfold pop, at_ in *. rewrite Hs. cbn. auto. Qed.
Lemma safe_pop_any : forall p st s0 v l, safe p st s0 pop_any (at_ (v :: l)) (fun o s => o = v /\ at_ l s).
Proof. intros p st s0 v l. unfold pop_any. eapply safe_bind_eq; [apply safe_pop|]. apply safe_ret. Qed.
Lemma safe_popArity : forall p st s0 z l, safe p st s0 popArity (at_ (VInt z :: l)) (fun o s => o = z /\ at_ l s).
Proof. intros p st s0 v l. unfold popArity. eapply safe_bind_eq; [apply safe_pop|]. apply safe_ret. Qed.
Lemma firstn_rev_app : forall {A} (xs l : list A), firstn (length xs) (rev xs ++ l) = rev xs.
Proof. intros. rewrite <- rev_length. rewrite firstn_app, firstn_all, Nat.sub_diag, firstn_O, app_nil_r. reflexivity. Qed.
Lemma skipn_rev_app : forall {A} (xs l : list A), skipn (length xs) (rev xs ++ l) = l.
Proof. intros. rewrite <- rev_length. rewrite skipn_app, skipn_all, Nat.sub_diag. reflexivity. Qed.
Lemma safe_popN : forall p st s0 a xs l, a = Z.of_nat (length xs) -> safe p st s0 (popNArgs a) (at_ (rev xs ++ l)) (fun o s => o = xs /\ at_ l s).
Proof.
  intros p st s0 a xs l -> Hc s Hg Hs. unfold popNArgs, at_ in *. rewrite Hs. rewrite app_length, rev_length.
  destruct (_ <=? _) eqn:E; [|apply Z.leb_gt in E; lia]. destruct (_ <? 0) eqn:E2; [apply Z.ltb_lt in E2; lia|]. rewrite Nat2Z.id, firstn_rev_app, skipn_rev_app, rev_involutive.
  cbn. auto.
Qed.
Lemma all_strs_map : forall ns, all_strs (map VStr ns) = Some ns.
Proof. induction ns as [|n ns IH]; cbn; [reflexivity|]. rewrite IH. reflexivity. Qed.
Lemma safe_popFn : forall p st s0 a ns l, a = Z.of_nat (length ns) -> safe p st s0 (popFnArgs a) (at_ (rev (map VStr ns) ++ l)) (fun o s => o = ns /\ at_ l s).
Proof.
  intros p st s0 a ns l -> Hc s Hg Hs. unfold popFnArgs, at_ in *. rewrite Hs. rewrite app_length, rev_length, map_length.
  destruct (_ <=? _) eqn:E; [|apply Z.leb_gt in E; lia]. destruct (_ <? 0) eqn:E2; [apply Z.ltb_lt in E2; lia|]. rewrite Nat2Z.id.
  rewrite <- (map_length VStr ns), firstn_rev_app, skipn_rev_app, rev_involutive, all_strs_map.
  cbn. auto.
Qed.
Lemma safe_gets : forall {A} p st s0 (f : St -> A) P, safe p st s0 (gets f) P (fun x s => x = f s /\ P s).
Proof. intros A p st s0 f P Hc s Hg HP. cbn. auto. Qed.
(** reading something that the invariant vouches for *)
Lemma safe_read : forall {A} p st s0 (f : St -> A) (ok : A -> Prop) P, (forall s, Inv s -> ok (f s)) -> safe p st s0 (gets f) P (fun x s => ok x /\ P s).
Proof. intros A p st s0 f ok P H Hc s Hg HP. cbn. split; [exact Hg|]. split; [apply H, Hg|exact HP]. Qed.
Lemma safe_updf : forall p st s0 q f l, (forall fr, wf_frame L fr -> wf_frame L (f fr)) -> (forall fr, fr_base (f fr) = fr_base fr) ->
  safe p st s0 (modify (updf q f)) (at_ l) (fun _ => at_ l).
Proof.
  intros p st s0 q f l H1 H2. apply safe_modify. intros s (A & B) Hs. split; [|exact Hs]. split; [apply inv_updf; auto|]. eapply grown_trans; [exact B|]. apply grown_updf. auto.
Qed.
Lemma safe_fresh : forall p st s0 l, safe p st s0 fresh_id (at_ l) (fun _ => at_ l).
Proof. intros p st s0 l Hc s Hg Hs. cbn. auto. Qed.
Lemma safe_lib : forall {A} p st s0 (f : W -> (A + pvq) * W) ok l, (forall w, IW w -> lib_gives L IW ok (f w)) -> safe p st s0 (libcall f) (at_ (l ++ st)) (fun x s => ok x /\ at_ (l ++ st) s).
Proof.
  intros A p st s0 f ok l H Hc s Hg Hs. unfold libcall. assert (Hw : IW (r_world (e_rest s))) by apply Hg. specialize (H _ Hw).
  destruct (f (r_world (e_rest s))) as ([x|q], w); destruct H as (H1 & H2); cbn in *.
  - split; [|auto]. destruct Hg as ((A1 & A2 & A3 & A4) & G). exact (conj (conj A1 (conj A2 (conj A3 H1))) G).
  - apply bad_intro; auto; [|exists l; exact Hs]. destruct Hg as ((A1 & A2 & A3 & A4) & G). exact (conj (conj A1 (conj A2 (conj A3 H1))) G).
Qed.
Lemma safe_blame : forall p st s0 ts m P R, safe p st s0 m P R -> safe p st s0 (blame ts m) P R.
Proof.
  intros p st s0 ts m P R H Hc s Hg HP. unfold blame. specialize (H Hc s Hg HP). destruct (m s) as [(x, s')|(e, s')]; cbn in *; [exact H|].
  destruct H as (A & B & C & D & E). exact (conj A (conj (wf_wrap ts e B) (conj C (conj D E)))).
Qed.
Lemma safe_raise : forall p st s0 (m : Q (option qerr)) P R, safe p st s0 m P (fun r s => match r with None => R tt s | Some e => wfp (PUser (PvErr e)) /\ over st s end) -> safe p st s0 (raise m) P R.
Proof. intros p st s0 m P R H. unfold raise. eapply safe_bind; [exact H|]. intros [e|]; [apply safe_and; intro He; apply safe_throw; auto|apply safe_ret'; auto]. Qed.
Lemma safe_of_op : forall p st s0 r (P : St -> Prop), op_ok r -> (forall s, P s -> over st s) -> safe p st s0 (of_op r) P (fun v s => wfv v /\ P s).
Proof. intros p st s0 [v|q] P H Ho; cbn in *; [apply safe_ret'; auto|apply safe_throw; auto]. Qed.
(** an error result, or a value left *)
Definition left_ (st : list value) (r : option qerr) (s : St) : Prop := match r with None => one st tt s | Some e => wfp (PUser (PvErr e)) /\ over st s end.
Lemma safe_puts_none : forall p st s0 l v, wfv v -> safe p st s0 (push v ;;; ret None) (at_ l) (left_ l).
Proof. intros p st s0 l v Hv. eapply safe_bind; [apply safe_push1, Hv|]. intros []. apply safe_ret'. auto. Qed.
Lemma safe_err : forall p st s0 (P : St -> Prop) e, wfp (PUser (PvErr e)) -> (forall s, P s -> over st s) -> safe p st s0 (ret (Some e)) P (left_ st).
Proof. intros. apply safe_ret'. intros s X. split; auto.  Qed.

(** ** Operators *)
Lemma ok_Inc : forall a, op_ok (Inc a). Proof. unfold Inc. crush_op. Qed.
Lemma ok_Dec : forall a, op_ok (Dec a). Proof. unfold Dec. crush_op. Qed.
Lemma ok_Neg : forall a, op_ok (Neg a). Proof. unfold Neg. crush_op. Qed.
Lemma ok_Not : forall a, op_ok (Not a). Proof. unfold Not. crush_op. Qed.
Lemma ok_Mul : forall a b, op_ok (Mul a b). Proof. unfold Mul. crush_op. Qed.
Lemma ok_Quo : forall a b, op_ok (Quo a b). Proof. unfold Quo. crush_op. Qed.
Lemma ok_Mod : forall a b, op_ok (Mod a b). Proof. unfold Mod. crush_op. Qed.
Lemma ok_Add : forall a b, op_ok (Add a b). Proof. unfold Add. crush_op. Qed.
Lemma ok_Sub : forall a b, op_ok (Sub a b). Proof. unfold Sub. crush_op. Qed.
Lemma ok_LT : forall a b, op_ok (LT a b). Proof. unfold LT. crush_op. Qed.
Lemma ok_GT : forall a b, op_ok (GT a b). Proof. unfold GT. crush_op. Qed.
Lemma ok_LE : forall a b, op_ok (LE a b). Proof. unfold LE. crush_op. Qed.
Lemma ok_GE : forall a b, op_ok (GE a b). Proof. unfold GE. crush_op. Qed.
Lemma ok_EQ : forall f a b, op_ok (EQ f a b). Proof. unfold EQ. crush_op. Qed.
Lemma ok_NE : forall f a b, op_ok (NE f a b). Proof. intros. unfold NE. pose proof (ok_EQ f a b) as H. destruct (EQ f a b) as [[]|]; exact H || triv. Qed.
Lemma ok_level1 : forall k m f, In (k, m, f) level1 -> forall a b, op_ok (f a b).
Proof. intros k m f H a b. cbn in H. repeat destruct H as [[= _ _ <-]|H]; auto using ok_Mul, ok_Quo, ok_Mod. destruct H. Qed.
Lemma ok_level2 : forall k m f, In (k, m, f) level2 -> forall a b, op_ok (f a b).
Proof. intros k m f H a b. cbn in H. repeat destruct H as [[= _ _ <-]|H]; auto using ok_Add, ok_Sub. destruct H. Qed.
Lemma ok_level3 : forall k m f, In (k, m, f) (level3 L) -> forall a b, op_ok (f a b).
Proof. intros k m f H a b. cbn in H. repeat destruct H as [[= _ _ <-]|H]; auto using ok_LT, ok_GT, ok_LE, ok_GE, ok_EQ, ok_NE. destruct H. Qed.
Lemma ok_assign : forall k f, In (k, f) assign_ops -> forall a b, op_ok (f a b).
Proof. intros k f H a b. cbn in H. repeat destruct H as [[= _ <-]|H]; auto using ok_Add, ok_Sub, ok_Mul, ok_Quo, ok_Mod. destruct H. Qed.
Lemma ok_incdec : forall k f, In (k, f) incdec_ops -> forall a, op_ok (f a).
Proof. intros k f H a. cbn in H. repeat destruct H as [[= _ <-]|H]; auto using ok_Inc, ok_Dec. destruct H. Qed.
Lemma safe_unary : forall p st s0 m f x, (forall a, op_ok (f a)) -> safe p st s0 (unary m f) (at_ (x :: st)) (one st).
Proof.
  intros p st s0 m f x Hf Hc s Hg Hs. unfold unary, at_ in *. rewrite Hs. refine (safe_bind p st s0 _ _ (at_ st) (fun v s => wfv v /\ at_ st s) _ _ _ Hc (set_stk st s) Hg eq_refl).
  - apply safe_of_op; [apply Hf|]. intros s' H. exists []. exact H.
  - intro v. apply safe_and. intro Hv. apply safe_push1, Hv.
Qed.
Lemma safe_binary : forall p st s0 m f x y, (forall a b, op_ok (f a b)) -> safe p st s0 (binary m f) (at_ (y :: x :: st)) (one st).
Proof.
  intros p st s0 m f x y Hf Hc s Hg Hs. unfold binary, at_ in *. rewrite Hs. refine (safe_bind p st s0 _ _ (at_ st) (fun v s => wfv v /\ at_ st s) _ _ _ Hc (set_stk st s) Hg eq_refl).
  - apply safe_of_op; [apply Hf|]. intros s' H. exists []. exact H.
  - intro v. apply safe_and. intro Hv. apply safe_push1, Hv.
Qed.

(** ** Variables *)
Ltac over_ := let s := fresh in let H := fresh in intros s H; cbn beta in H; unfold at_ in H; first [exists []; exact H | eexists [_]; exact H | eexists [_; _]; exact H | eexists; exact H].
Lemma over_at : forall st s, at_ st s -> over st s.
Proof. intros st s H. exists []. exact H. Qed.
Lemma over_at1 : forall v st s, at_ (v :: st) s -> over st s.
Proof. intros v st s H. exists [v]. exact H. Qed.
Lemma safe_setvar : forall p st s0 q n v l, wfv v -> safe p st s0 (set_var q n v) (at_ l) (fun _ => at_ l).
Proof. intros p st s0 q n v l Hv. apply safe_updf; [|reflexivity]. intros fr (A & B & C & D). split; [|auto]. cbn. apply (wf_set_key wfv); auto. Qed.
Lemma safe_unset : forall p st s0 q n l, safe p st s0 (Unset q n) (at_ l) (fun _ => at_ l).
Proof. intros p st s0 q n l. apply safe_updf; [|reflexivity]. intros fr (A & B & C & D). split; [|auto]. cbn. apply wf_filter; auto. Qed.
Lemma safe_getVar : forall p st s0 q n l, safe p st s0 (getVar q n) (at_ (l ++ st)) (fun fv s => wfv (snd fv) /\ at_ (l ++ st) s).
Proof.
  intros p st s0 q n l Hc s Hg Hs. unfold getVar. destruct (var_of q n s) as [v|] eqn:E; [|apply bad_intro; auto; [exists l; exact Hs|triv]].
  assert (X : ends p st s0 (fun fv s => wfv (snd fv) /\ at_ (l ++ st) s) (inl ((q, v), s))) by (split; [exact Hg|split; [exact (inv_var _ _ _ _ (proj1 Hg) E)|exact Hs]]).
  destruct v; try exact X. split; [exact Hg|split; [exact (inv_val _ _ _ (proj1 Hg))|exact Hs]].
Qed.
Lemma safe_getVars : forall p st s0 q n l, safe p st s0 (getVars q n) (at_ (l ++ st)) (fun _ => at_ (l ++ st)).
Proof.
  intros p st s0 q n l Hc s Hg Hs. unfold getVars.
  assert (X : forall i, ends p st s0 (fun _ => at_ (l ++ st)) (inl (i : nat, s))) by (intro; split; [exact Hg|exact Hs]).
  assert (Y : forall e, wfp e -> ends (A := nat) p st s0 (fun _ => at_ (l ++ st)) (inr (e, s))) by (intros; apply bad_intro; auto; exists l; exact Hs).
  destruct (var_of q n s) as [[]|]; try apply X. destruct (inherits n) as [[]|]; try apply X; [|apply Y; triv]. destruct (outer q n s); [apply Y; triv|apply X].
Qed.
Lemma find_outer_wf : forall m t n s i v, Inv s -> find_outer m t n s = Some (i, v) -> wfv v.
Proof.
  induction m as [|m IH]; intros [t|] n s i v H; cbn; try discriminate. destruct (var_of t n s) eqn:E; [|apply IH, H]. injection 1 as <- <-. exact (inv_var _ _ _ _ H E).
Qed.
Lemma safe_getRef : forall p st s0 q n l, safe p st s0 (getRef L q n) (at_ (l ++ st)) (fun v s => wfv v /\ at_ (l ++ st) s).
Proof.
  intros p st s0 q n l Hc s Hg Hs. unfold getRef.
  assert (X : forall v, wfv v -> ends p st s0 (fun v s => wfv v /\ at_ (l ++ st) s) (inl (v, s))) by (intros; split; [exact Hg|split; [assumption|exact Hs]]).
  assert (Y : forall e, wfp e -> ends (A := value) p st s0 (fun v s => wfv v /\ at_ (l ++ st) s) (inr (e, s))) by (intros; apply bad_intro; auto; exists l; exact Hs).
  destruct (beq n n_unset); [apply X; triv|].
  assert (T : ends (A := value) p st s0 (fun v s => wfv v /\ at_ (l ++ st) s) (match l_fnval L n with Some v => inl (v, s) | None => inr (PUser (msg m_nosym [VStr n]), s) end)).
  { destruct (l_fnval L n) eqn:E; [apply X; exact (proj1 HL _ _ E)|apply Y; triv]. }
  destruct (var_of q n s) as [v|] eqn:E.
  - pose proof (inv_var _ _ _ _ (proj1 Hg) E). destruct v; try (apply X; assumption). apply X, inv_val, Hg.
  - destruct (inherits n) as [[]|]; [|exact T|apply Y; triv]. destruct (outer q n s) as [(t, v)|] eqn:Eo; [|exact T].
    assert (Z : forall i w, wfv w -> ends p st s0 (fun v s => wfv v /\ at_ (l ++ st) s) (match set_var q n (VExtern i) s with inl (_, s') => inl (w, s') | inr r => inr r end)).
    { intros i w Hw. pose proof (safe_setvar p st s0 q n (VExtern i) (l ++ st) Logic.I Hc s Hg Hs) as B. destruct (set_var q n (VExtern i) s) as [(x, s')|(e, s')]; [|exact B]. destruct B. split; auto. }
    assert (Hv : wfv v) by exact (find_outer_wf _ _ _ _ _ _ (proj1 Hg) Eo). destruct v; try (apply Z; exact Hv). apply Z, inv_val, Hg.
Qed.
Lemma safe_Ref : forall p st s0 q n, safe p st s0 (Ref L q n) (at_ st) (one st).
Proof. intros. unfold Ref. eapply safe_bind; [apply (safe_getRef p st s0 q n [])|]. intro v. apply safe_and. intro Hv. apply safe_push1, Hv. Qed.
Lemma safe_IncDec : forall p st s0 f q n, (forall a, op_ok (f a)) -> safe p st s0 (IncDec f q n) (at_ st) (left_ st).
Proof.
  intros p st s0 f q n Hf. unfold IncDec. eapply safe_bind; [apply (safe_getVar p st s0 q n [])|]. intros fv. apply safe_and. intro Hv.
  eapply safe_bind; [apply safe_of_op; [apply Hf|apply over_at]|]. intro v. apply safe_and. intro Hv'. eapply safe_bind; [apply safe_setvar, Hv'|]. intros ?. apply safe_puts_none, Hv'.
Qed.
Lemma safe_OpAssign : forall p st s0 f q n x, (forall a b, op_ok (f a b)) -> safe p st s0 (OpAssign f q n) (at_ (x :: st)) (left_ st).
Proof.
  intros p st s0 f q n x Hf. unfold OpAssign. eapply safe_bind; [apply (safe_getVar p st s0 q n [x])|]. intros fv. apply safe_and. intro Hv. eapply safe_bind_eq; [apply safe_pop|]. cbn.
  eapply safe_bind; [apply safe_of_op; [apply Hf|apply over_at]|]. intro v. apply safe_and. intro Hv'. eapply safe_bind; [apply safe_setvar, Hv'|]. intros ?. apply safe_puts_none, Hv'.
Qed.
Lemma safe_Assign : forall p st s0 q n x, wfv x -> safe p st s0 (Assign q n) (at_ (x :: st)) (left_ st).
Proof.
  intros p st s0 q n x Hx. unfold Assign. eapply safe_bind; [apply (safe_getVars p st s0 q n [x])|]. intro i. eapply safe_bind_eq; [apply safe_pop|]. cbn.
  eapply safe_bind; [apply safe_setvar, Hx|]. intros ?. apply safe_puts_none, Hx.
Qed.
Lemma safe_assign_all : forall p st s0 q l, Forall (fun e => wfv (snd e)) l -> safe p st s0 (assign_all q l) (at_ st) (fun _ => at_ st).
Proof.
  intros p st s0 q l H. induction H as [|(n, v) l Hv Hl IH]; cbn [assign_all]; [apply safe_ret'; auto|].
  eapply safe_bind; [apply (safe_getVars p st s0 q n [])|]. intro i. eapply safe_bind; [apply safe_setvar, Hv|]. intros ?. exact IH.
Qed.
Lemma elems_wf : forall v l, wfv v -> elems_of v = Some l -> Forall wfv l.
Proof. intros v l Hv H. destruct v; cbn in H; try discriminate; [|destruct Hv]. injection H as <-. apply (wf_slice t), Hv. Qed.
Lemma safe_MultiAssign : forall p st s0 q ns x, wfv x -> ns <> [] -> safe p st s0 (MultiAssign q) (at_ (x :: VInt (Z.of_nat (length ns) - 1) :: rev (map VStr ns) ++ st)) (left_ st).
Proof.
  intros p st s0 q ns x Hx Hn. unfold MultiAssign. eapply safe_bind_eq; [apply safe_pop|]. cbn. destruct (elems_of x) as [l|] eqn:E.
  - eapply safe_bind_eq; [apply safe_popArity|]. cbn beta. rewrite Z.sub_simpl_r. destruct (_ =? _) eqn:El; cbn [negb].
    + eapply safe_bind_eq; [apply safe_popFn; reflexivity|]. eapply safe_bind; [apply safe_assign_all|intros ?; apply safe_puts_none, Hx].
      pose proof (elems_wf _ _ Hx E) as Hl. clear Hn El E. revert ns. induction Hl; intros [|n ns]; cbn; constructor; auto.
    + apply safe_err; [triv|]. intros s H. eexists. exact H.
  - apply safe_err; [triv|]. intros s H. exists (VInt (Z.of_nat (length ns) - 1) :: rev (map VStr ns)). exact H.
Qed.

(** ** Literals, members, indices *)
Lemma safe_int_lit : forall p st s0 t, safe p st s0 (int_lit t) (at_ st) (one st).
Proof. intros. unfold int_lit. destruct (ParseInt (tlit t)) as [[z|e]|]; [apply safe_push1; triv| |apply safe_crash, over_at]. apply safe_throw; [triv|apply over_at]. Qed.
Lemma safe_float_lit : forall p st s0 t, safe p st s0 (float_lit L t) (at_ st) (one st).
Proof. intros. unfold float_lit. destruct (ParseFloat _ _ (tlit t)) as [[z|e]|]; [apply safe_push1; triv| |apply safe_crash, over_at]. apply safe_throw; [triv|apply over_at]. Qed.
Lemma safe_PushString : forall p st s0 b, safe p st s0 (PushString L b) (at_ st) (one st).
Proof. intros. unfold PushString. destruct (l_unquote L b); [apply safe_push1; triv|(apply safe_pstr; [reflexivity|apply over_at])]. Qed.
Lemma safe_PushByte : forall p st s0 b, safe p st s0 (PushByte L b) (at_ st) (one st).
Proof.
  intros. unfold PushByte. destruct (_ <? 2)%nat; [apply safe_crash, over_at|]. destruct (l_unquote_char L _) as [((c, []), [|])|]; try (apply safe_pstr; [reflexivity|apply over_at]). apply safe_push1; triv.
Qed.
Lemma safe_MemberRef : forall p st s0 n x, wfv x -> safe p st s0 (MemberRef L n) (at_ (x :: st)) (left_ st).
Proof.
  intros p st s0 n x Hx. unfold MemberRef. eapply safe_bind_eq; [apply safe_pop|]. cbn beta iota.
  assert (X : safe p st s0 (r <-- libcall (l_member L x n) ;; match r with inl y => push y ;;; ret None | inr e => ret (Some e) end) (at_ st) (left_ st)).
  { eapply safe_bind; [apply (safe_lib p st s0 _ (fun r => match r with inl y => wfv y | inr e => wfp (PUser (PvErr e)) end) []); intros w Hw; apply (proj1 (proj2 (proj2 HL)) x n w Hx Hw)|]. intros [y|e]; cbn beta; apply safe_and; intro H; [apply safe_puts_none; auto|apply safe_err; [exact H|apply over_at]]. }
  destruct x; try exact X.
  - destruct (find n (c_fns c)) eqn:E; [|apply safe_err; [triv|apply over_at]]. apply safe_puts_none. cbn in *. exact (wf_find (fun f => wf_body L (f_body f)) _ _ _ Hx E).
  - eapply safe_bind; [apply (safe_read p st s0 _ (Forall (fun e => wfv (snd e))))|].
    { intros s H. apply (wf_nth (Forall (fun e => wfv (snd e)))); [constructor|apply H]. }
    intro vars. apply safe_and. intro Hvars. destruct (find n vars) as [v|] eqn:E; [apply safe_puts_none; exact (wf_find wfv _ _ _ Hvars E)|].
    destruct (find n (c_fns c)) as [f|] eqn:Ef; [|apply safe_err; [triv|apply over_at]]. eapply safe_bind; [apply safe_fresh|]. intro i. apply safe_puts_none. cbn in *. split; [exact Hx|]. exact (wf_find (fun f => wf_body L (f_body f)) _ _ _ Hx Ef).
Qed.
Lemma safe_Get : forall p st s0 m k, wfv m -> wfv k -> safe p st s0 (Get L m k) (at_ st) (fun v s => wfv v /\ at_ st s).
Proof.
  intros p st s0 m k Hm Hk. unfold Get.
  assert (X : safe p st s0 (libcall (l_getIndex L m k)) (at_ st) (fun v s => wfv v /\ at_ st s)) by (apply (safe_lib p st s0 _ wfv []); intros w Hw; apply (proj1 (proj2 (proj2 (proj2 (proj2 HL)))) m k w Hm Hk Hw)).
  destruct m; try exact X; try (apply safe_crash, over_at).
  - destruct k; try (apply safe_crash, over_at). destruct (_ && _)%bool; [|apply safe_crash, over_at]. apply safe_ret'. intros s H. split; [triv|exact H].
  - destruct k; try (apply safe_crash, over_at). destruct (_ && _)%bool; [|apply safe_crash, over_at]. apply safe_ret'. intros s H. split; [|exact H]. apply wf_nth; [triv|]. apply (wf_slice t), Hm.
Qed.
Lemma safe_Index : forall p st s0 x i j n m r, wfv x -> Forall wfv i -> Forall wfv j -> length i = n -> length j = m -> (n <= 1)%nat -> (m <= 1)%nat ->
  safe p st s0 (Index L) (at_ (VInt (Z.of_nat m) :: rev j ++ VInt (Z.of_nat r) :: VInt (Z.of_nat n) :: rev i ++ x :: st)) (one st).
Proof.
  intros p st s0 x i j n m r Hx Hi Hj Hn Hm Ln Lm. unfold Index. eapply safe_bind_eq; [apply safe_popArity|]. cbn beta.
  eapply (safe_bind p st s0 _ _ _ (fun v s => wfv v /\ at_ (VInt (Z.of_nat r) :: VInt (Z.of_nat n) :: rev i ++ x :: st) s)).
  { destruct j as [|y [|]]; cbn in Hm, Lm; subst m; [| |cbn in Lm; lia]; cbn [length Z.of_nat Z.eqb].
    - apply safe_ret'. intros s H. split; [triv|exact H].
    - cbn [rev app]. eapply safe_conseq; [apply safe_pop_any|intros s H; exact H|]. intros v s (-> & H). split; [inversion Hj; assumption|exact H]. }
  intro v. apply safe_and. intro Hv. eapply safe_bind_eq; [apply safe_popArity|]. eapply safe_bind_eq; [apply safe_popArity|]. cbn beta.
  eapply safe_bind_eq. { replace (rev i ++ x :: st) with (rev (x :: i) ++ st) by (cbn [rev]; rewrite <- app_assoc; reflexivity). apply safe_popN. cbn [length]. lia. }
  destruct i as [|y [|]]; cbn [length] in Hn; subst n; [| |lia]; cbn [length nth].
  - destruct (_ =? 0); [(apply safe_pstr; [reflexivity|apply over_at])|]. cbn [Z.of_nat Z.eqb]. eapply safe_bind; [apply (safe_lib p st s0 _ wfv []); intros w Hw; apply (proj2 (proj2 (proj2 (proj2 (proj2 HL)))) x VNil v w Hx Logic.I Hv Hw)|].
    intro u. apply safe_and. intro Hu. apply safe_push1, Hu.
  - assert (Hy : wfv y) by (inversion Hi; assumption). destruct (_ =? 0).
    + cbn. eapply safe_bind; [apply safe_Get; assumption|]. intro u. apply safe_and. intro Hu. apply safe_push1, Hu.
    + cbn [Z.of_nat Z.eqb]. eapply safe_bind; [apply (safe_lib p st s0 _ wfv []); intros w Hw; apply (proj2 (proj2 (proj2 (proj2 (proj2 HL)))) x y v w Hx Hy Hv Hw)|].
      intro u. apply safe_and. intro Hu. apply safe_push1, Hu.
Qed.
End SafeP.
