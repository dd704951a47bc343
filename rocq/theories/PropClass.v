(** Properties C72 and C73: SafeExec, and classes, objects and calls as programs make them. *)
From Coq Require Import String SpecFloat.
From Verif Require Import Base Token Scanner Grammar Compiler Interp QValue PropValue PropScan Qlang QlangSpec QlangTop QlangEx PropCtrl PropVars PropCall.
Local Open Scope Z_scope.

Lemma bytes_spec : forall a b, reflect (a = b) (beq a b).
Proof. intros a b. destruct (beq a b) eqn:E; [apply ReflectT; apply beq_eq; exact E|apply ReflectF; intros ->; rewrite beq_refl in E; discriminate E]. Qed.

(** ** Calls *)
Section Class.
Context {W : Type}.
Variable L : qlib W.
Variable ev : nat -> bytes -> value -> @Q W (option panicq).
Notation St := (est nat value (@rest W)).
Implicit Types s : St.

(** how a program's call ends: with the value on the stack the call was made on, or with the panic *)
Definition call_result (r : @qres W value) : @qres W (option qerr) :=
  match r with inl (v, s1) => inl (None, pushed v s1) | inr (e, s1) => inr (e, s1) end.
Definition count (l : list value) : value := VInt (Z.of_nat (length l)).
(** the stack at a call f(a1, ..., an): f, the arguments, their number and whether the last is followed by ... *)
Definition at_call (f : value) (args : list value) (dots : bool) (s : St) : St :=
  pushed_all (f :: args ++ [count args; VInt (if dots then 1 else 0)]) s.
Lemma rev_call : forall f args x y (l : list value), rev (f :: args ++ [x; y]) ++ l = y :: x :: rev args ++ f :: l.
Proof. intros f args x y l. cbn [rev]. rewrite rev_app_distr. cbn. rewrite <- !app_assoc. reflexivity. Qed.
Lemma set_stk2 : forall l l' s, set_stk l (set_stk l' s) = set_stk l s.
Proof. reflexivity. Qed.
Lemma set_stk_same : forall s, set_stk (e_stk s) s = s.
Proof. intros [m i l r]. reflexivity. Qed.
Lemma pop_pushed : forall A (k : option value -> @Q W A) v s, bind pop k (pushed v s) = k (Some v) s.
Proof. intros A k v [m i l r]. reflexivity. Qed.
Lemma bind_gets : forall A B (g : St -> B) (k : B -> @Q W A) s, bind (gets g) k s = k (g s) s.
Proof. reflexivity. Qed.
Lemma first_args : forall (args l : list value), firstn (length args) (rev args ++ l) = rev args /\ skipn (length args) (rev args ++ l) = l.
Proof.
  intros args l. rewrite <- (rev_length args). rewrite firstn_app, firstn_all, Nat.sub_diag, firstn_O, app_nil_r, skipn_app, skipn_all, Nat.sub_diag. auto.
Qed.
(** popping the function and [n] arguments *)
Lemma pop_args : forall (f : value) args (l : list value), PopArgs emb (Z.of_nat (length args) + 1) (rev args ++ f :: l) = Val (Some (emb f :: map emb args, l)).
Proof.
  intros f args l. unfold PopArgs. assert (length (rev args ++ f :: l) = S (length args + length l)) as -> by (rewrite app_length, rev_length; cbn; lia).
  destruct (Z.leb_spec (Z.of_nat (length args) + 1) (Z.of_nat (S (length args + length l)))); [|lia].
  destruct (Z.ltb_spec (Z.of_nat (length args) + 1) 0); [lia|]. replace (Z.to_nat (Z.of_nat (length args) + 1)) with (length (rev args ++ [f])) by (rewrite app_length, rev_length; cbn; lia).
  assert (rev args ++ f :: l = (rev args ++ [f]) ++ l) as -> by (rewrite <- app_assoc; reflexivity).
  rewrite firstn_app, firstn_all, Nat.sub_diag, firstn_O, app_nil_r, skipn_app, skipn_all, Nat.sub_diag. cbn [skipn app].
  rewrite map_app, rev_app_distr. cbn [map rev app]. rewrite map_rev, rev_involutive. reflexivity.
Qed.
(** validated arguments of interface type are themselves *)
Lemma validate_any : forall args, exists vs, validate q_to_float (map (fun v => (v, typeAny)) (map emb args)) = Val (inl vs) /\ map unemb vs = args.
Proof.
  induction args as [|v args (vs & E & M)]; [exists []; auto|]. cbn [map validate]. rewrite E. cbn. eexists. split; [reflexivity|]. cbn [map]. rewrite M. f_equal. destruct v; reflexivity.
Qed.
Lemma unemb_any : forall v, map unemb (any_out v) = [v].
Proof. intro v. destruct v; reflexivity. Qed.
Lemma pushret_any : forall v l, q_pushret (any_out v) l = (v :: l, None).
Proof. intros v l. destruct v; reflexivity. Qed.
(** a call of a value whose Call method is [c] *)
Lemma vcall_fn : forall fv c args s, as_fn L ev (emb fv) = Some (variadic_fn c) ->
  lift_call (Interp.VCall emb q_pushret q_to_float (as_fn L ev) (Z.of_nat (length args))) (set_stk (rev args ++ fv :: e_stk s) s) = call_result (c args s).
Proof.
  intros fv c args s H. unfold lift_call, VCall. cbn [e_stk set_stk]. rewrite pop_args. rewrite set_stk2, set_stk_same. rewrite H.
  unfold count_err. cbn [variadic_fn fn_variadic fn_in length]. destruct (Z.ltb_spec (Z.of_nat (length args)) (Z.of_nat 1 - 1)); [lia|].
  unfold validateArgs. cbn [length Nat.sub skipn firstn last combine validate]. destruct (validate_any args) as (vs & E & M). rewrite E. cbn [app].
  unfold apply_fn, variadic_fn. cbn [fn_call]. unfold run. rewrite M. destruct (c args s) as [(v, s1)|(e, s1)]; [|reflexivity]. rewrite pushret_any. reflexivity.
Qed.
Lemma q_vcall : forall fv args s, QVCall L ev (at_call fv args false s) =
  lift_call (Interp.VCall emb q_pushret q_to_float (as_fn L ev) (Z.of_nat (length args))) (set_stk (rev args ++ fv :: e_stk s) s).
Proof. intros fv args s. unfold at_call, pushed_all. rewrite rev_call. reflexivity. Qed.
(** f(a1, ..., an) calls the function with these arguments, the stack being as it was before they were pushed; its value is left on that stack. *)
Theorem C55_program_call : forall f args s, QVCall L ev (at_call (VFunc f) args false s) = call_result (FnCall ev f args s).
Proof. intros f args s. rewrite q_vcall. apply vcall_fn. reflexivity. Qed.
(** f(a1, ..., an, b...) calls it with the elements of the slice b in place of b; when b is no slice, it panics and nothing is called. *)
Lemma push_all_eq : forall l s, push_all l s = inl (tt, pushed_all l s).
Proof.
  induction l as [|v l IH]; intro s; [unfold pushed_all; cbn; rewrite set_stk_same; reflexivity|]. cbn [push_all]. unfold bind, push, modify. rewrite IH.
  unfold pushed_all. cbn [e_stk set_stk rev]. rewrite <- app_assoc. reflexivity.
Qed.
Theorem C55_spread : forall f args b l s, elems_of b = Some l -> QVCall L ev (at_call (VFunc f) (args ++ [b]) true s) = call_result (FnCall ev f (args ++ l) s).
Proof.
  intros f args b l s H. transitivity (lift_call (Interp.VCall emb q_pushret q_to_float (as_fn L ev) (Z.of_nat (length (args ++ l)))) (set_stk (rev (args ++ l) ++ VFunc f :: e_stk s) s)); [|apply vcall_fn; reflexivity].
  unfold at_call, pushed_all. rewrite rev_call. unfold QVCall, bind, popArity, pop, bind, ret. cbn [e_stk set_stk count]. cbn -[Z.of_nat elems_of lift_call push_all].
  destruct (Z.eqb_spec (Z.of_nat (length (args ++ [b]))) 0) as [E|E]; [rewrite app_length in E; cbn in E; lia|].
  rewrite rev_app_distr. cbn -[Z.of_nat elems_of lift_call push_all]. rewrite H, push_all_eq. unfold pushed_all. cbn [e_stk set_stk]. 
  rewrite rev_app_distr, <- app_assoc. rewrite set_stk2. f_equal. f_equal. rewrite !app_length. cbn. lia.
Qed.
Theorem C55_spread_no_slice : forall fv args b s, elems_of b = None -> exists s', QVCall L ev (at_call fv (args ++ [b]) true s) = inr (PUser (msg m_dotsnon []), s').
Proof.
  intros fv args b s H. unfold at_call, pushed_all. rewrite rev_call. unfold QVCall, bind, popArity, pop, bind, ret. cbn [e_stk set_stk count]. cbn -[Z.of_nat elems_of lift_call push_all].
  destruct (Z.eqb_spec (Z.of_nat (length (args ++ [b]))) 0) as [E|E]; [rewrite app_length in E; cbn in E; lia|].
  rewrite rev_app_distr. cbn -[Z.of_nat elems_of lift_call push_all]. rewrite H. eexists. reflexivity.
Qed.

(** ** Objects *)
Definition objects (s : St) : nat := length (r_objs (e_rest s)).
(** the variable [n] of object [o] *)
Definition ovar (o : nat) (n : bytes) (s : St) : option value := find n (nth o (r_objs (e_rest s)) []).
(** [s'] is [s] with one object more, number [o], which has no variables *)
Definition one_more (o : nat) (s s' : St) : Prop :=
  o = objects s /\ objects s' = S (objects s) /\ (forall n, ovar o n s' = None) /\ (forall o' n, ovar o' n s' = ovar o' n s) /\
  e_stk s' = e_stk s /\ e_mute s' = e_mute s /\ e_ipt s' = e_ipt s /\ r_frames (e_rest s') = r_frames (e_rest s) /\ r_ids (e_rest s') = r_ids (e_rest s) /\
  r_excs (e_rest s') = r_excs (e_rest s) /\ r_world (e_rest s') = r_world (e_rest s).
Lemma one_more_new : forall s, one_more (objects s) s (with_objs (r_objs (e_rest s) ++ [[]]) s).
Proof.
  intros s. unfold one_more, objects, ovar. cbn. rewrite app_length. cbn. split; [reflexivity|]. split; [lia|].
  split; [intro n; rewrite app_nth2, Nat.sub_diag by lia; reflexivity|]. split; [|repeat split]. intros o n.
  destruct (Nat.lt_ge_cases o (length (r_objs (e_rest s)))) as [H|H]; [rewrite app_nth1 by exact H; reflexivity|]. rewrite app_nth2 by exact H. rewrite (nth_overflow (r_objs (e_rest s))) by exact H.
  destruct (o - length (r_objs (e_rest s)))%nat as [|[|k]]; reflexivity.
Qed.
(** the stack at new C(a1, ..., an) and at new C *)
Definition at_new (c : value) (args : list value) (s : St) : St := pushed_all (c :: args ++ [count args; VInt 1]) s.
Definition at_new0 (c : value) (s : St) : St := pushed_all [c; VInt 0] s.
(** how the object comes out: its constructor, if the class has one, is called with the object before the arguments *)
Definition new_result (c : class) (args : list value) (s0 : St) (o : nat) : @qres W (option qerr) :=
  match find (s2b "_init") (c_fns c) with
  | None => inl (None, pushed (VObj o c) s0)
  | Some f => match FnCall ev f (VObj o c :: args) s0 with inl (_, s1) => inl (None, pushed (VObj o c) s1) | inr r => inr r end
  end.
(** new C(a1, ..., an) makes an object that did not exist, without variables, and leaves it on the stack when the constructor has returned, whatever that returned. *)
Theorem C73_new : forall p c args s, exists o s0, one_more o s s0 /\
  New ev p (at_new (VClass c) args s) = new_result c args s0 o /\ New ev p (at_new0 (VClass c) s) = new_result c [] s0 o.
Proof.
  intros p c args s. eexists _, _. split; [apply one_more_new|].
  assert (G : forall args s1, s1 = s -> (fun s => match (o <-- pop ;; match o with
    | None => ret (Some e_newnoclass)
    | Some (VClass c) => i <-- new_obj ;; match find n_init (c_fns c) with Some f => ThisCall ev i c f args ;;; ret tt | None => ret tt end ;;; push (VObj i c) ;;; ret None
    | Some _ => ret (Some e_newnotclass) end) s with inl r => inl r | inr r => inr r end) (pushed (VClass c) s1) = new_result c args (with_objs (r_objs (e_rest s) ++ [[]]) s) (objects s)).
  { clear args. intros args s1 ->. unfold new_result. change (s2b "_init") with n_init. unfold bind at 1, pop, pushed. cbn [e_stk set_stk]. rewrite set_stk2, set_stk_same.
    unfold bind at 1, new_obj. unfold bind at 1. fold (objects s). unfold ThisCall. destruct (find n_init (c_fns c)) as [f|]; [|reflexivity].
    unfold bind at 1. destruct (FnCall ev f (VObj (objects s) c :: args) _) as [(v, s1)|(e, s1)]; reflexivity. }
  split.
  - specialize (G args s eq_refl). etransitivity; [|exact G]. unfold at_new, pushed_all. rewrite rev_call. unfold New. unfold bind at 1, popArity at 1, bind at 1, pop at 1, ret at 1. cbn [e_stk set_stk].
    change (1 =? 0) with false. cbv iota. unfold bind at 1 2, popArity at 1, bind at 1, pop at 1, ret at 1. cbn [e_stk set_stk count].
    unfold popNArgs. cbn [e_stk set_stk]. rewrite app_length, rev_length. cbn [length]. destruct (Z.leb_spec (Z.of_nat (length args)) (Z.of_nat (length args + S (length (e_stk s))))); [|lia].
    destruct (Z.ltb_spec (Z.of_nat (length args)) 0); [lia|]. rewrite Nat2Z.id. destruct (first_args args (VClass c :: e_stk s)) as (-> & ->). rewrite rev_involutive, !set_stk2. fold (pushed (VClass c) s). destruct ((o <-- pop ;; _) _) as [r|r]; reflexivity.
  - specialize (G [] s eq_refl). etransitivity; [|exact G]. unfold at_new0, pushed_all. cbn [rev app]. unfold New. unfold bind at 1, popArity at 1, bind at 1, pop at 1, ret at 1. cbn [e_stk set_stk].
    change (0 =? 0) with true. cbv iota. unfold bind at 1, ret at 1. rewrite !set_stk2. fold (pushed (VClass c) s). destruct ((o <-- pop ;; _) _) as [r|r]; reflexivity.
Qed.
(** what is no class cannot be instantiated *)
Theorem C73_new_no_class : forall p v s, (forall c, v <> VClass c) -> New ev p (at_new0 v s) = inl (Some e_newnotclass, s).
Proof.
  intros p v [m i l r] H. destruct v; try reflexivity. destruct (H c eq_refl).
Qed.
(** o.name is the variable of that name, else the method bound to the object, else an error; nothing else changes but the number of identities given out. *)
Theorem C73_member : forall name o c s,
  match ovar o name s, find name (c_fns c) with
  | Some v, _ => MemberRef L name (pushed (VObj o c) s) = inl (None, pushed v s)
  | None, Some f => MemberRef L name (pushed (VObj o c) s) = inl (None, pushed (VThis (r_ids (e_rest s)) o c f) (with_ids (S (r_ids (e_rest s))) s))
  | None, None => MemberRef L name (pushed (VObj o c) s) = inl (Some (e_nomember name), s)
  end.
Proof.
  intros name o c s. unfold MemberRef. rewrite pop_pushed, bind_gets. unfold ovar.
  destruct (find name (nth o (r_objs (e_rest s)) [])) as [v|]; [reflexivity|]. destruct (find name (c_fns c)) as [f|]; reflexivity.
Qed.
(** C.name is the function itself: this is its first argument *)
Theorem C73_class_member : forall name c s, MemberRef L name (pushed (VClass c) s) =
  match find name (c_fns c) with Some f => inl (None, pushed (VFunc f) s) | None => inl (Some (e_nomethod name), s) end.
Proof. intros name c s. unfold MemberRef. rewrite pop_pushed. destruct (find name (c_fns c)) as [f|]; reflexivity. Qed.
(** Calling a method bound to an object calls its function with the object before the arguments. *)
Theorem C73_method_call : forall n o c f args s, QVCall L ev (at_call (VThis n o c f) args false s) = call_result (FnCall ev f (VObj o c :: args) s).
Proof. intros n o c f args s. rewrite q_vcall. apply (vcall_fn (VThis n o c f) (ThisCall ev o c f)). reflexivity. Qed.

(** ** set *)
(** set(o, n1, v1, n2, v2, ...) *)
Definition flat (kvs : list (bytes * value)) : list value := flat_map (fun kv => [VStr (fst kv); snd kv]) kvs.
(** the last value given to [n], else what it was *)
Fixpoint given (kvs : list (bytes * value)) (n : bytes) (old : option value) : option value :=
  match kvs with [] => old | (m, v) :: l => given l n (if beq n m then Some v else old) end.
Lemma nth_set : forall (A : Type) i j (x d : A) l, (i < length l)%nat -> nth j (set_nth i x l) d = if (j =? i)%nat then x else nth j l d.
Proof. intros A i j x d l. revert i j. induction l as [|y l IH]; intros [|i] [|j] H; cbn in *; try lia; auto. rewrite IH by lia. reflexivity. Qed.
Lemma len_set : forall (A : Type) i (x : A) l, length (set_nth i x l) = length l.
Proof. intros A i x l. revert i. induction l as [|y l IH]; intros [|i]; cbn; auto. Qed.
Definition methods (c : class) (n : bytes) : Prop := find n (c_fns c) <> None.
(** only the variables of object [o] have changed, to what [kvs] gives *)
Definition set_only (o : nat) (kvs : list (bytes * value)) (s s' : St) : Prop :=
  e_stk s' = e_stk s /\ e_mute s' = e_mute s /\ e_ipt s' = e_ipt s /\ r_frames (e_rest s') = r_frames (e_rest s) /\ r_ids (e_rest s') = r_ids (e_rest s) /\
  r_excs (e_rest s') = r_excs (e_rest s) /\ r_world (e_rest s') = r_world (e_rest s) /\ objects s' = objects s /\
  forall o' n, ovar o' n s' = if (o' =? o)%nat then given kvs n (ovar o n s) else ovar o' n s.
Lemma set_members : forall o c kvs s, (o < objects s)%nat -> Forall (fun kv => ~ methods c (fst kv)) kvs ->
  forall rest, exists s', SetMembers o c (flat kvs ++ rest) s = SetMembers o c rest s' /\ set_only o kvs s s'.
Proof.
  intros o c. induction kvs as [|(m, v) kvs IH]; intros s Ho HF rest.
  - exists s. split; [reflexivity|]. repeat split; auto. intros o' n. destruct (Nat.eqb_spec o' o) as [-> |]; reflexivity.
  - inversion HF as [|? ? Hm HF']; subst. cbn [fst] in Hm. unfold methods in Hm.
    set (s1 := with_objs (set_nth o (set_key m v (nth o (r_objs (e_rest s)) [])) (r_objs (e_rest s))) s).
    assert (Ho1 : objects s1 = objects s) by (unfold objects, s1; cbn; apply len_set).
    destruct (IH s1 ltac:(lia) HF' rest) as (s' & E & (A1 & A2 & A3 & A4 & A5 & A6 & A7 & A8 & A9)). exists s'. split.
    + rewrite <- E. change (flat ((m, v) :: kvs)) with (VStr m :: v :: flat kvs). cbn [app SetMembers]. unfold SetVar. destruct (find m (c_fns c)) as [f|]; [exfalso; apply Hm; discriminate|]. reflexivity.
    + repeat (split; [try assumption; try congruence|]). intros o' n. rewrite A9. unfold ovar at 1 2. unfold s1 at 1 2. cbn [e_rest with_objs set_rest r_objs].
      rewrite !nth_set by exact Ho. rewrite Nat.eqb_refl. destruct (Nat.eqb_spec o' o) as [-> | N]; [|reflexivity]. cbn [given]. rewrite find_set. reflexivity.
Qed.
Lemma odd_flat : forall kvs, Nat.odd (length (flat kvs)) = false.
Proof. induction kvs as [|kv kvs IH]; [reflexivity|]. cbn [flat flat_map app length]. exact IH. Qed.
Lemma q_set : forall o c a s, QVCall L ev (at_call (VGo (s2b "set")) (VObj o c :: a) false s) =
  match (if Nat.odd (length a) then panic_str m_setargs [] else SetMembers o c a) s with inl (_, s') => inl (None, pushed VNil s') | inr r => inr r end.
Proof.
  intros o c a s. rewrite q_vcall. unfold lift_call, VCall. cbn [e_stk set_stk]. rewrite pop_args. rewrite set_stk2, set_stk_same. cbn [length].
  change (as_fn L ev (emb (VGo (s2b "set")))) with (Some (mkFn true [typeAny; typeAny] true [] (fun args => run (Set_ L args) (fun outs => outs)))).
  unfold count_err. cbn [fn_variadic fn_in length]. destruct (Z.ltb_spec (Z.of_nat (S (length a))) (Z.of_nat 2 - 1)); [lia|].
  unfold validateArgs. cbn [length Nat.sub map skipn firstn last combine]. destruct (validate_any a) as (vs & E & M). rewrite E. cbn [validate].
  change (validateType q_to_float (emb (VObj o c)) typeAny) with (Val (inl (emb (VObj o c)) : rval float value nat value + err value)). cbv iota beta. cbn [app].
  unfold apply_fn. cbn [fn_call]. unfold run.
  assert (X : Set_ L (emb (VObj o c) :: vs) = if Nat.odd (length a) then panic_str m_setargs [] else (SetMembers o c a ;;; ret [])) by (unfold Set_; cbn [map tl hd]; rewrite M; reflexivity).
  rewrite X. destruct (Nat.odd (length a)); [reflexivity|]. unfold bind. destruct (SetMembers o c a s) as [(u, s1)|(e, s1)]; reflexivity.
Qed.
(** Setting names that are no methods sets them, the last value given to each, and nothing else. *)
Theorem C73_set : forall o c kvs s, (o < objects s)%nat -> Forall (fun kv => ~ methods c (fst kv)) kvs ->
  exists s', QVCall L ev (at_call (VGo (s2b "set")) (VObj o c :: flat kvs) false s) = inl (None, pushed VNil s') /\ set_only o kvs s s'.
Proof.
  intros o c kvs s Ho HF. destruct (set_members o c kvs s Ho HF []) as (s' & E & S). exists s'. split; [|exact S]. rewrite q_set, odd_flat. rewrite app_nil_r in E. rewrite E. reflexivity.
Qed.
(** The name of a method cannot be set: a panic, after the names before it have been set. *)
Theorem C73_set_method : forall o c kvs m v kvs' s, (o < objects s)%nat -> Forall (fun kv => ~ methods c (fst kv)) kvs -> methods c m ->
  exists s', QVCall L ev (at_call (VGo (s2b "set")) (VObj o c :: flat (kvs ++ (m, v) :: kvs')) false s) = inr (PUser (msg m_setmethod [VStr m]), s') /\ set_only o kvs s s'.
Proof.
  intros o c kvs m v kvs' s Ho HF Hm. destruct (set_members o c kvs s Ho HF (flat ((m, v) :: kvs'))) as (s' & E & S). exists s'. split; [|exact S]. rewrite q_set, odd_flat.
  assert (flat (kvs ++ (m, v) :: kvs') = flat kvs ++ flat ((m, v) :: kvs')) as -> by (unfold flat; rewrite flat_map_app; reflexivity). rewrite E. cbn [flat flat_map app SetMembers fst snd].
  unfold SetVar, bind. unfold methods in Hm. destruct (find m (c_fns c)) as [f|]; [reflexivity|congruence].
Qed.

(** ** Classes *)
(** a method as declared: name, parameters, body and whether the last parameter is followed by ... *)
Record decl := mkDecl { d_name : bytes; d_params : list bytes; d_body : value; d_dots : bool }.
Definition info (d : decl) : value := VFnInfo (d_name d :: d_params d) (code_of (d_body d)) (d_dots d).
(** fn name(params) { body }: the stack at its end *)
Theorem C73_declaration : forall p d s, MemberFuncDecl p (pushed_all (map VStr (d_name d :: d_params d) ++ [VInt (Z.of_nat (length (d_params d))); VInt (if d_dots d then 1 else 0); d_body d]) s) =
  inl (None, pushed (info d) s).
Proof.
  intros p [n ps b dt] s. cbn [d_name d_params d_body d_dots]. unfold pushed_all. rewrite rev_app_distr. cbn [rev app]. unfold MemberFuncDecl, bind, popArity, pop, bind, ret. cbn [e_stk set_stk].
  unfold popFnArgs. cbn [e_stk set_stk].
  assert (Z.of_nat (length ps) + 1 = Z.of_nat (length (rev (map VStr (n :: ps))))) as -> by (rewrite rev_length, map_length; cbn; lia).
  rewrite app_length. destruct (Z.leb_spec (Z.of_nat (length (rev (map VStr (n :: ps))))) (Z.of_nat (length (rev (map VStr (n :: ps))) + length (e_stk s)))); [|lia].
  destruct (Z.ltb_spec (Z.of_nat (length (rev (map VStr (n :: ps))))) 0); [lia|]. rewrite Nat2Z.id, firstn_app, firstn_all, Nat.sub_diag, firstn_O, app_nil_r, skipn_app, skipn_all, Nat.sub_diag, rev_involutive.
  assert (A : forall l, all_strs (map VStr l) = Some l) by (induction l as [|x l IH]; [reflexivity|]; cbn; rewrite IH; reflexivity). rewrite A. cbn [skipn app]. unfold push, modify. rewrite !set_stk2. unfold info. cbn. destruct dt; reflexivity.
Qed.
(** [f] is the function of the declaration, made by interpreter [p]: its first parameter is the object *)
Definition method_of (p : nat) (d : decl) (f : func) : Prop :=
  f_args f = s2b "this" :: d_params d /\ f_body f = code_of (d_body d) /\ f_parent f = p /\ f_variadic f = d_dots d.
(** the last declaration of each name *)
Definition last_decl (ds : list decl) (n : bytes) (d : decl) : Prop := exists l1 l2, ds = l1 ++ d :: l2 /\ d_name d = n /\ forall d', In d' l2 -> d_name d' <> n.
Lemma class_fns_spec : forall p ds fns s, exists fns', class_fns p (map info ds) fns s = inl (fns', with_ids (length ds + r_ids (e_rest s)) s) /\
  forall n f, find n fns' = Some f -> (exists d, last_decl ds n d /\ method_of p d f /\ (r_ids (e_rest s) <= f_id f < length ds + r_ids (e_rest s))%nat) \/ ((forall d, In d ds -> d_name d <> n) /\ find n fns = Some f).
Proof.
  intros p. induction ds as [|d ds IH]; intros fns s.
  - exists fns. split; [cbn; destruct s as [a b l [r1 r2 r3 r4 r5]]; reflexivity|]. intros n f H. right. split; [intros d []|exact H].
  - cbn [map]. unfold info at 1. cbn [class_fns]. unfold bind, fresh_id. 
    destruct (IH (set_key (d_name d) (mkFunc (r_ids (e_rest s)) (n_this :: d_params d) (code_of (d_body d)) p (d_dots d)) fns) (with_ids (S (r_ids (e_rest s))) s)) as (fns' & E & H). exists fns'. split.
    + replace (length (d :: ds) + r_ids (e_rest s))%nat with (length ds + S (r_ids (e_rest s)))%nat by (cbn; lia). exact E.
    + intros n f F. cbn [r_ids e_rest with_ids set_rest length] in H. destruct (H n f F) as [(d' & (l1 & l2 & E1 & E2 & E3) & M & B)|(N & F')].
      * left. exists d'. split; [exists (d :: l1), l2; rewrite E1; auto|]. split; [exact M|]. cbn [length]. lia.
      * rewrite find_set in F'. destruct (bytes_spec n (d_name d)) as [En|En].
        -- left. injection F' as <-. exists d. split; [exists [], ds; repeat split; auto; intros d' Hd; rewrite En; intro X; apply (N d' Hd); congruence|]. split; [repeat split|]. cbn [f_id length]. lia.
        -- right. split; [|exact F']. intros d' [<- | Hd]; [congruence|auto].
Qed.
Lemma class_fns_has : forall p ds fns s fns' s', class_fns p (map info ds) fns s = inl (fns', s') -> forall n, ((exists d, In d ds /\ d_name d = n) \/ find n fns <> None) -> find n fns' <> None.
Proof.
  intros p. induction ds as [|d ds IH]; intros fns s fns' s' E n H.
  - cbn in E. injection E as <- <-. destruct H as [(d & [] & _)|H]; exact H.
  - cbn [map] in E. unfold info at 1 in E. cbn [class_fns] in E. unfold bind, fresh_id in E. eapply IH; [exact E|]. rewrite find_set. destruct (bytes_spec n (d_name d)) as [En|En]; [right; discriminate|].
    destruct H as [(d' & [<- | Hd] & X)|H]; [congruence|left; eauto|right; exact H].
Qed.
(** A class has exactly the methods declared in it; of several of one name the last counts. Its identity is new. *)
Theorem C73_class : forall p ds s, exists c s', Class p (pushed_all (map info ds ++ [VInt (Z.of_nat (length ds))]) s) = inl (tt, pushed (VClass c) s') /\
  s' = with_ids (length ds + S (r_ids (e_rest s))) s /\ c_id c = r_ids (e_rest s) /\
  (forall n, methods c n <-> exists d, In d ds /\ d_name d = n) /\
  (forall n f, find n (c_fns c) = Some f -> exists d, last_decl ds n d /\ method_of p d f).
Proof.
  intros p ds s. unfold pushed_all. rewrite rev_app_distr. cbn [rev app]. unfold Class. unfold bind at 1, popArity, bind at 1, pop, ret. cbn [e_stk set_stk]. unfold bind at 1, popNArgs. cbn [e_stk set_stk].
  rewrite app_length, rev_length, map_length. destruct (Z.leb_spec (Z.of_nat (length ds)) (Z.of_nat (length ds + length (e_stk s)))); [|lia]. destruct (Z.ltb_spec (Z.of_nat (length ds)) 0); [lia|].
  rewrite Nat2Z.id. destruct (first_args (map info ds) (e_stk s)) as (X1 & X2). rewrite map_length in X1, X2. rewrite X1, X2, rev_involutive, !set_stk2, set_stk_same.
  unfold bind at 1, fresh_id. unfold bind at 1. destruct (class_fns_spec p ds [] (with_ids (S (r_ids (e_rest s))) s)) as (fns & E & HH). rewrite E. eexists _, _. split; [reflexivity|]. split; [reflexivity|]. split; [reflexivity|]. split.
  - intro n. unfold methods. cbn [c_fns]. split.
    + intro N. destruct (find n fns) as [f|] eqn:F; [|congruence]. destruct (HH n f F) as [(d & (l1 & l2 & E1 & E2 & _) & _)|(_ & X')]; [|discriminate X']. exists d. split; [rewrite E1; apply in_or_app; right; left; reflexivity|exact E2].
    + intro N. eapply class_fns_has; [exact E|left; exact N].
  - intros n f F. cbn [c_fns] in F. destruct (HH n f F) as [(d & D & M & _)|(_ & X')]; [eauto|discriminate X'].
Qed.
End Class.

(** ** SafeExec *)
Section Safe.
Context {W : Type}.
Variable L : qlib W.
Variables isL isD : Z -> bool.
Notation St := (est nat value (@rest W)).
Implicit Types s : St.
Notation serr := (panicq + (nat * smsg))%type.
(** What the text did before the deferred expressions ran: it ended with an error returned or none, or panicked *)
Definition text_ends (n : nat) (semis : bool) (src : bytes) (old : sc) s (x : option serr + panicq) s1 : Prop :=
  match x with inl err => Exec L isL isD n semis old src s = inl (err, s1) | inr e => Exec L isL isD n semis old src s = inr (e, s1) end.
(** a string or an error *)
Definition errorlike (e : panicq) : Prop := forall v, e <> PUser (PvOther v).
(** How SafeExec ends: *)
Inductive safe_ends (n : nat) (semis : bool) (src : bytes) (old : sc) s : option serr + panicq -> St -> Prop :=
| se_abort : forall e s1, text_ends n semis src old s (inr e) s1 -> uncatchable e = true ->                      (* os.Exit *)
    safe_ends n semis src old s (inr e) s1
| se_defer : forall x s1 e s2, text_ends n semis src old s x s1 -> (forall e, x = inr e -> uncatchable e = false) ->          (* a deferred expression panics *)
    defers_run (ev L n) 0 (fr_defers (getf 0 s1)) (updf 0 (set_recov (match x with inr e => Some e | inl _ => None end)) s1) (Some e) s2 ->
    safe_ends n semis src old s (inr e) s2
| se_done : forall x s1 s2 r, text_ends n semis src old s x s1 -> (forall e, x = inr e -> uncatchable e = false) ->           (* all have run *)
    defers_run (ev L n) 0 (fr_defers (getf 0 s1)) (updf 0 (set_recov (match x with inr e => Some e | inl _ => None end)) s1) None s2 ->
    match fr_recov (getf 0 s2) with
    | None => r = inl (match x with inl err => err | inr _ => None end)      (* no panic, or a recovered one: the error of the text *)
    | Some e => (errorlike e /\ r = inl (Some (inl e))) \/ (~ errorlike e /\ r = inr e)
    end -> safe_ends n semis src old s r (updf 0 (set_defers []) s2).
Lemma errorlike_iff : forall e, match as_error e with Some e' => e' = e /\ errorlike e | None => ~ errorlike e end.
Proof.
  intro e. unfold as_error, errorlike. destruct e as [m| |[]]; try (split; [reflexivity|congruence]). intro H. apply (H x). reflexivity.
Qed.
Lemma exec_defers_0 : forall n l s o s2, defers_run (ev L n) 0 l s o s2 -> l = fr_defers (getf 0 s) ->
  ExecDefers (ev L n) 0 s = match o with None => inl (tt, updf 0 (set_defers []) s2) | Some e => inr (e, s2) end.
Proof.
  intros n l s o s2 H ->. apply (run_defers_iff (ev L n)) in H. unfold ExecDefers. rewrite bind_gets. destruct o as [e|]; cbn in H; unfold bind; rewrite H; reflexivity.
Qed.
Lemma recov_defers : forall l s, fr_recov (getf 0 (updf 0 (set_defers l) s)) = fr_recov (getf 0 s).
Proof. intros l s. rewrite getf_updf. destruct (_ && _)%bool; reflexivity. Qed.
Lemma defers_recov : forall p s, fr_defers (getf 0 (updf 0 (set_recov p) s)) = fr_defers (getf 0 s).
Proof. intros l s. rewrite getf_updf. destruct (_ && _)%bool; reflexivity. Qed.
(** SafeExec ends exactly as [safe_ends] says. *)
Theorem C72_safe : forall n semis src old s,
  (forall err s', SafeExec L isL isD n semis old src s = inl (err, s') <-> safe_ends n semis src old s (inl err) s') /\
  (forall e s', SafeExec L isL isD n semis old src s = inr (e, s') <-> safe_ends n semis src old s (inr e) s').
Proof.
  intros n semis src old s.
  assert (Dd : forall l a o b o' b', defers_run (ev L n) 0 l a o b -> defers_run (ev L n) 0 l a o' b' -> o = o' /\ b = b').
  { intros l a o b o' b' H H'. apply run_defers_iff in H, H'. exact (ends_fun _ _ _ _ _ H H'). }
  assert (G : exists r s', safe_ends n semis src old s r s' /\ SafeExec L isL isD n semis old src s = match r with inl v => inl (v, s') | inr e => inr (e, s') end).
  { unfold SafeExec. 
    assert (Fin : forall x s1, text_ends n semis src old s x s1 -> (forall e, x = inr e -> uncatchable e = false) -> exists r s', safe_ends n semis src old s r s' /\
       match ExecDefers (ev L n) 0 (updf 0 (set_recov (match x with inr e => Some e | inl _ => None end)) s1) with
       | inr r => inr r
       | inl (_, s2) => match fr_recov (getf 0 s2) with
           | None => inl (match x with inl err => err | inr _ => None end, s2)
           | Some e => match as_error e with Some e' => inl (Some (inl e'), s2) | None => inr (e, s2) end end
       end = match r with inl v => inl (v, s') | inr e => inr (e, s') end).
    { intros x s1 T U. set (s0 := updf 0 (set_recov (match x with inr e => Some e | inl _ => None end)) s1).
      destruct (ends_total (run_defers (ev L n) 0 (fr_defers (getf 0 s1)) s0)) as (o & s2 & R). apply run_defers_iff in R.
      rewrite (exec_defers_0 n (fr_defers (getf 0 s1)) s0 o s2 R) by (unfold s0; rewrite defers_recov; reflexivity). destruct o as [e|].
      - exists (inr e), s2. split; [|reflexivity]. eapply se_defer; eassumption.
      - rewrite recov_defers. destruct (fr_recov (getf 0 s2)) as [e|] eqn:Er.
        + pose proof (errorlike_iff e) as Q. destruct (as_error e) as [e'|].
          * destruct Q as (-> & Q). exists (inl (Some (inl e))), (updf 0 (set_defers []) s2). split; [|reflexivity]. eapply se_done; [exact T|exact U|exact R|]. rewrite Er. auto.
          * exists (inr e), (updf 0 (set_defers []) s2). split; [|reflexivity]. eapply se_done; [exact T|exact U|exact R|]. rewrite Er. auto.
        + eexists (inl _), _. split; [|reflexivity]. eapply se_done; [exact T|exact U|exact R|]. rewrite Er. reflexivity. }
    destruct (Exec L isL isD n semis old src s) as [(err, s1)|(e, s1)] eqn:E.
    - apply (Fin (inl err) s1 E). discriminate.
    - destruct (uncatchable e) eqn:U; [exists (inr e), s1; split; [apply se_abort; [exact E|exact U]|reflexivity]|]. apply (Fin (inr e) s1 E). intros e' [= <-]. exact U. }
  destruct G as (r & s' & C & E). rewrite E.
  assert (F : forall r' s'', safe_ends n semis src old s r' s'' -> r = r' /\ s' = s'').
  { assert (Tf : forall x s1 x' s1', text_ends n semis src old s x s1 -> text_ends n semis src old s x' s1' -> x = x' /\ s1 = s1').
    { intros [a|a] s1 [b|b] s1' H H'; cbn in H, H'; rewrite H in H'; try discriminate H'; injection H' as <- <-; auto. }
    clear E. intros r' s'' C'. destruct C as [e s1 B U|x s1 e s2 B U R|x s1 s2 r B U R M]; destruct C' as [e' s1' B' U'|x' s1' e' s2' B' U' R'|x' s1' s2' r' B' U' R' M'];
      destruct (Tf _ _ _ _ B B') as (Ex & <-); try (exfalso; pose proof (U _ Ex); congruence); try (exfalso; pose proof (U' _ (eq_sym Ex)); congruence); [injection Ex as <-; auto| | | |]; subst x';
      destruct (Dd _ _ _ _ _ _ R R') as (Eo & <-); try discriminate Eo.
    - injection Eo as <-. auto.
    - destruct (fr_recov (getf 0 s2)); [|split; congruence]. destruct M as [(M1 & M2)|(M1 & M2)], M' as [(M1' & M2')|(M1' & M2')]; try contradiction; subst; auto. }
  split; intros r' s''; split; intro H.
  - destruct r as [v0|e0]; [|discriminate H]. injection H as <- <-. exact C.
  - destruct (F _ _ H) as (-> & ->). reflexivity.
  - destruct r as [v0|e0]; [discriminate H|]. injection H as <- <-. exact C.
  - destruct (F _ _ H) as (-> & ->). reflexivity.
Qed.
(** Whatever SafeExec returns, every deferred expression has run and none is left for the next time. *)
Theorem C72_none_left : forall n semis src old s err s', (0 < nframes s')%nat -> SafeExec L isL isD n semis old src s = inl (err, s') -> fr_defers (getf 0 s') = [].
Proof.
  intros n semis src old s err s' Hn H. apply C72_safe in H. inversion H; subst. rewrite nframes_updf in Hn. rewrite getf_updf, Nat.eqb_refl. destruct (Nat.ltb_spec 0 (nframes s2)); [reflexivity|lia].
Qed.
(** A text that panics with a string or an error gives that error, unless a deferred expression panics, exits or recovers. *)
Theorem C72_panic_is_error : forall n semis src old s e s1 s2, text_ends n semis src old s (inr e) s1 -> uncatchable e = false -> errorlike e ->
  defers_run (ev L n) 0 (fr_defers (getf 0 s1)) (updf 0 (set_recov (Some e)) s1) None s2 -> fr_recov (getf 0 s2) = Some e ->
  SafeExec L isL isD n semis old src s = inl (Some (inl e), updf 0 (set_defers []) s2).
Proof. intros n semis src old s e s1 s2 T U Q R Er. apply C72_safe. eapply se_done; [exact T|intros e' [= <-]; exact U|exact R|]. rewrite Er. auto. Qed.
(** Recovered, it gives none. *)
Theorem C72_recovered : forall n semis src old s e s1 s2, text_ends n semis src old s (inr e) s1 -> uncatchable e = false ->
  defers_run (ev L n) 0 (fr_defers (getf 0 s1)) (updf 0 (set_recov (Some e)) s1) None s2 -> fr_recov (getf 0 s2) = None ->
  SafeExec L isL isD n semis old src s = inl (None, updf 0 (set_defers []) s2).
Proof. intros n semis src old s e s1 s2 T U R Er. apply C72_safe. eapply se_done; [exact T|intros e' [= <-]; exact U|exact R|]. rewrite Er. auto. Qed.
End Safe.

(** ** Examples *)
Local Open Scope string_scope.
(** the library of QlangEx with set *)
Definition L1 : qlib unit := mkLib unit (fun n => if beq n (s2b "set") then Some (VGo n) else l_fnval L0 n) (l_golib L0) (l_same L0) (l_member L0) (l_mapFrom L0) (l_getIndex L0)
  (l_subSlice L0) (l_unquote L0) (l_unquote_char L0) (l_parse_float L0).
Definition no_class (_ : Z) : bool := false.
Definition safe_from (t : string) (s : est nat value (@rest unit)) := SafeExec L1 no_class no_class 100 false PropScan.fresh (s2b t) s.
Definition vars (names : list string) (s : est nat value (@rest unit)) : list (option value) := map (fun n => find (s2b n) (fr_vars (getf 0 s))) names.
Definition safely (t : string) (names : list string) : outcome * list (option value) :=
  match safe_from t (q_start tt) with
  | inl (None, s) => (Fine, vars names s)
  | inl (Some (inl e), s) => (Panicked (panic_value e), vars names s)
  | inl (Some (inr _), s) => (Failed, vars names s)
  | inr (e, s) => (Failed, vars names s)
  end.
(** a class with a constructor, a method and one of the same name after it *)
Example C73_run : safely "
  C = class { fn _init(a, b) { set(this, ""x"", a-b) } fn f(y) { return 0 } fn f(y) { return this.x * y } };
  o = new C(7, 4); p = new C(2, 1); set(p, ""x"", 5, ""z"", 6, ""x"", 8);
  a = o.f(10); b = p.f(10); c = p.z; d = C.f(o, 100); g = o.f; set(o, ""x"", 9); e = g(1)" ["a"; "b"; "c"; "d"; "e"] =
  (Fine, [Some (VInt 30); Some (VInt 80); Some (VInt 6); Some (VInt 300); Some (VInt 9)]).
Proof. vm_compute. reflexivity. Qed.
Example C73_set_run : safely "C = class { fn f() { return 1 } }; o = new C; set(o, ""a"", 2, ""f"", 3, ""b"", 4)" [] = (Panicked (VMsg m_setmethod [VStr (s2b "f")]), []).
Proof. vm_compute. reflexivity. Qed.
Example C55_spread_run : safely "f = fn(a, b, c) { return a*100+b*10+c }; x = f(1, [2, 3]...)" ["x"] = (Fine, [Some (VInt 123)]).
Proof. vm_compute. reflexivity. Qed.
(** the declarations, classes and objects of the theorems *)
Example C73_class_ex : exists c s', Class 0%nat (pushed_all (map info [mkDecl (s2b "f") [s2b "y"] VNil false; mkDecl (s2b "g") [] VNil true] ++ [VInt 2]) (q_start tt)) = inl (tt, pushed (VClass c) s') /\
  methods c (s2b "f") /\ ~ methods c (s2b "h") /\ (exists s2, New (ev L1 5) 0%nat (at_new (VClass c) [VInt 1] s') = inl (None, s2) /\ objects s2 = 1%nat).
Proof. eexists _, (with_ids 3 (q_start tt)). split; [vm_compute; reflexivity|]. split; [intro H; vm_compute in H; discriminate H|]. split; [intro H; apply H; reflexivity|]. eexists. split; [vm_compute; reflexivity|reflexivity]. Qed.
(** a panic is returned as an error after the deferred expressions have run, last first; a recovered one is not *)
Example C72_run : safely "x = 0; defer fn() { x; x = x*10+1 }(); defer fn() { x; x = x*10+2 }(); x = 5; panic(""a""); x = 6" ["x"] = (Panicked (VStr (s2b "a")), [Some (VInt 521)]) /\
  safely "x = 0; defer fn() { x; x = recover() }(); panic(""a""); y = 6" ["x"; "y"] = (Fine, [Some (VExc 0); None]) /\
  safely "x = 0; defer fn() { x; x = 1 }(); y = (" ["x"; "y"] = (Panicked VNil, [Some (VInt 1); None]).
Proof. repeat split; vm_compute; reflexivity. Qed.
(** That SafeExec never panics is false: of a value that is neither a string nor an error, and of a deferred expression *)
Theorem C72_panics_refuted : (exists s', safe_from "panic(1)" (q_start tt) = inr (PUser (PvOther (VInt 1)), s')) /\
  (exists ts s', safe_from "defer panic(""a""); x = 1" (q_start tt) = inr (PUser (PvRuntime (EOfStr (SOther (VStr (s2b "a")))) ts), s')).
Proof. split; [eexists; vm_compute; reflexivity|eexists _, _; vm_compute; reflexivity]. Qed.
(** After a deferred expression has panicked, all of them are still there and run again at the end of the next text *)
Theorem C72_run_again_refuted : exists e s1 s2, safe_from "x = 0; defer fn() { x; x = x+1; if x == 1 { panic(""a"") } }(); x = 0" (q_start tt) = inr (e, s1) /\
  safe_from "y = 1" s1 = inl (None, s2) /\ vars ["x"; "y"] s2 = [Some (VInt 2); Some (VInt 1)].
Proof. eexists _, _, _. split; [vm_compute; reflexivity|]. split; vm_compute; reflexivity. Qed.

Print Assumptions C55_program_call.
Print Assumptions C55_spread.
Print Assumptions C55_spread_no_slice.
Print Assumptions C72_safe.
Print Assumptions C72_none_left.
Print Assumptions C72_panic_is_error.
Print Assumptions C72_recovered.
Print Assumptions C72_panics_refuted.
Print Assumptions C72_run_again_refuted.
Print Assumptions C73_new.
Print Assumptions C73_new_no_class.
Print Assumptions C73_member.
Print Assumptions C73_class_member.
Print Assumptions C73_method_call.
Print Assumptions C73_set.
Print Assumptions C73_set_method.
Print Assumptions C73_declaration.
Print Assumptions C73_class.
