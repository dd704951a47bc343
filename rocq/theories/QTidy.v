(** The methods of the interpreter leave alone whether actions are muted and whose code is running, and what the actions
    of the grammar do. *)
From Coq Require Import String SpecFloat.
From Verif Require Import Base Token Grammar Matcher PegSpec MatchProofs Compiler Interp QValue Qlang QlangSpec QlangTop QText.
Local Open Scope Z_scope.

Section Tidy.
Context {W : Type}.
Variable L : qlib W.
Notation St := (est nat value (@rest W)).
Notation qval := (rval float value nat value).
Notation Qfn := (gofn float value nat value (@rest W)).
Definition same_eng (s s' : St) : Prop := e_mute s' = e_mute s /\ e_ipt s' = e_ipt s.
Definition tq {A : Type} (m : @Q W A) : Prop := forall s, same_eng s (after (m s)).
Definition tidy (ev : @evaluator W) : Prop := forall p rule c, tq (ev p rule c).
(** functions of the table and of call.go *)
Definition tf (f : St -> (list qval * St) + (panicq * St)) : Prop := forall s, same_eng s (match f s with inl (_, s') | inr (_, s') => s' end).
Definition tc (f : St -> (option qerr * St) + (panicq * St)) : Prop := forall s, same_eng s (match f s with inl (_, s') | inr (_, s') => s' end).

Lemma se_refl : forall s, same_eng s s.
Proof. intro s. split; reflexivity. Qed.
Lemma se_trans : forall s1 s2 s3, same_eng s1 s2 -> same_eng s2 s3 -> same_eng s1 s3.
Proof. intros s1 s2 s3 (A & B) (C & D). split; congruence. Qed.
Lemma tq_ret : forall A (x : A), tq (ret x).
Proof. intros A x s. apply se_refl. Qed.
Lemma tq_throw : forall A e, tq (throw e : @Q W A).
Proof. intros A e s. apply se_refl. Qed.
Lemma tq_crash : forall A, tq (crash : @Q W A).
Proof. intros. apply tq_throw. Qed.
Lemma tq_panic_str : forall A f a, tq (panic_str f a : @Q W A).
Proof. intros. apply tq_throw. Qed.
Lemma tq_throw_err : forall A m, tq (throw_err m : @Q W A).
Proof. intros. apply tq_throw. Qed.
Lemma tq_no_fuel : forall A, tq (no_fuel : @Q W A).
Proof. intros. apply tq_throw. Qed.
Lemma tq_exit : forall A z, tq (exit z : @Q W A).
Proof. intros. apply tq_throw. Qed.
Lemma tq_bind : forall A B (m : @Q W A) (f : A -> @Q W B), tq m -> (forall x, tq (f x)) -> tq (bind m f).
Proof.
  intros A B m f Hm Hf s. unfold bind. specialize (Hm s). destruct (m s) as [(x, s1)|(e, s1)]; [|exact Hm]. eapply se_trans; [exact Hm|apply Hf].
Qed.
Lemma tq_modify : forall f, (forall s, same_eng s (f s)) -> tq (modify f).
Proof. intros f H s. apply H. Qed.
Lemma tq_updf : forall i f, tq (modify (updf i f)).
Proof. intros. apply tq_modify. intro s. split; reflexivity. Qed.
Lemma tq_gets : forall A (f : St -> A), tq (gets f).
Proof. intros A f s. apply se_refl. Qed.
Lemma tq_push : forall v, tq (push v : @Q W unit).
Proof. intros v s. split; reflexivity. Qed.
Lemma tq_pop : tq (pop : @Q W _).
Proof. intros s. unfold pop. destruct (e_stk s); split; reflexivity. Qed.
Lemma tq_pop_any : tq (pop_any : @Q W _).
Proof. apply tq_bind; [apply tq_pop|intro; apply tq_ret]. Qed.
Lemma tq_depth : tq (depth : @Q W _).
Proof. apply tq_gets. Qed.
Lemma tq_SetFrame : forall n, tq (SetFrame n : @Q W _).
Proof. intros n s. unfold SetFrame. destruct (_ <=? _)%nat; split; reflexivity. Qed.
Lemma tq_popNArgs : forall a, tq (popNArgs a : @Q W _).
Proof. intros a s. unfold popNArgs. destruct (_ <=? _); [destruct (_ <? _)|]; split; reflexivity. Qed.
Lemma tq_popFnArgs : forall a, tq (popFnArgs a : @Q W _).
Proof. intros a s. unfold popFnArgs. destruct (_ <=? _); [destruct (_ <? _); [|destruct (all_strs _)]|]; split; reflexivity. Qed.
Lemma tq_popArity : tq (popArity : @Q W _).
Proof. apply tq_bind; [apply tq_pop|]. intros [v|]; [destruct v|]; first [apply tq_ret|apply tq_panic_str]. Qed.
Lemma tq_set_var : forall i n v, tq (set_var i n v : @Q W _).
Proof. intros. apply tq_updf. Qed.
Lemma tq_fresh_id : tq (fresh_id : @Q W _).
Proof. intros s. split; reflexivity. Qed.
Lemma tq_new_obj : tq (new_obj : @Q W _).
Proof. intros s. split; reflexivity. Qed.
Lemma tq_of_op : forall r, tq (of_op r : @Q W _).
Proof. intros [v|e]; [apply tq_ret|apply tq_throw]. Qed.
Lemma tq_libcall : forall A (f : W -> (A + pvq) * W), tq (libcall f).
Proof. intros A f s. unfold libcall. destruct (f _) as [[x|e] w]; split; reflexivity. Qed.
Lemma tq_getVar : forall p n, tq (getVar p n : @Q W _).
Proof. intros p n s. unfold getVar. destruct (var_of p n s) as [v|]; [destruct v|]; apply se_refl. Qed.
Lemma tq_getVars : forall p n, tq (getVars p n : @Q W _).
Proof. intros p n s. unfold getVars. destruct (var_of p n s) as [v|]; [destruct v; apply se_refl|]. destruct (inherits n) as [[|]|]; try apply se_refl. destruct (outer p n s); apply se_refl. Qed.
Lemma tq_getRef : forall p n, tq (getRef L p n).
Proof.
  intros p n s. unfold getRef. destruct (beq n n_unset); [apply se_refl|]. destruct (var_of p n s) as [v|]; [destruct v; apply se_refl|].
  destruct (inherits n) as [[|]|]; [|destruct (l_fnval L n)|]; try apply se_refl. destruct (outer p n s) as [(t, v)|]; [|destruct (l_fnval L n); apply se_refl].
  destruct v; split; reflexivity.
Qed.
Lemma tq_exc : forall e, tq (exc_value e : @Q W _).
Proof. intros e. unfold exc_value. destruct e as [| |[|[]| | |]]; first [apply tq_ret|intro s; split; reflexivity]. Qed.
Lemma tq_new_frame : forall v p, tq (new_frame v p : @Q W _).
Proof. intros v p s. split; reflexivity. Qed.
Lemma tq_if : forall A (b : bool) (m n : @Q W A), tq m -> tq n -> tq (if b then m else n).
Proof. intros A [|] m n Hm Hn; assumption. Qed.
Lemma tq_lift_call : forall f, tc f -> tq (lift_call f : @Q W _).
Proof. intros f H s. unfold lift_call. specialize (H s). destruct (f s) as [(x, s1)|(e, s1)]; exact H. Qed.
Lemma tf_run : forall A (m : @Q W A) out, tq m -> tf (run m out).
Proof. intros A m out H s. unfold run. specialize (H s). destruct (m s) as [(x, s1)|(e, s1)]; exact H. Qed.
Lemma tq_push_all : forall l, tq (push_all l : @Q W _).
Proof. induction l as [|v l IH]; [apply tq_ret|]. apply tq_bind; [apply tq_push|intros; exact IH]. Qed.

Create HintDb tq.
Hint Resolve tq_ret tq_throw tq_crash tq_panic_str tq_throw_err tq_no_fuel tq_exit tq_updf tq_gets tq_push tq_pop tq_pop_any tq_depth tq_SetFrame tq_popNArgs tq_popFnArgs tq_popArity
  tq_set_var tq_fresh_id tq_new_obj tq_of_op tq_libcall tq_getVar tq_getVars tq_getRef tq_exc tq_new_frame tq_lift_call tq_push_all : tq.
Ltac tqs := repeat first [ solve [auto with tq] | apply tq_bind; [|intro] | apply tq_if |
  match goal with
  | |- tq (match ?x with _ => _ end) => destruct x
  | |- tq (let (_, _) := ?x in _) => destruct x
  end ].

Lemma tq_Ref : forall p n, tq (Ref L p n).
Proof. intros. unfold Ref. tqs. Qed.
Lemma tq_IncDec : forall op p n, tq (IncDec op p n : @Q W _).
Proof. intros. unfold IncDec. tqs. Qed.
Lemma tq_OpAssign : forall op p n, tq (OpAssign op p n : @Q W _).
Proof. intros. unfold OpAssign. tqs. Qed.
Lemma tq_Assign : forall p n, tq (Assign p n : @Q W _).
Proof. intros. unfold Assign. tqs. Qed.
Lemma tq_assign_all : forall p l, tq (assign_all p l : @Q W _).
Proof. intros p l. induction l as [|(n, v) l IH]; cbn [assign_all]; tqs. Qed.
Lemma tq_MultiAssign : forall p, tq (MultiAssign p : @Q W _).
Proof. intros. pose proof tq_assign_all. unfold MultiAssign. tqs. Qed.
Lemma tq_Defer : forall p, tq (Defer p : @Q W _).
Proof. intros. unfold Defer. tqs. Qed.
Lemma tq_Recover : forall p, tq (Recover p : @Q W _).
Proof. intros. unfold Recover. tqs. Qed.
Lemma tq_Function : forall p, tq (Function p : @Q W _).
Proof. intros. unfold Function. tqs. Qed.
Lemma tq_MemberFuncDecl : forall p, tq (MemberFuncDecl p : @Q W _).
Proof. intros. unfold MemberFuncDecl. tqs. Qed.
Lemma tq_class_fns : forall p l f, tq (class_fns p l f : @Q W _).
Proof. intros p l. induction l as [|v l IH]; intro f; cbn [class_fns]; [tqs|]. destruct v; try apply tq_crash. destruct args; [apply tq_crash|]. tqs. Qed.
Lemma tq_Class : forall p, tq (Class p : @Q W _).
Proof. intros. pose proof tq_class_fns. unfold Class. tqs. Qed.
Lemma tq_MemberRef : forall n, tq (MemberRef L n).
Proof. intros. unfold MemberRef. tqs. Qed.
Lemma tq_SetVar : forall o c n v, tq (SetVar o c n v : @Q W _).
Proof. intros. unfold SetVar. destruct (find n (c_fns c)); [apply tq_panic_str|]. intro s. split; reflexivity. Qed.
Lemma tq_SetMembers : forall o c l, tq (SetMembers o c l : @Q W _).
Proof.
  intros o c. fix IH 1. intros [|v [|w l]]; cbn [SetMembers]; [apply tq_ret|destruct v; apply tq_crash|]. destruct v; try apply tq_crash. apply tq_bind; [apply tq_SetVar|intro; apply IH].
Qed.
Lemma tq_Get : forall m key, tq (Get L m key).
Proof. intros. unfold Get. tqs. Qed.
Lemma tq_Index : tq (Index L).
Proof. pose proof tq_Get. unfold Index. tqs. Qed.
Lemma tq_PushString : forall b, tq (PushString L b).
Proof. intros. unfold PushString. tqs. Qed.
Lemma tq_PushByte : forall b, tq (PushByte L b).
Proof. intros. unfold PushByte. tqs. Qed.
Lemma tq_Clear : forall p, tq (Clear p : @Q W _).
Proof. intros. unfold Clear. tqs. Qed.
Lemma tq_Set : forall args, tq (Set_ L args).
Proof. intros. pose proof tq_SetMembers. unfold Set_. apply tq_if; [tqs|]. destruct (unemb (hd None args)); tqs. Qed.
Lemma tq_throw_value : forall v, tq (throw_value v : @Q W _).
Proof. intros v s. unfold throw_value. destruct v; apply se_refl. Qed.

(** ** Calls (call.go) *)
Lemma tc_apply : forall (fn : Qfn) args, tf (fn_call fn args) -> tc (apply_fn q_pushret fn args).
Proof. intros fn args H s. unfold apply_fn. specialize (H s). destruct (fn_call fn args s) as [(outs, s1)|(e, s1)]; [|exact H]. cbn. destruct H. split; assumption. Qed.
Lemma tc_DoCall : forall (fn : Qfn) a v, (forall args, tf (fn_call fn args)) -> tc (DoCall emb q_pushret q_to_float fn a v).
Proof.
  intros fn a v H s. unfold DoCall. destruct (0 <? a); [|apply tc_apply; auto]. destruct (PopArgs emb a (e_stk s)) as [[(args, stk)|]|]; try apply se_refl.
  destruct (validateArgs _ _ _ _) as [[args'|e]|]; try (split; reflexivity). eapply se_trans; [|apply tc_apply; auto]. split; reflexivity.
Qed.
Lemma tc_Call : forall (fn : Qfn) a, (forall args, tf (fn_call fn args)) -> tc (Interp.Call emb q_pushret q_to_float fn a).
Proof. intros fn a H s. unfold Interp.Call. destruct (count_err fn a); [apply se_refl|]. apply tc_DoCall. exact H. Qed.
Lemma tc_VCall : forall (as_fn : qval -> option Qfn) a, (forall r fn, as_fn r = Some fn -> forall args, tf (fn_call fn args)) -> tc (Interp.VCall emb q_pushret q_to_float as_fn a).
Proof.
  intros af a H s. unfold Interp.VCall. destruct (PopArgs emb (a + 1) (e_stk s)) as [[([|f args], stk)|]|]; try (split; reflexivity).
  destruct (af f) as [fn|] eqn:E; [|split; reflexivity]. destruct (count_err fn a); [split; reflexivity|]. destruct (validateArgs _ _ _ _) as [[args'|e]|]; try (split; reflexivity).
  eapply se_trans; [|apply tc_apply; eapply H; exact E]. split; reflexivity.
Qed.
Lemma tq_VMap : tq (VMap L).
Proof. unfold VMap. tqs. apply tq_lift_call. apply tc_Call. intros args. unfold variadic_fn. cbn [fn_call]. apply tf_run. apply tq_libcall. Qed.
Lemma tq_VSliceLit : tq (VSliceLit : @Q W _).
Proof. unfold VSliceLit. tqs. apply tq_lift_call. apply tc_Call. intros args. unfold variadic_fn. cbn [fn_call]. apply tf_run. apply tq_ret. Qed.

(** ** What evaluates code *)
Variable ev : @evaluator W.
Hypothesis Hev : tidy ev.
Lemma tq_evalCode : forall p rule c, tq (evalCode ev p rule c).
Proof. intros. unfold tidy in Hev. unfold evalCode. tqs. Qed.
Lemma tq_eval_body : forall p c, tq (eval_body ev p c).
Proof. intros. pose proof tq_evalCode. unfold eval_body. tqs. Qed.
Hint Resolve tq_evalCode tq_eval_body : tq.
Lemma tq_AndOr : forall b r m p, tq (AndOr ev b r m p).
Proof. intros. unfold AndOr. tqs. Qed.
Lemma tq_if_loop : forall p br e, tq (if_loop ev p br e).
Proof. intros p. fix IH 1. intros [|c [|b br]] e; cbn [if_loop]; tqs. Qed.
Lemma tq_If : forall p, tq (If ev p).
Proof. intros. pose proof tq_if_loop. unfold If. tqs. Qed.
Lemma tq_switch_loop : forall p v br e, tq (switch_loop L ev p v br e).
Proof. intros p v. fix IH 1. intros [|c [|b br]] e; cbn [switch_loop]; tqs. Qed.
Lemma tq_Switch : forall p, tq (Switch L ev p).
Proof. intros. pose proof tq_switch_loop. unfold Switch. tqs. Qed.
Lemma tq_evalCondS : forall p c, tq (evalCondS ev p c).
Proof. intros. unfold evalCondS. tqs. Qed.
Lemma tq_eval_drop : forall p r c, tq (eval_drop ev p r c).
Proof. intros. unfold eval_drop. tqs. Qed.
Hint Resolve tq_evalCondS tq_eval_drop : tq.
Lemma tq_for_loop : forall k p c b s, tq (for_loop ev k p c b s).
Proof. induction k as [|k IH]; intros; cbn [for_loop]; tqs. Qed.
Lemma tq_For : forall k p, tq (For ev k p).
Proof. intros. pose proof tq_for_loop. unfold For. tqs. Qed.
Lemma tq_run_defers : forall p l, tq (run_defers ev p l).
Proof. intros p l. unfold tidy in Hev. induction l as [|c l IH]; cbn [run_defers]; tqs. Qed.
Lemma tq_ExecDefers : forall p, tq (ExecDefers ev p).
Proof. intros. pose proof tq_run_defers. unfold ExecDefers. tqs. Qed.
Hint Resolve tq_ExecDefers : tq.
Lemma tq_Return : forall p, tq (Return ev p).
Proof. intros. unfold Return. tqs. Qed.
Lemma tq_call_end : forall k b e, tq (call_end ev k b e).
Proof. intros. unfold call_end. tqs. Qed.
Lemma tq_FnCall : forall f args, tq (FnCall ev f args).
Proof.
  intros. pose proof tq_call_end as CE. unfold FnCall. destruct (call_count f args); [tqs|]. destruct (f_body f) as [b|]; [|tqs]. destruct (call_vars f args); [|tqs].
  apply tq_bind; [tqs|]. intro k. apply tq_bind; [tqs|]. intro base. intro s. pose proof (Hev k n_docr (VCode b) s) as H. destruct (ev k n_docr (VCode b) s) as [(r, s1)|(e, s1)]; cbn in H.
  - eapply se_trans; [exact H|]. apply tq_bind; [apply CE|]. intro. destruct r; tqs.
  - destruct (uncatchable e); [exact H|]. eapply se_trans; [exact H|]. apply tq_bind; [apply CE|]. intro. tqs.
Qed.
Hint Resolve tq_FnCall : tq.
Lemma tq_Main : forall p, tq (Main ev p).
Proof. intros. unfold Main. tqs. Qed.
Lemma tq_New : forall p, tq (New ev p).
Proof. intros. unfold New, ThisCall. tqs. Qed.
Lemma tf_as_fn : forall r fn, as_fn L ev r = Some fn -> forall args, tf (fn_call fn args).
Proof.
  intros r fn E args. unfold as_fn in E. destruct (unemb r); try discriminate E.
  - injection E as <-. unfold variadic_fn. cbn [fn_call]. apply tf_run. apply tq_FnCall.
  - injection E as <-. unfold variadic_fn. cbn [fn_call]. apply tf_run. unfold ThisCall. apply tq_FnCall.
  - injection E as <-. cbn [fn_call]. apply tf_run. unfold Unset. apply tq_updf.
  - destruct (beq name n_panic); [injection E as <-; cbn [fn_call]; apply tf_run; apply tq_throw_value|]. destruct (beq name n_set); [injection E as <-; cbn [fn_call]; apply tf_run; apply tq_Set|].
    destruct (l_golib L name); [|discriminate E]. injection E as <-. cbn [fn_call]. apply tf_run. apply tq_libcall.
  - destruct n as [|[|[|n]]]; try discriminate E; injection E as <-; intro s; apply se_refl.
Qed.
Lemma tq_QVCall : tq (QVCall L ev).
Proof. unfold QVCall. tqs. apply tq_lift_call. apply tc_VCall. exact tf_as_fn. Qed.
End Tidy.
