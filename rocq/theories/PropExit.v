(** Property C79: how a qlang program ends the process. *)
From Coq Require Import String SpecFloat.
From Verif Require Import Base Token Grammar Compiler Interp QValue PropValue Qlang QlangSpec QlangTop QlangEx PropCtrl PropVars PropCall.
Local Open Scope Z_scope.

(** ** Specification *)
(** the process ends with this status (os.Exit) *)
Definition exits (code : Z) : panicq := PUser (PvOther (VExit code)).
(** the status for what main returned: nil is 0, an int is itself, anything else is none *)
Inductive status : value -> Z -> Prop := st_nil : status VNil 0 | st_int : forall z, status (VInt z) z.

Section Exit.
Context {W : Type}.
Variable ev : nat -> bytes -> value -> @Q W (option panicq).
Notation St := (est nat value (@rest W)).
Implicit Types s : St.

(** ** return outside of functions *)
Lemma return_top : forall k o s, parent k s = None -> (k < nframes s)%nat ->
  Return ev k (pushed_all (match o with Some v => [v; VInt 1] | None => [VInt 0] end) s) =
  (ExecDefers ev k ;;; r <-- gets (fun s => fr_ret (getf k s)) ;; match r with VNil => exit 0 | VInt z => exit z | _ => panic_str m_mainret [] end)
    (updf k (set_ret (match o with Some v => v | None => VNil end)) s).
Proof.
  intros k o s P Hk.
  assert (G : forall v j, getf j (updf k (set_ret v) s) = if (j =? k)%nat then set_ret v (getf k s) else getf j s).
  { intros v j. rewrite getf_updf. destruct (Nat.ltb_spec k (nframes s)); [|lia]. rewrite Bool.andb_true_r. reflexivity. }
  unfold parent in P. unfold Return. destruct o as [v|]; unfold pushed_all; cbn [rev app].
  - rewrite (bind_inl _ _ _ _ _ _ _ (popArity_set _ _ _)). cbn [Z.eqb]. rewrite (bind_inl _ _ _ _ _ tt (updf k (set_ret v) s)).
    + unfold bind at 1, gets at 1. rewrite G, Nat.eqb_refl. cbn [fr_parent set_ret]. rewrite P. reflexivity.
    + rewrite (bind_inl _ _ _ _ _ _ _ (pop_set _ _ _)), set_same. reflexivity.
  - rewrite (bind_inl _ _ _ _ _ _ _ (popArity_set _ _ _)), set_same. cbn [Z.eqb]. rewrite (bind_inl _ _ _ _ _ tt (updf k (set_ret VNil) s)) by reflexivity.
    unfold bind at 1, gets at 1. rewrite G, Nat.eqb_refl. cbn [fr_parent set_ret]. rewrite P. reflexivity.
Qed.
(** It never returns.  What was deferred runs first, once each, the last deferred first; if none of it fails the process
    ends with the status of the value, or there is a panic if it has none. *)
Theorem C79_return : forall k o s e s', parent k s = None -> (k < nframes s)%nat ->
  let v := match o with Some v => v | None => VNil end in
  Return ev k (pushed_all (match o with Some v => [v; VInt 1] | None => [VInt 0] end) s) = inr (e, s') <->
  exists s1, (defers_run ev k (fr_defers (getf k s)) (updf k (set_ret v) s) (Some e) s1 /\ s' = s1) \/
    (defers_run ev k (fr_defers (getf k s)) (updf k (set_ret v) s) None s1 /\ s' = updf k (set_defers []) s1 /\
     ((exists z, status (fr_ret (getf k s1)) z /\ e = exits z) \/ ((forall z, ~ status (fr_ret (getf k s1)) z) /\ e = PUser (msg m_mainret [])))).
Proof.
  intros k o s e s' P Hk v. rewrite (return_top k o s P Hk). fold v. set (s0 := updf k (set_ret v) s).
  assert (D : fr_defers (getf k s0) = fr_defers (getf k s)) by (unfold s0; rewrite getf_updf; destruct (_ && _)%bool; reflexivity).
  assert (R1 : forall s1, fr_ret (getf k (updf k (set_defers []) s1)) = fr_ret (getf k s1)) by (intro s1; rewrite getf_updf; destruct (_ && _)%bool; reflexivity).
  assert (X : exists o1 s1, ends (ExecDefers ev k s0) o1 s1) by (destruct (ExecDefers ev k s0) as [([], s1)|(e1, s1)]; [exists None, s1|exists (Some e1), s1]; reflexivity).
  destruct X as (o1 & s1 & X). pose proof X as Y. apply C56_exec in Y. rewrite D in Y. destruct Y as (s2 & Y & E2).
  assert (F : forall o2 s3, defers_run ev k (fr_defers (getf k s)) s0 o2 s3 -> o2 = o1 /\ s3 = s2).
  { intros o2 s3 Z2. apply run_defers_iff in Z2. apply run_defers_iff in Y. unfold ends in Y, Z2. destruct o1, o2; rewrite Y in Z2; try discriminate Z2; injection Z2; intros; subst; auto. }
  unfold bind at 1. destruct o1 as [e1|]; unfold ends in X; rewrite X.
  - split; [intros [= <- <-]; exists s2; left; subst; auto|]. intros (s3 & [(Z2 & ->)|(Z2 & _)]); destruct (F _ _ Z2) as (E3 & E4); [|discriminate E3]. injection E3 as ->. subst. reflexivity.
  - subst s1. unfold bind, gets. rewrite R1. split.
    + intro H. exists s2. right. split; [exact Y|].
      destruct (fr_ret (getf k s2)) eqn:Er; cbn in H; injection H as <- <-; (split; [reflexivity|]); try (right; split; [intros z0 S0; inversion S0|reflexivity]); left; eexists; split; constructor.
    + intros (s3 & [(Z2 & _)|(Z2 & -> & Z3)]); destruct (F _ _ Z2) as (E3 & E4); [discriminate E3|]. subst s3. destruct Z3 as [(z & S0 & ->)|(N & ->)].
      * inversion S0; reflexivity.
      * destruct (fr_ret (getf k s2)) eqn:Er; try reflexivity; exfalso; [apply (N 0)|apply (N z)]; constructor.
Qed.
Theorem C79_return_ends : forall k o s, parent k s = None -> (k < nframes s)%nat -> forall r, Return ev k (pushed_all (match o with Some v => [v; VInt 1] | None => [VInt 0] end) s) <> inl r.
Proof.
  intros k o s P Hk r. rewrite (return_top k o s P Hk). unfold bind, gets. destruct (ExecDefers ev k _) as [(x, s1)|(e, s1)]; [|discriminate]. destruct (fr_ret (getf k s1)); discriminate.
Qed.

(** ** main *)
(** It never returns either: its body is called as a function without arguments (C55, C56), a panic of which is passed on;
    then the process ends with the status of what it returned, or the panic is a failed conversion. *)
Definition main_func (k : nat) (code : value) (i : nat) : func := mkFunc i [] (code_of code) k false.
Theorem C79_main : forall k code s e s', let s0 := with_ids (S (r_ids (e_rest s))) s in let f := main_func k code (r_ids (e_rest s)) in
  Main ev k (pushed code s) = inr (e, s') <->
    FnCall ev f [] s0 = inr (e, s') \/
    exists r, FnCall ev f [] s0 = inl (r, s') /\ ((exists z, status r z /\ e = exits z) \/ ((forall z, ~ status r z) /\ e = PUser rt_error)).
Proof.
  intros k code s e s' s0 f. assert (E : Main ev k (pushed code s) = (r <-- FnCall ev f [] ;; match r with VNil => exit 0 | VInt z => exit z | _ => crash end) s0).
  { unfold Main, pop_any. unfold pushed. rewrite (bind_inl _ _ _ _ _ code s); [reflexivity|]. rewrite (bind_inl _ _ _ _ _ _ _ (pop_set _ _ _)), set_same. reflexivity. }
  rewrite E. unfold bind. destruct (FnCall ev f [] s0) as [(r, s1)|(e1, s1)].
  - split.
    + intro H. right. exists r. destruct r; cbn in H; injection H as <- <-; (split; [reflexivity|]); try (right; split; [intros z0 S0; inversion S0|reflexivity]); left; eexists; split; constructor.
    + intros [H|(r1 & H & D)]; [discriminate H|]. injection H as <- <-. destruct D as [(z & S0 & ->)|(N & ->)]; [inversion S0; reflexivity|]. destruct r; try reflexivity; exfalso; [apply (N 0)|apply (N z)]; constructor.
  - split; [intros [= <- <-]; auto|]. intros [H|(r1 & H & _)]; [injection H as <- <-; reflexivity|discriminate H].
Qed.
Theorem C79_main_ends : forall k code s r, Main ev k (pushed code s) <> inl r.
Proof.
  intros k code s r. unfold Main, pop_any. unfold pushed. rewrite (bind_inl _ _ _ _ _ code s); [|rewrite (bind_inl _ _ _ _ _ _ _ (pop_set _ _ _)), set_same; reflexivity].
  unfold bind. cbn [fresh_id]. unfold fresh_id. destruct (FnCall ev _ [] _) as [(v, s1)|(e1, s1)]; [|discriminate]. destruct v; discriminate.
Qed.

(** ** Nothing runs after it *)
(** a call in whose body the process ends is over at once: nothing it deferred runs, and there is nothing to recover *)
Theorem C79_final : forall f args body vars s z s1, right_count f (length args) -> f_body f = Some body -> call_vars f args = Some vars ->
  ev (nframes s) n_docr (VCode body) (invoked f vars s) = inr (exits z, s1) -> FnCall ev f args s = inr (exits z, s1).
Proof.
  intros f args body vars s z s1 Hc Hb Hv E. unfold FnCall. rewrite (proj2 (call_count_iff f args) Hc), Hb, Hv. unfold bind at 1, new_frame. fold (invoked f vars s). change (length (r_frames (e_rest s))) with (nframes s).
  unfold bind at 1, gets at 1. rewrite E. reflexivity.
Qed.
End Exit.

(** ** Programs *)
Local Open Scope string_scope.
(** main, with what it defers run first and what follows it not at all *)
Example C79_main_run : leaves "x = 1; main { x; defer fn() { x; x = x + 10 }(); x = 2; return 5 }; x = 7" ["x"] = (Panicked (VExit 5), [], [Some (VInt 12)]).
Proof. vm_compute. reflexivity. Qed.
Example C79_main_nil_run : leaves "main { 3 }" [] = (Panicked (VExit 0), [], []).
Proof. vm_compute. reflexivity. Qed.
Example C79_main_other_run : leaves "main { return ""a"" }" [] = (Panicked (panic_value (PUser rt_error)), [], []).
Proof. vm_compute. reflexivity. Qed.
Example C79_return_run : leaves "x = 1; defer fn() { x; x = x * 10 }(); defer fn() { x; x = x + 1 }(); return 3; x = 0" ["x"] = (Panicked (VExit 3), [VNil; VNil], [Some (VInt 20)]).
Proof. vm_compute. reflexivity. Qed.
Example C79_return_other_run : leaves "return true" [] = (Panicked (VMsg m_mainret []), [], []).
Proof. vm_compute. reflexivity. Qed.
(** main in a function: what the function deferred is not run *)
Example C79_final_run : leaves "x = 1; f = fn() { x; defer fn() { recover(); x; x = 9 }(); main { x; x = 2; return 4 } }; f(); x = 7" ["x"] = (Panicked (VExit 4), [], [Some (VInt 2)]).
Proof. vm_compute. reflexivity. Qed.

Print Assumptions C79_return.
Print Assumptions C79_return_ends.
Print Assumptions C79_main.
Print Assumptions C79_main_ends.
Print Assumptions C79_final.
