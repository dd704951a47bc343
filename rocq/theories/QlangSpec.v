(** What the qlang properties are stated with: states seen from outside, the evaluation of a piece of code, and the
    reference evaluations of if, switch, for, && and ||.  The evaluator of code is a parameter: the properties hold
    whatever evaluating a piece of code does. *)
From Coq Require Import String SpecFloat.
From Verif Require Import Base Token Grammar Compiler Interp QValue Qlang.
Local Open Scope Z_scope.

Notation "x <-- m ;; k" := (bind m (fun x => k)) (at level 100, m at next level, right associativity).
Notation "m ;;; k" := (bind m (fun _ => k)) (at level 100, right associativity).
(** ** States *)
Section States.
Context {W : Type}.
Notation St := (est nat value (@rest W)).
Definition top (s : St) : value := hd VNil (e_stk s).
Definition drop (s : St) : St := set_stk (tl (e_stk s)) s.
Definition pushed (v : value) (s : St) : St := set_stk (v :: e_stk s) s.
Definition pushed_all (l : list value) (s : St) : St := set_stk (rev l ++ e_stk s) s.
(** how a computation without a result ends: None, or the panic *)
Definition ends (r : @qres W unit) (o : option panicq) (s' : St) : Prop :=
  match o with None => r = inl (tt, s') | Some e => r = inr (e, s') end.

Variable ev : nat -> bytes -> value -> @Q W (option panicq).
(** ** A piece of code *)
(** Inside it, the interpreter's base is the present height of the stack; a panic leaves it there. *)
Definition enter (p : nat) (s : St) : St := updf p (set_base (length (e_stk s))) s.
Definition leave (p : nat) (s s1 : St) : St := updf p (set_base (fr_base (getf p s))) s1.
Inductive code_runs (p : nat) (rule : bytes) (code : value) (s : St) : option panicq -> St -> Prop :=
| cr_done : forall s1, ev p rule code (enter p s) = inl (None, s1) -> code_runs p rule code s None (leave p s s1)
| cr_error : forall e s1, ev p rule code (enter p s) = inl (Some e, s1) -> code_runs p rule code s (Some e) (leave p s s1)
| cr_panic : forall e s1, ev p rule code (enter p s) = inr (e, s1) -> code_runs p rule code s (Some e) s1.
(** the body of a statement: an empty one has the value nil *)
Definition body_runs (p : nat) (code : value) (s : St) (o : option panicq) (s' : St) : Prop :=
  (code = VNil /\ o = None /\ s' = pushed VNil s) \/ (code <> VNil /\ code_runs p n_docr code s o s').

(** Every piece of code in [can] that interpreter [p] evaluates without an error leaves one value more on the stack it found;
    [ok] is what the states have to meet, whatever is on the stack, and still do afterwards. *)
Definition one_value (can : bytes -> value -> Prop) (ok : St -> Prop) (p : nat) : Prop :=
  (forall s l, ok s -> ok (set_stk l s)) /\
  forall rule code s s', can rule code -> ok s -> code_runs p rule code s None s' -> ok s' /\ exists v, e_stk s' = v :: e_stk s.
(** code that may be missing *)
Definition opt_code (can : bytes -> value -> Prop) (rule : bytes) (code : value) : Prop := code = VNil \/ can rule code.
Definition branch_code (can : bytes -> value -> Prop) (br : list (value * value)) : Prop := Forall (fun e => can n_expr (fst e) /\ opt_code can n_docr (snd e)) br.

(** ** Branches *)
(** The conditions of the branches are evaluated in order; the verdict on the value of each is: take its body, go on, or
    panic.  Result: the body taken (None: no condition held), or the panic that ended it. *)
Inductive picks (p : nat) (verdict : value -> bool + panicq) : list (value * value) -> St -> option value + panicq -> St -> Prop :=
| picks_none : forall s, picks p verdict [] s (inl None) s
| picks_here : forall c b l s s1, code_runs p n_expr c s None s1 -> verdict (top s1) = inl true -> picks p verdict ((c, b) :: l) s (inl (Some b)) (drop s1)
| picks_next : forall c b l s s1 r s2, code_runs p n_expr c s None s1 -> verdict (top s1) = inl false -> picks p verdict l (drop s1) r s2 ->
    picks p verdict ((c, b) :: l) s r s2
| picks_bad : forall c b l s s1 e, code_runs p n_expr c s None s1 -> verdict (top s1) = inr e -> picks p verdict ((c, b) :: l) s (inr e) (drop s1)
| picks_stop : forall c b l s s1 e, code_runs p n_expr c s (Some e) s1 -> picks p verdict ((c, b) :: l) s (inr e) s1.
(** the whole statement: the body taken, or the last one *)
Definition branches (p : nat) (verdict : value -> bool + panicq) (br : list (value * value)) (other : value) (s : St) (o : option panicq) (s' : St) : Prop :=
  exists r s1, picks p verdict br s r s1 /\
    match r with
    | inl b => body_runs p (match b with Some b => b | None => other end) s1 o s'
    | inr e => o = Some e /\ s' = s1
    end.

(** ** Loops *)
(** a condition, which may be missing, ended with a boolean *)
Definition cond_is (p : nat) (cond : value) (b : bool) (s s' : St) : Prop :=
  (cond = VNil /\ b = true /\ s' = s) \/ (cond <> VNil /\ exists s1, code_runs p n_s cond s None s1 /\ hd_error (e_stk s1) = Some (VBool b) /\ s' = drop s1).
(** code, which may be missing, was evaluated and its value dropped *)
Definition drops (p : nat) (rule : bytes) (code : value) (s s' : St) : Prop :=
  (code = VNil /\ s' = s) \/ (code <> VNil /\ exists s1, code_runs p rule code s None s1 /\ s' = drop s1).
(** the loop ended after [n] rounds *)
Inductive loops (p : nat) (cond body step : value) : nat -> St -> St -> Prop :=
| loops_end : forall s s', cond_is p cond false s s' -> loops p cond body step 0 s s'
| loops_round : forall n s s1 s2 s3 s', cond_is p cond true s s1 -> drops p n_docr body s1 s2 -> drops p n_s step s2 s3 -> loops p cond body step n s3 s' ->
    loops p cond body step (S n) s s'.
(** the condition panicked, or was no boolean, or was not there *)
Definition cond_panics (p : nat) (cond : value) (s : St) (e : panicq) (s' : St) : Prop :=
  cond <> VNil /\ (code_runs p n_s cond s (Some e) s' \/
    exists s1, code_runs p n_s cond s None s1 /\ s' = drop s1 /\
      ((exists v, hd_error (e_stk s1) = Some v /\ (forall b, v <> VBool b) /\ e = PUser (msg m_forcond [])) \/ (e_stk s1 = [] /\ e = PUser (msg m_forcode [])))).
Definition code_panics (p : nat) (rule : bytes) (code : value) (s : St) (e : panicq) (s' : St) : Prop := code <> VNil /\ code_runs p rule code s (Some e) s'.
(** the loop was ended by a panic after [n] complete rounds *)
Inductive loop_panics (p : nat) (cond body step : value) : nat -> St -> panicq -> St -> Prop :=
| lp_cond : forall s e s', cond_panics p cond s e s' -> loop_panics p cond body step 0 s e s'
| lp_body : forall s s1 e s', cond_is p cond true s s1 -> code_panics p n_docr body s1 e s' -> loop_panics p cond body step 0 s e s'
| lp_step : forall s s1 s2 e s', cond_is p cond true s s1 -> drops p n_docr body s1 s2 -> code_panics p n_s step s2 e s' -> loop_panics p cond body step 0 s e s'
| lp_round : forall n s s1 s2 s3 e s', cond_is p cond true s s1 -> drops p n_docr body s1 s2 -> drops p n_s step s2 s3 -> loop_panics p cond body step n s3 e s' ->
    loop_panics p cond body step (S n) s e s'.
(** ... is still running after [n] rounds *)
Inductive loop_still (p : nat) (cond body step : value) : nat -> St -> St -> Prop :=
| ls_0 : forall s, loop_still p cond body step 0 s s
| ls_round : forall n s s1 s2 s3 s', cond_is p cond true s s1 -> drops p n_docr body s1 s2 -> drops p n_s step s2 s3 -> loop_still p cond body step n s3 s' ->
    loop_still p cond body step (S n) s s'.
End States.

(** ** Variables *)
Section Vars.
Context {W : Type}.
Notation St := (est nat value (@rest W)).
Definition nframes (s : St) : nat := length (r_frames (e_rest s)).
Definition parent (i : nat) (s : St) : option nat := fr_parent (getf i s).
(** a value that is not a cached reference to the variable of an enclosing function *)
Definition plain (v : value) : Prop := forall q, v <> VExtern q.
(** function [i] defines [n] with value [v] *)
Definition defines (s : St) (n : bytes) (i : nat) (v : value) : Prop := var_of i n s = Some v /\ plain v.
(** names that inner functions may use: not starting with _ *)
Definition public (n : bytes) : Prop := exists c n', n = c :: n' /\ c <> 95.
(** the nearest definition: in [i] itself, or for a public name in the nearest enclosing function that has one; it is that of
    [q] and its value is [v] *)
Inductive sees (s : St) (n : bytes) : nat -> nat -> value -> Prop :=
| sees_own : forall i v, defines s n i v -> sees s n i i v
| sees_up : forall i j q v, (forall v, ~ defines s n i v) -> public n -> parent i s = Some j -> sees s n j q v -> sees s n i q v.
(** [n] was assigned or read in [i] *)
Definition has_entry (s : St) (n : bytes) (i : nat) : Prop := var_of i n s <> None.
(** enclosing functions were called earlier, and what a function has cached is right: the nearest definition *)
Definition coherent (s : St) : Prop :=
  (forall i j, parent i s = Some j -> (j < i)%nat) /\
  forall i n q, var_of i n s = Some (VExtern q) -> exists v, sees s n i q v.
(** the same definitions, and everything else but cached references too *)
Definition same_defs (s s' : St) : Prop :=
  (forall n i v, defines s' n i v <-> defines s n i v) /\
  (forall i, fr_ret (getf i s') = fr_ret (getf i s) /\ fr_recov (getf i s') = fr_recov (getf i s) /\ parent i s' = parent i s /\
             fr_defers (getf i s') = fr_defers (getf i s) /\ fr_base (getf i s') = fr_base (getf i s)) /\
  nframes s' = nframes s /\ e_stk s' = e_stk s /\ e_mute s' = e_mute s /\ e_ipt s' = e_ipt s /\
  r_objs (e_rest s') = r_objs (e_rest s) /\ r_ids (e_rest s') = r_ids (e_rest s) /\ r_excs (e_rest s') = r_excs (e_rest s) /\ r_world (e_rest s') = r_world (e_rest s).
(** variable [n] of function [q] has become [v]; nothing else has changed but the stack, which is [stk] *)
Definition wrote (q : nat) (n : bytes) (v : value) (stk : list value) (s s' : St) : Prop :=
  e_stk s' = stk /\
  (forall m i u, defines s' m i u <-> if beq m n && (i =? q)%nat then u = v else defines s m i u) /\
  (forall i, fr_ret (getf i s') = fr_ret (getf i s) /\ fr_recov (getf i s') = fr_recov (getf i s) /\ parent i s' = parent i s /\
             fr_defers (getf i s') = fr_defers (getf i s) /\ fr_base (getf i s') = fr_base (getf i s)) /\
  nframes s' = nframes s /\ e_mute s' = e_mute s /\ e_ipt s' = e_ipt s /\
  r_objs (e_rest s') = r_objs (e_rest s) /\ r_ids (e_rest s') = r_ids (e_rest s) /\ r_excs (e_rest s') = r_excs (e_rest s) /\ r_world (e_rest s') = r_world (e_rest s).
End Vars.

(** ** Calls *)
Section Calls.
Context {W : Type}.
Notation St := (est nat value (@rest W)).
Variable ev : nat -> bytes -> value -> @Q W (option panicq).
(** the number of arguments a function takes: as many as it has parameters; with ... the last takes any number *)
Definition right_count (f : func) (n : nat) : Prop :=
  if f_variadic f then (length (f_args f) <= S n)%nat else n = length (f_args f).
(** what a parameter is bound to; of two with the same name it is the last *)
Definition bound_fixed (params : list bytes) (args : list value) (n : bytes) (v : value) : Prop :=
  exists i, nth_error params i = Some n /\ nth_error args i = Some v /\ forall j, (i < j)%nat -> nth_error params j <> Some n.
Definition bound (f : func) (args : list value) (n : bytes) (v : value) : Prop :=
  if f_variadic f then
    exists fixed lastp, f_args f = fixed ++ [lastp] /\
      ((n = lastp /\ v = VSlice TAny (skipn (length fixed) args)) \/ (n <> lastp /\ bound_fixed fixed (firstn (length fixed) args) n v))
  else bound_fixed (f_args f) args n v.
(** the state in which the body starts: one more function invocation, with the arguments bound, nothing returned, recovered
    or deferred, and based at the present height of the stack *)
Definition invoked (f : func) (vars : list (bytes * value)) (s : St) : St :=
  with_frames (r_frames (e_rest s) ++ [mkFrame vars VNil None (Some (f_parent f)) [] (length (e_stk s))]) s.
(** how a body ends: at its end, with an error (of matching), by return, with a panic, or with one that no one can catch
    (os.Exit; the bound of the model) *)
Inductive exit_kind := Ended | Erred (e : panicq) | Returned | Paniced (e : panicq) | Aborted (e : panicq).
Definition body_ends (k : nat) (body : list token) (s : St) (x : exit_kind) (s' : St) : Prop :=
  match x with
  | Ended => ev k n_docr (VCode body) s = inl (None, s')
  | Erred e => ev k n_docr (VCode body) s = inl (Some e, s')
  | Returned => ev k n_docr (VCode body) s = inr (p_return, s')
  | Paniced e => ev k n_docr (VCode body) s = inr (e, s') /\ e <> p_return /\ uncatchable e = false
  | Aborted e => ev k n_docr (VCode body) s = inr (e, s') /\ uncatchable e = true
  end.
(** deferred expressions run once each, in this order, up to the first that fails *)
Inductive defers_run (k : nat) : list value -> St -> option panicq -> St -> Prop :=
| dr_nil : forall s, defers_run k [] s None s
| dr_cons : forall c l s s1 o s2, ev k n_expr c s = inl (None, s1) -> defers_run k l s1 o s2 -> defers_run k (c :: l) s o s2
| dr_error : forall c l s e s1, ev k n_expr c s = inl (Some e, s1) -> defers_run k (c :: l) s (Some e) s1
| dr_panic : forall c l s e s1, ev k n_expr c s = inr (e, s1) -> defers_run k (c :: l) s (Some e) s1.
(** the panic recover() sees while they run *)
Definition pending (x : exit_kind) : option panicq := match x with Paniced e => Some e | _ => None end.
(** the deferred expressions are done: none is left, the stack is cut back to height [base] *)
Definition cut (k base : nat) (s : St) : St :=
  let s1 := updf k (set_defers []) s in set_stk (skipn (length (e_stk s1) - base) (e_stk s1)) s1.
(** a call with [vars] bound and a body, from beginning to end *)
Inductive called (f : func) (body : list token) (vars : list (bytes * value)) (s : St) : value + panicq -> St -> Prop :=
| c_abort : forall e s1, body_ends (nframes s) body (invoked f vars s) (Aborted e) s1 -> called f body vars s (inr e) s1
| c_defer : forall x s1 e s2, body_ends (nframes s) body (invoked f vars s) x s1 -> (forall e, x <> Aborted e) ->
    defers_run (nframes s) (fr_defers (getf (nframes s) s1)) (updf (nframes s) (set_recov (pending x)) s1) (Some e) s2 -> called f body vars s (inr e) s2
| c_panic : forall x s1 s2 e, body_ends (nframes s) body (invoked f vars s) x s1 -> (forall e, x <> Aborted e) ->
    defers_run (nframes s) (fr_defers (getf (nframes s) s1)) (updf (nframes s) (set_recov (pending x)) s1) None s2 ->
    fr_recov (getf (nframes s) s2) = Some e -> called f body vars s (inr e) (cut (nframes s) (length (e_stk s)) s2)
| c_error : forall e s1 s2, body_ends (nframes s) body (invoked f vars s) (Erred e) s1 ->
    defers_run (nframes s) (fr_defers (getf (nframes s) s1)) (updf (nframes s) (set_recov None) s1) None s2 ->
    fr_recov (getf (nframes s) s2) = None -> called f body vars s (inr e) (cut (nframes s) (length (e_stk s)) s2)
| c_return : forall x s1 s2, body_ends (nframes s) body (invoked f vars s) x s1 -> (forall e, x <> Aborted e) -> (forall e, x <> Erred e) ->
    defers_run (nframes s) (fr_defers (getf (nframes s) s1)) (updf (nframes s) (set_recov (pending x)) s1) None s2 ->
    fr_recov (getf (nframes s) s2) = None ->
    called f body vars s (inl (fr_ret (getf (nframes s) s2))) (cut (nframes s) (length (e_stk s)) s2).
Definition after {A : Type} (r : @qres W A) : St := match r with inl (_, s) | inr (_, s) => s end.
(** The body of the call, and then the expressions it deferred, leave in place the stack they find, with more on it or not. *)
Definition keeps (f : func) (body : list token) (vars : list (bytes * value)) (s : St) : Prop :=
  forall x s1, body_ends (nframes s) body (invoked f vars s) x s1 -> (nframes s < nframes s1)%nat /\ (exists l, e_stk s1 = l ++ e_stk s) /\
    ((forall e, x <> Aborted e) -> forall o s2, defers_run (nframes s) (fr_defers (getf (nframes s) s1)) (updf (nframes s) (set_recov (pending x)) s1) o s2 -> exists l, e_stk s2 = l ++ e_stk s).
End Calls.
