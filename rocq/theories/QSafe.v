(** Well-formed values, states and libraries of qlang, and what an evaluation may do to the stack.  The specification for
    Property C76. *)
From Coq Require Import String SpecFloat.
From Verif Require Import Base Token Grammar Interp QValue Qlang QlangSpec QText.
Local Open Scope Z_scope.

Section Safe.
Context {W : Type}.
Variable L : qlib W.
Notation St := (est nat value (@rest W)).
Notation qval := (rval float value nat value).

(** ** Values *)
(** what the machine says of a stack that does not hold what it expects (qlang.go:191-234, ctrl.go, call.go) *)
Definition stack_msg (m : bytes) : bool := beq m m_badargs || beq m m_noarity || beq m m_notsym || beq m m_forcode || beq m m_unexp.
(** the code of every function in it is a well-formed document *)
Definition wf_body (b : option (list token)) : Prop := match b with None => True | Some ts => exists c, doc_is L ts c end.
Definition wf_class (c : class) : Prop := Forall (fun e => wf_body (f_body (snd e))) (c_fns c).
Fixpoint wf_value (v : value) : Prop :=
  match v with
  | VSlice _ l => (fix all (l : list value) : Prop := match l with [] => True | x :: l' => wf_value x /\ all l' end) l
  | VFunc f => wf_body (f_body f)
  | VClass c | VObj _ c => wf_class c
  | VThis _ _ c f => wf_class c /\ wf_body (f_body f)
  | VFnInfo _ b _ => wf_body b
  | VCode _ => False                                          (* programs have no values of this kind *)
  | VMsg m _ => stack_msg m = false                           (* nor messages of those *)
  | _ => True
  end.
(** ... in an error: not "unexpected: call runtime stack damaged" *)
Definition wf_err (e : err value) : Prop := match e with EOfStr (SOther v) => wf_value v | EStackDamaged => False | _ => True end.
(** ... in what a panic carries: a string, an error, the same told where in the text it came from, any other value *)
Definition wf_panic (e : panicq) : Prop :=
  match e with PUser (PvStr (SOther v)) | PUser (PvOther v) => wf_value v | PUser (PvErr x) | PUser (PvRuntime x _) => wf_err x | _ => True end.
(** ... in an argument or result of a function of the library *)
Definition wf_arg (r : qval) : Prop := wf_value (unemb r).

(** ** States *)
(** what is deferred is a well-formed expression *)
Definition wf_deferred (v : value) : Prop := exists ts c, v = VCode ts /\ expr_is L ts c.
Definition wf_frame (f : frame) : Prop :=
  Forall (fun e => wf_value (snd e)) (fr_vars f) /\ wf_value (fr_ret f) /\ (forall e, fr_recov f = Some e -> wf_panic e) /\ Forall wf_deferred (fr_defers f).
(** [IW]: what the libraries keep in their own state *)
Variable IW : W -> Prop.
Definition wf_state (s : St) : Prop :=
  Forall wf_frame (r_frames (e_rest s)) /\ Forall (Forall (fun e => wf_value (snd e))) (r_objs (e_rest s)) /\ Forall wf_panic (r_excs (e_rest s)) /\ IW (r_world (e_rest s)).

(** ** Libraries: given well-formed values, they return such *)
Definition lib_gives {A : Type} (ok : A -> Prop) (r : (A + pvq) * W) : Prop := IW (snd r) /\ match fst r with inl x => ok x | inr q => wf_panic (PUser q) end.
Definition wf_lib : Prop :=
  (forall n v, l_fnval L n = Some v -> wf_value v) /\
  (forall n f args w, l_golib L n = Some f -> Forall wf_arg args -> IW w -> lib_gives (Forall wf_arg) (lf_call f args w)) /\
  (forall v n w, wf_value v -> IW w -> lib_gives (fun r => match r with inl x => wf_value x | inr e => wf_err e end) (l_member L v n w)) /\
  (forall l w, Forall wf_value l -> IW w -> lib_gives wf_value (l_mapFrom L l w)) /\
  (forall v i w, wf_value v -> wf_value i -> IW w -> lib_gives wf_value (l_getIndex L v i w)) /\
  (forall v i j w, wf_value v -> wf_value i -> wf_value j -> IW w -> lib_gives wf_value (l_subSlice L v i j w)).

(** ** Evaluations *)
(** the frames that were there are there, and those other than [p] are based where they were *)
Definition grown (p : option nat) (s s' : St) : Prop :=
  (nframes s <= nframes s')%nat /\ forall q, (q < nframes s)%nat -> p <> Some q -> fr_base (getf q s') = fr_base (getf q s).
(** the values that were on the stack are there, with more on them or not *)
Definition over (st : list value) (s : St) : Prop := exists l, e_stk s = l ++ st.
(** a panic in frame [p] *)
Definition panicked (p : nat) (st : list value) (s : St) (e : panicq) (s' : St) : Prop :=
  wf_state s' /\ wf_panic e /\ grown (Some p) s s' /\ over st s' /\ (fr_base (getf p s') <= length (e_stk s'))%nat.
(** The evaluation of code in frame [p] is safe: it ends with one value more on the stack than before, or panics on top of the
    stack that was there; never with an error of matching. *)
Definition safely_ends (p : nat) (s : St) (r : @qres W (option panicq)) : Prop :=
  match r with
  | inl (None, s') => wf_state s' /\ grown None s s' /\ exists v, wf_value v /\ e_stk s' = v :: e_stk s
  | inl (Some _, _) => False
  | inr (e, s') => panicked p (e_stk s) s e s'
  end.
(** where code of [rule] can be evaluated in frame [p]: documents, which cut the stack back to the frame's base between
    statements, only when that is the present height *)
Definition ready (p : nat) (rule : bytes) (s : St) : Prop :=
  (p < nframes s)%nat /\ (fr_base (getf p s) <= length (e_stk s))%nat /\ (rule = n_docr -> fr_base (getf p s) = length (e_stk s)).
End Safe.
