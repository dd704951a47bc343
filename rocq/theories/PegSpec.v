(** Declarative meaning of grammars, independent of the matcher's code: the operators as described in
    tpl/README.md (sequence, fail-fast [!], ordered choice, greedy repetition, lists, look-ahead).

    [peg env g src o tr]: matching [g] at the start of [src] has outcome [o] and performs exactly the
    client calls [tr], in this order. *)
From Verif Require Import Base Token Grammar.

Section Peg.
Context {A T : Type}.
Variable env : bytes -> option (gr A T).

(** Why a match can stop for good: the sequence [p], started at [src0], failed after [!], or a nil
    grammar was used. *)
Inductive stop : Type := SFailFast (p : gr A T) (src0 : list token) | SNilGrammar.

(** [OOk n l]: success, [n] tokens consumed, [l] is what Len() reports (-1 if not an array rule). *)
Inductive outcome : Type := OOk (n : nat) (l : Z) | OFail | OStop (k : stop).

(** Client calls: an action with the matched tokens and Len(), begin/end of a transaction. *)
Inductive ev : Type :=
| EvAct (a : A) (ts : list token) (l : Z)
| EvBegin (t : T)
| EvEnd (t : T) (ok : bool).

Definition tok_ok (kind : Z) (t : token) : Prop :=
  tkind t = kind \/ (tkind t = INT /\ kind = FLOAT).

Definition with_len (l : Z) (o : outcome) : outcome :=
  match o with OOk n _ => OOk n l | _ => o end.
Definition shift (n : nat) (o : outcome) : outcome :=
  match o with OOk m l => OOk (n + m) l | _ => o end.
Definition peek_out (o : outcome) : outcome :=
  match o with OOk _ _ => OOk 0 (-1) | _ => o end.
Definition not_out (o : outcome) : outcome :=
  match o with OOk _ _ => OFail | OFail => OOk 0 (-1) | OStop k => OStop k end.
Definition opt_out (o : outcome) : outcome :=
  match o with OOk n _ => OOk n 1 | OFail => OOk 0 0 | OStop k => OStop k end.
Definition is_ok (o : outcome) : Prop := match o with OOk _ _ => True | _ => False end.
Definition end_of (t : T) (o : outcome) : list ev :=
  match o with OOk _ _ => [EvEnd t true] | OFail => [EvEnd t false] | OStop _ => [] end.

Inductive peg : gr A T -> list token -> outcome -> list ev -> Prop :=
| P_Nil : forall src, peg GNil src (OStop SNilGrammar) []
| P_Tok : forall kind t src, tok_ok kind t -> peg (GTok kind) (t :: src) (OOk 1 (-1)) []
| P_Tok_fail : forall kind src,
    (forall t r, src = t :: r -> ~ tok_ok kind t) -> peg (GTok kind) src OFail []
| P_True : forall src, peg GTrue src (OOk 0 (-1)) []
| P_Peek : forall g src o tr, peg g src o tr -> peg (GPeek g) src (peek_out o) tr
| P_Not : forall g src o tr, peg g src o tr -> peg (GNot g) src (not_out o) tr
| P_EOF : peg GEOF [] (OOk 0 (-1)) []
| P_EOF_fail : forall t src, peg GEOF (t :: src) OFail []
| P_And : forall gs src o tr,
    peg_seq (GAnd gs) src gs false src o tr -> peg (GAnd gs) src (with_len (Z.of_nat (length gs)) o) tr
| P_Or : forall gs src o tr,
    peg_alt gs src o tr -> peg (GOr gs) src (with_len (Z.of_nat (length gs)) o) tr
| P_Rep0 : forall id g src c n tr,
    peg_rep g src (inl (c, n)) tr -> peg (GRep0 id g) src (OOk n c) tr
| P_Rep0_stop : forall id g src k tr,
    peg_rep g src (inr k) tr -> peg (GRep0 id g) src (OStop k) tr
| P_Rep1 : forall id g src n l c m tr1 tr2,
    peg g src (OOk n l) tr1 -> peg_rep g (skipn n src) (inl (c, m)) tr2 ->
    peg (GRep1 id g) src (OOk (n + m) (c + 1)) (tr1 ++ tr2)
| P_Rep1_stop : forall id g src n l k tr1 tr2,
    peg g src (OOk n l) tr1 -> peg_rep g (skipn n src) (inr k) tr2 ->
    peg (GRep1 id g) src (OStop k) (tr1 ++ tr2)
| P_Rep1_no : forall id g src o tr, peg g src o tr -> ~ is_ok o -> peg (GRep1 id g) src o tr
| P_Rep01 : forall id g src o tr, peg g src o tr -> peg (GRep01 id g) src (opt_out o) tr
| P_List : forall id a b l0 src n l c m tr1 tr2,
    peg a src (OOk n l) tr1 -> peg_rep (GAnd [b; a]) (skipn n src) (inl (c, m)) tr2 ->
    peg (GList id a b l0) src (OOk (n + m) (c + 1)) (tr1 ++ tr2)
| P_List_stop2 : forall id a b l0 src n l k tr1 tr2,
    peg a src (OOk n l) tr1 -> peg_rep (GAnd [b; a]) (skipn n src) (inr k) tr2 ->
    peg (GList id a b l0) src (OStop k) (tr1 ++ tr2)
| P_List_no : forall id a b src tr,
    peg a src OFail tr -> peg (GList id a b false) src OFail tr
| P_List0_no : forall id a b src tr,
    peg a src OFail tr -> peg (GList id a b true) src (OOk 0 0) tr
| P_List_stop : forall id a b l0 src k tr,
    peg a src (OStop k) tr -> peg (GList id a b l0) src (OStop k) tr
| P_Var : forall v g src o tr,
    env v = Some g -> peg g src o tr -> peg (GVar v) src (with_len (-1) o) tr
| P_Var_none : forall v src, env v = None -> peg (GVar v) src OFail []
| P_Named : forall v g src o tr, peg g src o tr -> peg (GNamed v g) src (with_len (-1) o) tr
| P_Act : forall g a src n l tr,
    peg g src (OOk n l) tr ->
    peg (GAct g a) src (OOk n l) (tr ++ [EvAct a (firstn n src) l])
| P_Act_no : forall g a src o tr, peg g src o tr -> ~ is_ok o -> peg (GAct g a) src o tr
| P_Trans : forall g t src o tr,
    peg g src o tr -> peg (GTrans g t) src o (EvBegin t :: tr ++ end_of t o)

(** The rest of the sequence [p] that started at [src0]; the flag says whether a [!] was passed. *)
with peg_seq : gr A T -> list token -> list (gr A T) -> bool -> list token -> outcome -> list ev -> Prop :=
| S_nil : forall p src0 ff src, peg_seq p src0 [] ff src (OOk 0 0) []
| S_bang : forall p src0 gs ff src o tr,
    peg_seq p src0 gs true src o tr -> peg_seq p src0 (GNil :: gs) ff src o tr
| S_ok : forall p src0 g gs ff src n l o tr1 tr2,
    g <> GNil -> peg g src (OOk n l) tr1 -> peg_seq p src0 gs ff (skipn n src) o tr2 ->
    peg_seq p src0 (g :: gs) ff src (shift n o) (tr1 ++ tr2)
| S_fail : forall p src0 g gs src tr,
    g <> GNil -> peg g src OFail tr -> peg_seq p src0 (g :: gs) false src OFail tr
| S_failfast : forall p src0 g gs src tr,
    g <> GNil -> peg g src OFail tr ->
    peg_seq p src0 (g :: gs) true src (OStop (SFailFast p src0)) tr
| S_stop : forall p src0 g gs ff src k tr,
    g <> GNil -> peg g src (OStop k) tr -> peg_seq p src0 (g :: gs) ff src (OStop k) tr

(** Ordered choice among the remaining alternatives. *)
with peg_alt : list (gr A T) -> list token -> outcome -> list ev -> Prop :=
| A_nil : forall src, peg_alt [] src OFail []
| A_ok : forall g gs src n l tr, peg g src (OOk n l) tr -> peg_alt (g :: gs) src (OOk n l) tr
| A_next : forall g gs src o tr1 tr2,
    peg g src OFail tr1 -> peg_alt gs src o tr2 -> peg_alt (g :: gs) src o (tr1 ++ tr2)
| A_stop : forall g gs src k tr,
    peg g src (OStop k) tr -> peg_alt (g :: gs) src (OStop k) tr

(** As many [g] as possible: [inl (count, consumed)] or [inr] the reason for stopping. *)
with peg_rep : gr A T -> list token -> (Z * nat) + stop -> list ev -> Prop :=
| R_end : forall g src tr, peg g src OFail tr -> peg_rep g src (inl (0, 0%nat)) tr
| R_more : forall g src n l c m tr1 tr2,
    peg g src (OOk n l) tr1 -> peg_rep g (skipn n src) (inl (c, m)) tr2 ->
    peg_rep g src (inl (c + 1, (n + m)%nat)) (tr1 ++ tr2)
| R_more_stop : forall g src n l k tr1 tr2,
    peg g src (OOk n l) tr1 -> peg_rep g (skipn n src) (inr k) tr2 ->
    peg_rep g src (inr k) (tr1 ++ tr2)
| R_stop : forall g src k tr, peg g src (OStop k) tr -> peg_rep g src (inr k) tr.

(** Effect of a trace on the client's state: actions and transaction ends are called with the values
    in the trace, [end] receives the value its [begin] returned. *)
Context {P U V : Type}.
Variable u : uclient A T P U V.

Fixpoint run (tr : list ev) (vs : list V) (x : U) : (list V * U) + (pan A T P * U) :=
  match tr with
  | [] => inl (vs, x)
  | EvAct a ts l :: tr' =>
      match u_act u a ts l x with
      | inl x' => run tr' vs x'
      | inr px => inr px
      end
  | EvBegin t :: tr' => let (v, x') := u_begin u t x in run tr' (v :: vs) x'
  | EvEnd t ok :: tr' =>
      match vs with
      | v :: vs' => run tr' vs' (u_end u t v ok x)
      | [] => run tr' [] x      (* does not occur in traces of [peg] *)
      end
  end.

End Peg.

Scheme peg_mut := Induction for peg Sort Prop
  with seq_mut := Induction for peg_seq Sort Prop
  with alt_mut := Induction for peg_alt Sort Prop
  with rep_mut := Induction for peg_rep Sort Prop.
Combined Scheme peg_ind4 from peg_mut, seq_mut, alt_mut, rep_mut.

Arguments EvAct {A T}.
Arguments EvBegin {A T}.
Arguments EvEnd {A T}.
Arguments SFailFast {A T}.
Arguments SNilGrammar {A T}.
Arguments OOk {A T}.
Arguments OFail {A T}.
Arguments OStop {A T}.
