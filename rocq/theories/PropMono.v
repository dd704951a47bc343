(** Property C93: whether and how Exec of a text ends depends on the text and the engine's state alone, not on the bound that the
    model puts on its steps; and a program without functions ends exactly when its statements, run on a map of variables, end. *)
From Coq Require Import String SpecFloat.
From Verif Require Import Base Token Scanner Tokenize Grammar Compiler Interp QValue Qlang QlangSpec QlangTop QText QTidy QExpr QEval PropVars QExprP PropText QEmbed PropEmbed QlangEx QWhile QWhileP PropWhile QMono QEnds.
Local Open Scope list_scope.
Local Open Scope Z_scope.

Section Mono.
Context {W : Type}.
Variable L : qlib W.
Variables isL isD : Z -> bool.
Notation St := (est nat value (@rest W)).
Notation ev := (QlangTop.ev L).
Notation holds := PropEmbed.holds.

(** the model's bound was reached *)
Definition out_of_steps {A : Type} (r : A + (panicq * St)) : Prop := exists s, r = inr (PUser PvFuel, s).

Lemma steps_dec : forall A (r : A + (panicq * St)), out_of_steps r \/ ~ out_of_steps r.
Proof.
  intros A [a|(p, s)]; [right; intros (s1 & E); discriminate E|]. destruct p; try (right; intros (s1 & E); discriminate E).
  match goal with |- context [PUser ?q] => destruct q end; try (right; intros (s1 & E); discriminate E). left. exists s. reflexivity.
Qed.

(** ** The bound *)
Theorem C93_bound_exec : forall n n' semis old src s, (n <= n')%nat -> ~ out_of_steps (Exec L isL isD n semis old src s) ->
  Exec L isL isD n' semis old src s = Exec L isL isD n semis old src s.
Proof. intros n n' semis old src s H E. destruct (Exec_le L isL isD n n' semis old src s H) as [X|X]; [exact X|contradiction]. Qed.
Theorem C93_bound_safe : forall n n' semis old src s, (n <= n')%nat -> ~ out_of_steps (SafeExec L isL isD n semis old src s) ->
  SafeExec L isL isD n' semis old src s = SafeExec L isL isD n semis old src s.
Proof. intros n n' semis old src s H E. destruct (SafeExec_le L isL isD n n' semis old src s H) as [X|X]; [exact X|contradiction]. Qed.
Theorem C93_bound_eval : forall n n' p rule code s, (n <= n')%nat -> ~ out_of_steps (ev n p rule code s) -> ev n' p rule code s = ev n p rule code s.
Proof. intros n n' p rule code s H E. destruct (ev_le L n n' H p rule code s) as [X|X]; [exact X|contradiction]. Qed.
(** So two runs that end, end alike, whatever their bounds. *)
Theorem C93_one_result : forall n n' semis old src s, ~ out_of_steps (SafeExec L isL isD n semis old src s) -> ~ out_of_steps (SafeExec L isL isD n' semis old src s) ->
  SafeExec L isL isD n semis old src s = SafeExec L isL isD n' semis old src s.
Proof.
  intros n n' semis old src s H H'. destruct (Nat.le_ge_cases n n') as [X|X]; [symmetry|]; apply C93_bound_safe; assumption.
Qed.

(** ** Ending *)
Lemma wrap_fuel : forall ts (q : pvq), wrap ts (PUser q) = PUser PvFuel -> q = PvFuel.
Proof. intros ts q H. destruct q; cbn in H; try discriminate H. exact eq_refl. Qed.
(** If Exec ends with some bound, then the program ends, with the outcome that Exec shows. *)
Theorem C93_ends : forall semis old src ts eof b, plain_lib L -> Tokenize isL isD false semis (AutoKw q_akw) old src = TzOk ts eof -> b <> BNil -> bwritten L b ts ->
  forall n g s, holds g s -> ~ out_of_steps (Exec L isL isD n semis old src s) ->
  exists k o, brun L k b g = Some o /\
    match snd o with
    | inl v => exists s' l, Exec L isL isD n semis old src s = inl (None, s') /\ e_stk s' = v :: l /\ holds (fst o) s'
    | inr q => exists src' s', Exec L isL isD n semis old src s = inr (wrap src' (PUser q), s') /\ holds (fst o) s'
    end.
Proof.
  intros semis old src ts eof b PL Ht Nb Hw n g s Hs Hn. destruct (texts_end L PL) as (_ & TB & _). pose proof (TB b ts Hw) as HB. destruct b as [|st b]; [contradiction|]. destruct HB as (Nt & c & Hd & N & M).
  destruct (exec_text L isL isD semis old src ts eof c Ht Hd) as (N' & X).
  set (m := (n + N + N')%nat). pose proof (C93_bound_exec n m semis old src s ltac:(lia) Hn) as E.
  specialize (M m g s ltac:(lia) (holds_env g s Hs)). destruct Hs as (Hc & F & P & I & Mu & De & B & V). specialize (M B).
  pose proof (X m s ltac:(lia)) as Em. rewrite I in Em. replace (set_mute 0 s) with s in Em by (rewrite <- Mu; destruct s; reflexivity).
  destruct M as [(s1 & M)|(o & (k & Ho) & _)].
  - exfalso. apply Hn. rewrite <- E, Em, M. exists s1. reflexivity.
  - exists k, o. split; [exact Ho|].
    destruct (C92_exec L isL isD semis old src ts eof (BCons st b) k g o PL Ht Nb Hw Ho) as (N2 & Y). specialize (Y (n + N2)%nat s ltac:(lia) (conj Hc (conj F (conj P (conj I (conj Mu (conj De (conj B V)))))))).
    rewrite (C93_bound_exec n (n + N2) semis old src s ltac:(lia) Hn) in Y. destruct o as (g', [v|q]); cbn [fst snd] in *; [|exact Y].
    destruct Y as (s' & l & A1 & A2 & _ & A4). exists s', l. auto.
Qed.
(** Exec ends, with a large enough bound, exactly if the program does. *)
Theorem C93_ends_iff : forall semis old src ts eof b, plain_lib L -> Tokenize isL isD false semis (AutoKw q_akw) old src = TzOk ts eof -> b <> BNil -> bwritten L b ts ->
  forall g s, holds g s -> all_plain g -> (exists n, ~ out_of_steps (Exec L isL isD n semis old src s)) <-> (exists k o, brun L k b g = Some o).
Proof.
  intros semis old src ts eof b PL Ht Nb Hw g s Hs G. split.
  - intros (n & Hn). destruct (C93_ends semis old src ts eof b PL Ht Nb Hw n g s Hs Hn) as (k & o & Ho & _). exists k, o. exact Ho.
  - intros (k & o & Ho). destruct (C92_exec L isL isD semis old src ts eof b k g o PL Ht Nb Hw Ho) as (N & Y). exists N. specialize (Y N s ltac:(lia) Hs). intros (s1 & E). rewrite E in Y.
    destruct (written_tame L PL k) as (_ & TB & _). destruct (TB b ts Hw g o G Ho) as (T & _). destruct o as (g', [v|q]); cbn [fst snd] in *; [destruct Y as (s' & l & Y & _); discriminate Y|].
    destruct Y as (src' & s' & Y & _). injection Y as Y _. symmetry in Y. apply wrap_fuel in Y. subst q. destruct T.
Qed.
(** A program that has no outcome keeps Exec, and so SafeExec and the host, busy for ever: no bound suffices. *)
Theorem C93_forever : forall semis old src ts eof b, plain_lib L -> Tokenize isL isD false semis (AutoKw q_akw) old src = TzOk ts eof -> b <> BNil -> bwritten L b ts ->
  forall g s, holds g s -> (forall k, brun L k b g = None) ->
  forall n, out_of_steps (Exec L isL isD n semis old src s) /\ out_of_steps (SafeExec L isL isD n semis old src s).
Proof.
  intros semis old src ts eof b PL Ht Nb Hw g s Hs H n.
  assert (E : out_of_steps (Exec L isL isD n semis old src s)).
  { destruct (steps_dec _ (Exec L isL isD n semis old src s)) as [E|E]; [exact E|]. destruct (C93_ends semis old src ts eof b PL Ht Nb Hw n g s Hs E) as (k & o & Ho & _). rewrite H in Ho. discriminate Ho. }
  split; [exact E|]. destruct E as (s1 & E). exists s1. unfold SafeExec. rewrite E. reflexivity.
Qed.
End Mono.

(** ** Examples *)
(** a counter that never stops, though its variable wraps around *)
Definition endless : string := "i = 0; for { i++ }".
Definition endless_toks : list token := Eval vm_compute in toks endless.
Definition endless_prog : block := BCons (SSet (s2b "i") (lit 0)) (BCons (SFor SNone None SNone (BCons (SInc Inc (s2b "i")) BNil)) BNil).
Definition et (i : nat) : token := nth i endless_toks (mkTok 0 0 []).
Definition es (i n : nat) : list token := firstn n (skipn i endless_toks).
Example endless_written : bwritten L0 endless_prog endless_toks.
Proof.
  refine (bw_cons L0 _ (es 0 3) _ (es 3 6) _ (rw_stmt L0 (et 3) _ (es 4 5) _ [] eq_refl _ (rw_nil L0))).
  - refine (sw_set L0 (et 0) (et 1) _ (es 2 1) eq_refl _ eq_refl (up1 _ _ (w_lit L0 (et 2) (VInt 0) _))); [discriminate|]. apply lit_int; reflexivity.
  - refine (sw_for L0 (et 4) _ _ _ [] (et 5) _ (es 6 2) (et 8) eq_refl (hw_none L0) eq_refl _ eq_refl). refine (bw_cons L0 _ (es 6 2) _ [] _ (rw_nil L0)).
    refine (sw_inc L0 (et 6) (et 7) Inc eq_refl _). left. reflexivity.
Qed.
Example endless_runs : forall g k, brun L0 k endless_prog g = None.
Proof.
  assert (X : forall k m g z, g (s2b "i") = Some (VInt z) -> loop m (oval L0 None) (brun L0 k (BCons (SInc Inc (s2b "i")) BNil)) (srun L0 k SNone) g = None).
  { intros k m. induction m as [|m IH]; intros g z E; [reflexivity|]. cbn [loop oval]. rewrite brun_cons.
    assert (Y : srun L0 k (SInc Inc (s2b "i")) g = Some (with_var (s2b "i") (VInt (wrap64 (z + 1))) g, inl (VInt (wrap64 (z + 1))))) by (cbn [srun]; rewrite E; reflexivity).
    rewrite Y. cbn [andthen]. apply (IH _ (wrap64 (z + 1))). unfold with_var. reflexivity. }
  intros g k. unfold endless_prog. rewrite brun_cons. cbn [srun xval lit assigned andthen rrun]. rewrite brun_cons. rewrite for_run. cbn [srun andthen]. change (Some (with_var (s2b "i") (VInt 0) g, inl VNil)) with (srun L0 k SNone (with_var (s2b "i") (VInt 0) g)).
  cbn [srun andthen]. erewrite X; [reflexivity|]. reflexivity.
Qed.
Example endless_never : forall n, out_of_steps (SafeExec L0 no_class no_class n false PropScan.fresh (s2b endless) (q_start tt)).
Proof.
  intro n. eapply (C93_forever L0 no_class no_class false PropScan.fresh (s2b endless) endless_toks _ endless_prog (proj1 session_asked)); [vm_compute; reflexivity|discriminate|exact endless_written|instantiate (1 := no_vars)|].
  - split; [split; [intros [|[|i]] j Y; discriminate Y|intros [|[|i]] m q Y; discriminate Y]|]. split; [apply Nat.lt_0_1|]. split; [reflexivity|]. split; [reflexivity|]. split; [reflexivity|]. split; [reflexivity|]. split; [apply Nat.le_refl|].
    intros m v. split; [intros (Y & _); discriminate Y|discriminate].
  - apply endless_runs.
Qed.
(** and one that ends: with a small bound out of steps, with two larger ones the same *)
Example tally_bounds : match SafeExec L0 no_class no_class 5 false PropScan.fresh (s2b tally) (q_start tt) with inr (PUser PvFuel, _) => True | _ => False end /\
  match SafeExec L0 no_class no_class 200 false PropScan.fresh (s2b tally) (q_start tt) with inl (None, s) => e_stk s = [VInt 28] | _ => False end.
Proof. vm_compute. split; [exact Logic.I|reflexivity]. Qed.

Print Assumptions C93_bound_exec.
Print Assumptions C93_bound_safe.
Print Assumptions C93_bound_eval.
Print Assumptions C93_one_result.
Print Assumptions C93_ends.
Print Assumptions C93_ends_iff.
Print Assumptions C93_forever.
