(** Matches of a known token sequence whose traces stand in a relation to something: the lemmas of PegTools with the trace
    hidden. *)
From Verif Require Import Base Token Grammar PegSpec MatchProofs MatchProofs2 PegTools.

Section Rel.
Context {A T : Type}.
Variable env : bytes -> option (gr A T).
Context {X : Type}.
Variable R : list (@ev A T) -> X -> Prop.
Variable e : X.
Variable op : X -> X -> X.
Hypothesis R_nil : R [] e.
Hypothesis R_app : forall tr1 tr2 x1 x2, R tr1 x1 -> R tr2 x2 -> R (tr1 ++ tr2) (op x1 x2).

Definition ok (g : gr A T) (ts rest : list token) (l : Z) (x : X) : Prop := exists tr, parses env g ts rest l tr /\ R tr x.
Definition okS (gs : list (gr A T)) (ts rest : list token) (x : X) : Prop := exists tr, parses_seq env gs ts rest tr /\ R tr x.
Definition okR (g : gr A T) (c : Z) (ts rest : list token) (x : X) : Prop := exists tr, parses_rep env g c ts rest tr /\ R tr x.

Lemma okS_nil : forall rest, okS [] [] rest e.
Proof. intro rest. exists []. split; [apply pr_seq_nil|exact R_nil]. Qed.
Lemma okS_cons : forall g gs ts1 ts2 rest l x1 x2, g <> GNil -> ok g ts1 (ts2 ++ rest) l x1 -> okS gs ts2 rest x2 -> okS (g :: gs) (ts1 ++ ts2) rest (op x1 x2).
Proof. intros g gs ts1 ts2 rest l x1 x2 Hg (tr1 & P1 & R1) (tr2 & P2 & R2). exists (tr1 ++ tr2). split; [eapply pr_seq_cons; eassumption|apply R_app; assumption]. Qed.
Lemma okS_bang : forall gs ts rest x, okS gs ts rest x -> okS (GNil :: gs) ts rest x.
Proof. intros gs ts rest x (tr & P & H). exists tr. split; [|exact H]. intros p src0 ff. apply S_bang. apply P. Qed.
Lemma okS_tok : forall t k gs ts rest x, tkind t = k -> okS gs ts rest x -> okS (GTok k :: gs) (t :: ts) rest x.
Proof. intros t k gs ts rest x Ht (tr & P & H). exists tr. split; [|exact H]. apply (pr_seq_cons env (GTok k) gs [t] ts rest (-1) [] tr); [discriminate|apply pr_tok; exact Ht|exact P]. Qed.
Lemma okS_last : forall g ts rest l x, g <> GNil -> ok g ts rest l x -> okS [g] ts rest x.
Proof.
  intros g ts rest l x Hg (tr & P & H). exists tr. split; [|exact H]. rewrite <- (app_nil_r ts), <- (app_nil_r tr). apply (pr_seq_cons env g [] ts [] rest l tr []); [exact Hg|exact P|apply pr_seq_nil].
Qed.
Lemma ok_tok : forall t k rest, tkind t = k -> ok (GTok k) [t] rest (-1) e.
Proof. intros t k rest H. exists []. split; [apply pr_tok; exact H|exact R_nil]. Qed.
Lemma ok_and : forall gs ts rest x, okS gs ts rest x -> ok (GAnd gs) ts rest (Z.of_nat (length gs)) x.
Proof. intros gs ts rest x (tr & P & H). exists tr. split; [apply pr_and; exact P|exact H]. Qed.
(** the alternatives before fail silently *)
Lemma ok_or : forall gs1 g gs2 ts rest l x, Forall (fun g1 => peg env g1 (ts ++ rest) OFail []) gs1 -> ok g ts rest l x ->
  ok (GOr (gs1 ++ g :: gs2)) ts rest (Z.of_nat (length (gs1 ++ g :: gs2))) x.
Proof.
  intros gs1 g gs2 ts rest l x Hr (tr & P & H). exists tr. split; [|exact H]. apply (P_Or env _ _ (OOk (length ts) l) tr).
  induction Hr as [|g1 gs1 Hg Hr IH]; [apply A_ok; exact P|]. apply (A_next env g1 (gs1 ++ g :: gs2) (ts ++ rest) _ [] tr); assumption.
Qed.
Lemma ok_act : forall g a ts rest l x y, ok g ts rest l x -> R [EvAct a ts l] y -> ok (GAct g a) ts rest l (op x y).
Proof. intros g a ts rest l x y (tr & P & H) Ha. exists (tr ++ [EvAct a ts l]). split; [apply pr_act; exact P|apply R_app; assumption]. Qed.
Lemma ok_act_tok : forall k a t rest y, tkind t = k -> R [EvAct a [t] (-1)] y -> ok (GAct (GTok k) a) [t] rest (-1) y.
Proof. intros k a t rest y Ht Ha. exists [EvAct a [t] (-1)]. split; [apply (pr_act env (GTok k) a [t] rest (-1) []); apply pr_tok; exact Ht|exact Ha]. Qed.
Lemma ok_var : forall v g ts rest l x, env v = Some g -> ok g ts rest l x -> ok (GVar v) ts rest (-1) x.
Proof. intros v g ts rest l x E (tr & P & H). exists tr. split; [eapply pr_var; eassumption|exact H]. Qed.
Lemma ok_named : forall v g ts rest l x, ok g ts rest l x -> ok (GNamed v g) ts rest (-1) x.
Proof. intros v g ts rest l x (tr & P & H). exists tr. split; [eapply pr_named; eassumption|exact H]. Qed.
Lemma okR_end : forall g rest, peg env g rest OFail [] -> okR g 0 [] rest e.
Proof. intros g rest H. exists []. split; [apply R_end; exact H|exact R_nil]. Qed.
Lemma okR_more : forall g ts1 ts2 rest l c x1 x2, ok g ts1 (ts2 ++ rest) l x1 -> okR g c ts2 rest x2 -> okR g (c + 1) (ts1 ++ ts2) rest (op x1 x2).
Proof. intros g ts1 ts2 rest l c x1 x2 (tr1 & P1 & R1) (tr2 & P2 & R2). exists (tr1 ++ tr2). split; [eapply pr_rep_more; eassumption|apply R_app; assumption]. Qed.
Lemma ok_rep0 : forall id g c ts rest x, okR g c ts rest x -> ok (GRep0 id g) ts rest c x.
Proof. intros id g c ts rest x (tr & P & H). exists tr. split; [apply pr_rep0; exact P|exact H]. Qed.
Lemma ok_opt : forall id g ts rest l x, ok g ts rest l x -> ok (GRep01 id g) ts rest 1 x.
Proof. intros id g ts rest l x (tr & P & H). exists tr. split; [eapply pr_rep01; exact P|exact H]. Qed.
Lemma ok_opt_no : forall id g rest, peg env g rest OFail [] -> ok (GRep01 id g) [] rest 0 e.
Proof. intros id g rest H. exists []. split; [apply (P_Rep01 env id g rest OFail []); exact H|exact R_nil]. Qed.
Lemma ok_list : forall id a b l0 ts1 ts2 rest l c x1 x2, ok a ts1 (ts2 ++ rest) l x1 -> okR (GAnd [b; a]) c ts2 rest x2 -> ok (GList id a b l0) (ts1 ++ ts2) rest (c + 1) (op x1 x2).
Proof. intros id a b l0 ts1 ts2 rest l c x1 x2 (tr1 & P1 & R1) (tr2 & P2 & R2). exists (tr1 ++ tr2). split; [eapply pr_list; eassumption|apply R_app; assumption]. Qed.
Lemma ok_list_no : forall id a b rest, peg env a rest OFail [] -> ok (GList id a b true) [] rest 0 e.
Proof. intros id a b rest H. exists []. split; [apply P_List0_no; exact H|exact R_nil]. Qed.
End Rel.
