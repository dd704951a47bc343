(** The statements of qlang find what was pushed while muted: pieces of code and counts. *)
From Coq Require Import String SpecFloat.
From Verif Require Import Base Token Grammar Compiler Interp QValue Qlang QlangSpec QlangTop PropCtrl QText QTidy QStep.
Local Open Scope Z_scope.

Section Glue.
Context {W : Type}.
Variable L : qlib W.
Notation St := (est nat value (@rest W)).
Infix ">>" := seq (at level 60, right associativity).
Definition flatc (br : list (list token * list token)) : list value := flat_map (fun b => [VCode (fst b); code (snd b)]) br.
(** the values pushed for a last branch that may be missing, and its code *)
Definition last_vals (ec : list token) (l : list value) : Prop := (l = [VInt 0] /\ ec = []) \/ l = [code ec; VInt 1].

Lemma bind_ext : forall A B (m m' : @Q W A) (k k' : A -> @Q W B) s, m s = m' s -> (forall a s, k a s = k' a s) -> bind m k s = bind m' k' s.
Proof. intros A B m m' k k' s Hm Hk. unfold bind. rewrite Hm. destruct (m' s) as [(a, s')|r]; [apply Hk|reflexivity]. Qed.
Lemma flatc_length : forall br, length (flatc br) = (length br * 2)%nat.
Proof. induction br as [|b br IH]; cbn; [reflexivity|]. unfold flatc in IH. rewrite IH. reflexivity. Qed.
Lemma body_run : forall ev p b (s : St), eval_body ev p (code b) s = run_body ev p b s.
Proof. intros ev p [|t b] s; reflexivity. Qed.
Lemma loop_chain : forall ev p br ec (s : St), if_loop ev p (flatc br) (code ec) s = if_chain ev p br ec s.
Proof.
  intros ev p br ec. induction br as [|[c b] br IH]; intro s; [apply body_run|]. cbn [flatc flat_map app fst snd if_loop if_chain].
  apply bind_ext; [reflexivity|]. intros _ s1. apply bind_ext; [reflexivity|]. intros v s2. destruct v; try reflexivity. match goal with |- (if ?b then _ else _) _ = _ => destruct b end; [apply body_run|apply IH].
Qed.
Lemma loop_cases : forall ev p v br ec (s : St), switch_loop L ev p v (flatc br) (code ec) s = cases L ev p v br ec s.
Proof.
  intros ev p v br ec. induction br as [|[c b] br IH]; intro s; [apply body_run|]. cbn [flatc flat_map app fst snd switch_loop cases].
  apply bind_ext; [reflexivity|]. intros _ s1. apply bind_ext; [reflexivity|]. intros w s2. apply bind_ext; [reflexivity|]. intros e s3.
  destruct e; try apply IH. match goal with |- (if ?b then _ else _) _ = _ => destruct b end; [apply body_run|apply IH].
Qed.
Lemma put_then : forall l (m : sem) ev k p (x : St), (put_all l >> m) ev k p x = m ev k p (set_stk (rev l ++ e_stk x) x).
Proof. intros. unfold seq, bind. rewrite put_all_eq. reflexivity. Qed.
Lemma blame_eq : forall ts (m m' : @Q W unit) s s', m s = m' s' -> blame ts m s = blame ts m' s'.
Proof. intros ts m m' s s' E. unfold blame. rewrite E. reflexivity. Qed.
(** the last branch *)
Definition pop_last : @Q W value := a <-- popArity ;; if a =? 1 then pop_any else ret VNil.
Lemma pop_last_eq : forall ec l l' (x : St), last_vals ec l -> pop_last (set_stk (rev l ++ l') x) = inl (code ec, set_stk l' x).
Proof. intros ec l l' x [(-> & ->)| ->]; reflexivity. Qed.
Lemma set_set : forall l l' (x : St), set_stk l (set_stk l' x) = set_stk l x.
Proof. reflexivity. Qed.
Lemma glue_if : forall ts br c bs ec l ev k p (x : St), last_vals ec l ->
  (put_all (flatc ((c, bs) :: br) ++ [VInt (Z.of_nat (length br))] ++ l) >> (fun ev k p => blame ts (If ev p))) ev k p x = blame ts (if_chain ev p ((c, bs) :: br) ec) x.
Proof.
  intros ts br c bs ec l ev k p x Hl. rewrite put_then. apply blame_eq. unfold If.
  transitivity ((els <-- pop_last ;; ca <-- popArity ;; br <-- popNArgs ((ca + 1) * 2) ;; if_loop ev p br els) (set_stk (rev (flatc ((c, bs) :: br) ++ [VInt (Z.of_nat (length br))] ++ l) ++ e_stk x) x)).
  { unfold pop_last, bind. destruct (popArity _) as [(a, s1)|r]; reflexivity. }
  rewrite !rev_app_distr, <- !app_assoc. rewrite (bind_inl _ _ _ _ _ _ _ (pop_last_eq ec l _ x Hl)). cbn [rev app].
  rewrite (bind_inl _ _ _ _ _ _ _ (popArity_set _ _ _)).
  replace ((Z.of_nat (length br) + 1) * 2) with (Z.of_nat (length (flatc ((c, bs) :: br)))) by (rewrite flatc_length; cbn [length]; lia).
  rewrite (bind_inl _ _ _ _ _ _ _ (popNArgs_set _ _ _)), set_stk_id. apply loop_chain.
Qed.
Lemma glue_switch : forall ts xs br ec l ev k p (x : St), last_vals ec l ->
  (put_all ([code xs] ++ (flatc br ++ [VInt (Z.of_nat (length br))] ++ l)) >> (fun ev k p => blame ts (Switch L ev p))) ev k p x = blame ts (switch_on L ev p xs br ec) x.
Proof.
  intros ts xs br ec l ev k p x Hl. rewrite put_then. apply blame_eq. unfold Switch.
  transitivity ((els <-- pop_last ;; ca <-- popArity ;; br <-- popNArgs (ca * 2) ;; code <-- pop_any ;;
    cond <-- (if is_nilv code then ret (VBool true) else evalCode ev p n_expr code ;;; pop_any) ;; switch_loop L ev p cond br els)
    (set_stk (rev ([code xs] ++ (flatc br ++ [VInt (Z.of_nat (length br))] ++ l)) ++ e_stk x) x)).
  { unfold pop_last, bind. destruct (popArity _) as [(a, s1)|r]; reflexivity. }
  rewrite !rev_app_distr, <- !app_assoc. rewrite (bind_inl _ _ _ _ _ _ _ (pop_last_eq ec l _ x Hl)). cbn [rev app].
  rewrite (bind_inl _ _ _ _ _ _ _ (popArity_set _ _ _)).
  replace (Z.of_nat (length br) * 2) with (Z.of_nat (length (flatc br))) by (rewrite flatc_length; lia).
  rewrite (bind_inl _ _ _ _ _ _ _ (popNArgs_set _ _ _)).
  assert (P : pop_any (set_stk (code xs :: e_stk x) x) = inl (code xs, x)) by (rewrite pop_any_eq; unfold top, drop; cbn; rewrite set_set, set_stk_id; reflexivity).
  rewrite (bind_inl _ _ _ _ _ _ _ P). destruct xs as [|t xs]; cbn [code is_nilv switch_on].
  - unfold bind at 1, ret at 1. apply loop_cases.
  - unfold bind. destruct (evalCode ev p n_expr (VCode (t :: xs)) x) as [(u, s1)|r]; [|reflexivity]. destruct (pop_any s1) as [(v, s2)|r]; [|reflexivity]. apply loop_cases.
Qed.
Lemma drop_run : forall ev p rule b (s : St), eval_drop ev p rule (code b) s = run_drop ev p rule b s.
Proof. intros ev p rule [|t b] s; reflexivity. Qed.
Lemma loop_rounds : forall ev p c b st k (s : St), for_loop ev k p (code c) (code b) (code st) s = rounds ev k p c b st s.
Proof.
  intros ev p c b st. induction k as [|k IH]; intro s; [reflexivity|]. cbn [for_loop rounds].
  apply bind_ext; [destruct c; reflexivity|]. intros [|] s1; [|reflexivity]. apply bind_ext; [apply drop_run|]. intros _ s2. apply bind_ext; [apply drop_run|]. intros _ s3. apply IH.
Qed.
Lemma glue_for : forall ts hs b ev k p (x : St),
  (put_all (map code hs ++ [VInt (Z.of_nat (length hs))] ++ [code b]) >> (fun ev k p => blame ts (For ev k p))) ev k p x = blame ts (for_stmt ev k p hs b) x.
Proof.
  intros ts hs b ev k p x. rewrite put_then. apply blame_eq. unfold For. rewrite !rev_app_distr, <- !app_assoc. cbn [rev app].
  assert (P : forall l, pop_any (set_stk (code b :: l) x) = inl (code b, set_stk l x)) by reflexivity. rewrite (bind_inl _ _ _ _ _ _ _ (P _)).
  rewrite (bind_inl _ _ _ _ _ _ _ (popArity_set _ _ _)).
  assert (R : forall c st s, (for_loop ev k p (code c) (code b) (code st) ;;; push VNil) s = (rounds ev k p c b st ;;; push VNil) s).
  { intros c st s. apply bind_ext; [apply loop_rounds|reflexivity]. }
  destruct hs as [|h1 [|h2 [|h3 [|h4 hs]]]]; cbn [map length].
  - cbn [rev app]. rewrite set_stk_id. apply (R [] []).
  - change (Z.of_nat 1 =? 0) with false. change (Z.of_nat 1 =? 1) with true. cbv iota. rewrite (bind_inl _ _ _ _ _ _ _ (popNArgs_set [code h1] _ _)), set_stk_id. apply (R h1 []).
  - reflexivity.
  - change (Z.of_nat 3 =? 0) with false. change (Z.of_nat 3 =? 1) with false. change (Z.of_nat 3 =? 3) with true. cbv iota.
    rewrite (bind_inl _ _ _ _ _ _ _ (popNArgs_set [code h1; code h2; code h3] _ _)), set_stk_id. cbn [nth for_stmt]. apply bind_ext; [apply drop_run|]. intros _ s. apply R.
  - destruct (Z.eqb_spec (Z.of_nat (S (S (S (S (length hs)))))) 0); [lia|]. destruct (Z.eqb_spec (Z.of_nat (S (S (S (S (length hs)))))) 1); [lia|]. destruct (Z.eqb_spec (Z.of_nat (S (S (S (S (length hs)))))) 3); [lia|]. reflexivity.
Qed.
Lemma glue_lazy : forall ts stop rule m right ev k p (x : St),
  (put_all [VCode right] >> (fun ev k p => blame ts (AndOr ev stop rule m p))) ev k p x = blame ts (lazy_op stop rule m right ev k p) x.
Proof.
  intros. rewrite put_then. apply blame_eq. unfold AndOr, lazy_op. cbn [rev app].
  assert (P : pop_any (set_stk (VCode right :: e_stk x) x) = inl (VCode right, x)) by (rewrite pop_any_eq; unfold top, drop; cbn; rewrite set_set, set_stk_id; reflexivity).
  rewrite (bind_inl _ _ _ _ _ _ _ P). reflexivity.
Qed.
End Glue.
