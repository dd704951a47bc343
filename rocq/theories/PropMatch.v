(** Properties C16-C27: matching.  Each theorem is followed by a concrete instance of its hypotheses. *)
From Verif Require Import Base Token Grammar PegSpec MatchProofs MatchProofs2 MatchProofs3 Wf MatchProofs4
  MatchObs.

(** ** Example data: tokens, a client that counts, a recursive grammar. *)
Definition tk (k : Z) : token := mkTok k 1 [].
Definition no_env {A T : Type} : bytes -> option (gr A T) := fun _ => None.
(** actions push (action, number of tokens, Len); transactions push markers *)
Definition log_client : uclient nat nat Empty_set (list (nat * nat * Z)) nat := mkUclient
  (fun a ts l x => inl (x ++ [(a, length ts, l)]))
  (fun t x => (length x, x ++ [(t, 1000%nat, 0)]))
  (fun t v ok x => x ++ [(t, v, if ok then 1 else -1)]).
Definition s0 : st (list (nat * nat * Z)) := mkSt (fun _ => 0) [].
(** a = IDENT | '(' *a ')'  with actions on the repetition *)
Definition va : bytes := [97].
Definition ga : gr nat nat :=
  GOr [GTok IDENT; GAnd [GTok 40; GAct (GRep0 1 (GVar va)) 7%nat; GTok 41]].
Definition ex_env : bytes -> option (gr nat nat) := fun v => if beq v va then Some ga else None.
(** ( x ( x x ) ) *)
Definition ex_src : list token := map tk [40; IDENT; 40; IDENT; IDENT; 41; 41].

Definition E3 (a n : nat) (l : Z) : nat * nat * Z := (a, n, l).

Lemma log_quiet : quiet log_client.
Proof. intros a ts l x. eexists. reflexivity. Qed.

(** ** C16 *)
Theorem C16_match_within_input :
  forall (A T P U V : Type) env (c : client A T P U V) g src s n err s',
    returns env c g src s n err s' -> (n <= length src)%nat.
Proof. intros A T P U V env c g src s n err s' [f H]. exact (bounds env c f g src s n err s' H). Qed.

Example C16_instance : exists s', returns ex_env (lift log_client) (GVar va) ex_src s0 7 None s'.
Proof. eexists. exists 20%nat. vm_compute. reflexivity. Qed.

(** ** C17 *)
(** Success, failure and abort are exactly those of the declarative semantics, for clients whose actions
    do not panic; the declarative result is unique. *)
Theorem C17_success_iff :
  forall (A T P U V : Type) env (u : uclient A T P U V), quiet u -> forall g src s n,
    (exists s', returns env (lift u) g src s n None s') <-> (exists l tr, peg env g src (OOk n l) tr).
Proof. intros. apply ok_iff. assumption. Qed.

Theorem C17_failure_iff :
  forall (A T P U V : Type) env (u : uclient A T P U V), quiet u -> forall g src s,
    (exists n e s', returns env (lift u) g src s n (Some e) s') <-> (exists tr, peg env g src OFail tr).
Proof. intros. apply fail_iff. assumption. Qed.

Theorem C17_abort :
  forall (A T P U V : Type) env (u : uclient A T P U V), quiet u -> forall g src s,
    (forall k tr, peg env g src (OStop k) tr ->
       exists p s', panics env (lift u) g src s p s' /\ stop_pan k p) /\
    (forall p s', panics env (lift u) g src s p s' ->
       exists k tr, peg env g src (OStop k) tr /\ stop_pan k p).
Proof. intros A T P U V env u Hq g src s. split; intros; [eapply stop_fwd; eauto|eapply stop_bwd; eauto]. Qed.

Theorem C17_unique :
  forall (A T : Type) env (g : gr A T) src o tr o' tr',
    peg env g src o tr -> peg env g src o' tr' -> o = o' /\ tr = tr'.
Proof. intros. eapply peg_det; eauto. Qed.

(** Also when actions may panic: whatever Match returns is the declarative outcome. *)
Theorem C17_returned_outcome :
  forall (A T P U V : Type) env (u : uclient A T P U V) g src s n err s',
    returns env (lift u) g src s n err s' ->
    exists tr, match err with
               | None => exists l, peg env g src (OOk n l) tr
               | Some _ => peg env g src OFail tr
               end.
Proof.
  intros A T P U V env u g src s n err s' [f H].
  destruct (ret_sound env u f g src s n err s' H) as (tr & Hp & _).
  exists tr. destruct err; eauto.
Qed.

Example C17_instance : exists l tr, peg ex_env (GVar va) ex_src (OOk 7 l) tr.
Proof. apply (C17_success_iff _ _ _ _ _ ex_env log_client log_quiet _ _ s0). exact C16_instance. Qed.
Example C17_instance_fail : exists n e s', returns ex_env (lift log_client) (GVar va) [tk 40] s0 n (Some e) s'.
Proof. do 3 eexists. exists 20%nat. vm_compute. reflexivity. Qed.
Example C17_instance_abort : exists s' e,
  panics ex_env (lift log_client) (GOr [GAnd [GTok 40; GNil; GVar va]; GTrue]) [tk 40; tk 42] s0
    (PMatch (MErr (GAnd [GTok 40; GNil; GVar va]) [tk 40; tk 42] (Some e) 1)) s'.
Proof. do 2 eexists. exists 20%nat. vm_compute. reflexivity. Qed.

(** ** C18: for every client (also panicking ones), every observation agrees. *)
Theorem C18_plus : forall (A T P U V : Type) env (c : client A T P U V) id id' g, g <> GNil ->
  forall src s o, observes env c (GRep1 id g) src s o <-> observes env c (GAnd [g; GRep0 id' g]) src s o.
Proof. intros. apply plus_law. assumption. Qed.

Theorem C18_list : forall (A T P U V : Type) env (c : client A T P U V) id id' a b, a <> GNil ->
  forall src s o, observes env c (GList id a b false) src s o <->
    observes env c (GAnd [a; GRep0 id' (GAnd [b; a])]) src s o.
Proof. intros. apply list_law. assumption. Qed.

Theorem C18_list0 : forall (A T P U V : Type) env (c : client A T P U V) id id1 id2 a b src s o,
  observes env c (GList id a b true) src s o <->
  observes env c (GRep01 id1 (GList id2 a b false)) src s o.
Proof. intros. apply list0_law. Qed.

Theorem C18_optional : forall (A T P U V : Type) env (c : client A T P U V) id g src s n x,
  (observes env c (GRep01 id g) src s (Accept n x) <->
   observes env c g src s (Accept n x) \/
   (n = 0%nat /\ exists m e, observes env c g src s (Reject m e x))) /\
  (forall e, ~ observes env c (GRep01 id g) src s (Reject n e x)).
Proof. intros. split; [apply opt_law|]. intro e. apply opt_never_rejects. Qed.

Example C18_instance : observes ex_env (lift log_client) (GList 3 (GAct (GTok IDENT) 5%nat) (GTok 44) false)
  (map tk [IDENT; 44; IDENT; 44]) s0 (Accept 3 [E3 5 1 (-1); E3 5 1 (-1)]).
Proof. exists 20%nat. vm_compute. reflexivity. Qed.

(** ** C19 *)
Theorem C19_peek : forall (A T P U V : Type) env (c : client A T P U V) g src s n x,
  (observes env c (GPeek g) src s (Accept n x) <-> n = 0%nat /\ exists m, observes env c g src s (Accept m x)) /\
  ((exists e, observes env c (GPeek g) src s (Reject n e x)) <->
   n = 0%nat /\ exists m e, observes env c g src s (Reject m e x)).
Proof. intros. split; [apply peek_law|apply peek_reject]. Qed.

Theorem C19_not : forall (A T P U V : Type) env (c : client A T P U V) g src s n x,
  (observes env c (GNot g) src s (Accept n x) <-> n = 0%nat /\ exists m e, observes env c g src s (Reject m e x)) /\
  ((exists e, observes env c (GNot g) src s (Reject n e x)) <->
   n = 0%nat /\ exists m, observes env c g src s (Accept m x)).
Proof. intros. split; [apply not_law|apply not_reject]. Qed.

Theorem C19_peek_peek : forall (A T P U V : Type) env (c : client A T P U V) g src s n x,
  observes env c (GPeek (GPeek g)) src s (Accept n x) <-> observes env c (GPeek g) src s (Accept n x).
Proof. intros. apply peek_peek. Qed.

Theorem C19_not_not : forall (A T P U V : Type) env (c : client A T P U V) g src s n x,
  observes env c (GNot (GNot g)) src s (Accept n x) <-> observes env c (GPeek g) src s (Accept n x).
Proof. intros. apply not_not. Qed.

Example C19_instance : observes ex_env (lift log_client) (GNot (GTok 42)) ex_src s0 (Accept 0 []) /\
  observes ex_env (lift log_client) (GPeek (GVar va)) ex_src s0 (Accept 0 [E3 7 2 (2); E3 7 5 (2)]).
Proof. split; exists 20%nat; vm_compute; reflexivity. Qed.

(** ** C20 *)
Theorem C20_first_alternative : forall (A T P U V : Type) env (c : client A T P U V) gs src s n s',
  returns env c (GOr gs) src s n None s' <->
  exists gs1 g gs2 es s1, gs = gs1 ++ g :: gs2 /\ all_failed env c src gs1 s es s1 /\
    returns env c g src s1 n None s'.
Proof.
  intros. split; [apply or_ok|]. intros (gs1 & g & gs2 & es & s1 & -> & Ha & Hg). eapply or_first; eauto.
Qed.

(** All alternatives fail: the largest progress is reported, with the error of the only alternative that
    got that far (if it got anywhere), else an error about the whole choice. *)
Theorem C20_furthest_failure : forall (A T P U V : Type) env (c : client A T P U V) gs src s n e s',
  returns env c (GOr gs) src s n (Some e) s' ->
  exists es, all_failed env c src gs s es s' /\
    n = fold_right Nat.max 0%nat (map fst es) /\
    ((exists es1 es2, es = es1 ++ (n, e) :: es2 /\ (0 < n)%nat /\
        (forall x, In x (es1 ++ es2) -> (fst x < n)%nat))
     \/
     (e = MErr (GOr gs) src None 0%nat /\
       (n = 0%nat \/ exists es1 es2 es3 e1 e2, es = es1 ++ (n, e1) :: es2 ++ (n, e2) :: es3))).
Proof. intros A T P U V env c gs src s n e s' H. exact (or_bad env c gs src s n e s' H). Qed.

(** A failing sequence reports the progress up to and into the failing element, and its error. *)
Theorem C20_sequence_failure : forall (A T P U V : Type) env (u : uclient A T P U V) gs src s n e s',
  returns env (lift u) (GAnd gs) src s n (Some e) s' ->
  exists gs1 g gs2 k j s1, gs = gs1 ++ g :: gs2 /\ n = (k + j)%nat /\
    returns env (lift u) (GAnd gs1) src s k None s1 /\
    returns env (lift u) g (skipn k src) s1 j (Some e) s'.
Proof.
  intros A T P U V env u gs src s n e s' [f H]. destruct f as [|f]; [discriminate|]. simpl in H.
  destruct (and_loop_fail env u _ _ _ _ _ _ _ _ _ _ H) as (gs1 & g & gs2 & k & j & s1 & E & En & _ & H1 & H2).
  exists gs1, g, gs2, k, j, s1. split; [exact E|]. split; [exact En|]. split.
  - exists (S f). simpl. rewrite <- H1.
    assert (Hp : forall p p' gs ff n s k s1, and_loop (gmatch env (lift u) f) p src gs ff n s = Ret k None s1 ->
      and_loop (gmatch env (lift u) f) p' src gs ff n s = Ret k None s1).
    { clear. intros p p' gs. induction gs as [|g gs IH]; intros ff n s k s1 H; [exact H|].
      destruct g; simpl in *; try (eapply IH; exact H);
      match type of H with context [match ?x with _ => _ end] =>
        destruct x as [n1 [e1|] s2|q s2|]; try discriminate; try (destruct ff; discriminate);
        eapply IH; exact H end. }
    rewrite H1. eapply Hp; exact H1.
  - exists f. exact H2.
Qed.

Example C20_instance : exists s' e, returns ex_env (lift log_client)
  (GOr [GTok 42; GAnd [GTok 40; GTok IDENT; GTok 42]; GAnd [GTok 40; GTok 43]]) ex_src s0 2 (Some e) s' /\
  e = MErr (GTok 42) (skipn 2 ex_src) None 0.
Proof. do 2 eexists. split; [exists 20%nat; vm_compute; reflexivity|reflexivity]. Qed.
Example C20_instance_ok : exists s', returns ex_env (lift log_client) (GOr [GTok 42; GVar va; GTrue]) ex_src s0 7 None s'.
Proof. eexists. exists 20%nat. vm_compute. reflexivity. Qed.

(** ** C21 *)
(** If matching [g] comes (through any nesting of rules) to match a sequence with a [!], what precedes the
    element [x] succeeds and [x] fails, then the whole match panics with a MatchError of that sequence. *)
Theorem C21_failfast_aborts : forall (A T P U V : Type) env (u : uclient A T P U V), quiet u ->
  forall g src pre mid x post src1 n l tr tr2 s,
    reaches env g src (GAnd (pre ++ GNil :: mid ++ x :: post)) src1 ->
    peg env (GAnd (pre ++ GNil :: mid)) src1 (OOk n l) tr ->
    x <> GNil -> peg env x (skipn n src1) OFail tr2 ->
    exists e m s', panics env (lift u) g src s
      (PMatch (MErr (GAnd (pre ++ GNil :: mid ++ x :: post)) src1 (Some e) m)) s'.
Proof.
  intros A T P U V env u Hq g src pre mid x post src1 n l tr tr2 s Hr Ho Hx Hf.
  destruct (failfast_here env pre mid x post src1 n l tr tr2 Ho Hx Hf) as [tr3 Htr3].
  destruct (stop_reaches env _ _ _ _ Hr _ _ Htr3) as [tr4 Htr4].
  destruct (stop_fwd env u Hq _ _ s _ _ Htr4) as (p & s' & Hp & Hk).
  simpl in Hk. destruct Hk as (e & m & ->). exists e, m, s'. exact Hp.
Qed.

(** Conversely a MatchError panic always comes from such a sequence. *)
Theorem C21_only_failfast_aborts : forall (A T P U V : Type) env (u : uclient A T P U V), quiet u ->
  forall g src s e s', panics env (lift u) g src s (PMatch e) s' ->
  exists pre mid x post src1 n l tr tr2 e' m,
    e = MErr (GAnd (pre ++ GNil :: mid ++ x :: post)) src1 (Some e') m /\
    reaches env g src (GAnd (pre ++ GNil :: mid ++ x :: post)) src1 /\
    x <> GNil /\ peg env (GAnd (pre ++ GNil :: mid)) src1 (OOk n l) tr /\
    peg env x (skipn n src1) OFail tr2.
Proof.
  intros A T P U V env u Hq g src s e s' H.
  destruct (stop_bwd env u Hq _ _ _ _ _ H) as (k & tr & Hp & Hk).
  destruct k as [p src1|]; [|discriminate]. simpl in Hk. destruct Hk as (e' & m & E). inversion E; subst.
  destruct (proj1 (ff_sound env) _ _ _ _ Hp _ _ eq_refl) as (Hr & pre & mid & x & post & n & l & t1 & t2 & -> & Hx & H1 & H2).
  exists pre, mid, x, post, src1, n, l, t1, t2, e', m. auto.
Qed.

Example C21_instance :
  let g := GRep0 9 (GOr [GNot (GAnd [GTok 40; GNil; GVar va; GTok 42]); GTrue]) in
  reaches ex_env g ex_src (GAnd ([GTok 40] ++ GNil :: [GVar va] ++ GTok 42 :: [])) ex_src /\
  (exists l tr, peg ex_env (GAnd ([GTok 40] ++ GNil :: [GVar va])) ex_src (OOk 2 l) tr) /\
  (exists tr2, peg ex_env (GTok 42) (skipn 2 ex_src) OFail tr2).
Proof.
  cbv zeta. split; [|split].
  - apply RC_rep0_first. eapply (RC_or ex_env [] _ [GTrue]).
    + apply (P_Or ex_env [] ex_src OFail). constructor.
    + apply RC_not. apply RC_refl.
  - apply (C17_success_iff _ _ _ _ _ ex_env log_client log_quiet _ _ s0).
    eexists. exists 20%nat. vm_compute. reflexivity.
  - apply (C17_failure_iff _ _ _ _ _ ex_env log_client log_quiet _ _ s0).
    do 3 eexists. exists 20%nat. vm_compute. reflexivity.
Qed.

(** ** C22 *)
Theorem C22_len_repeat0 : forall (A T P U V : Type) env (u : uclient A T P U V) id g a src s n s',
  returns env (lift u) (GAct (GRep0 id g) a) src s n None s' ->
  exists k s1, repeats env g src k n /\ returns env (lift u) (GRep0 id g) src s n None s1 /\
    u_act u a (firstn n src) (Z.of_nat k) (ust s1) = inl (ust s').
Proof.
  intros A T P U V env u id g a src s n s' H.
  destruct (act_len env u _ _ _ _ _ _ H) as (l & tr & s1 & Hp & Hr & Ha).
  inversion Hp; subst.
  match goal with HR : peg_rep _ _ _ _ _ |- _ => destruct (rep_repeats env _ _ _ _ HR _ _ eq_refl) as (k & -> & Hk) end.
  eauto.
Qed.

Theorem C22_len_repeat1 : forall (A T P U V : Type) env (u : uclient A T P U V) id g a src s n s',
  returns env (lift u) (GAct (GRep1 id g) a) src s n None s' ->
  exists k s1, (0 < k)%nat /\ repeats env g src k n /\ returns env (lift u) (GRep1 id g) src s n None s1 /\
    u_act u a (firstn n src) (Z.of_nat k) (ust s1) = inl (ust s').
Proof.
  intros A T P U V env u id g a src s n s' H.
  destruct (act_len env u _ _ _ _ _ _ H) as (l & tr & s1 & Hp & Hr & Ha).
  inversion Hp; subst; [|simpl in *; tauto].
  match goal with HR : peg_rep _ _ _ _ _ |- _ => destruct (rep_repeats env _ _ _ _ HR _ _ eq_refl) as (k & -> & Hk) end.
  exists (S k), s1. split; [lia|]. split; [econstructor; eauto|]. split; [exact Hr|].
  replace (Z.of_nat (S k)) with (Z.of_nat k + 1) by lia. exact Ha.
Qed.

Theorem C22_len_repeat01 : forall (A T P U V : Type) env (u : uclient A T P U V) id g a src s n s',
  returns env (lift u) (GAct (GRep01 id g) a) src s n None s' ->
  exists k s1, returns env (lift u) (GRep01 id g) src s n None s1 /\
    u_act u a (firstn n src) k (ust s1) = inl (ust s') /\
    ((k = 1 /\ exists l tr, peg env g src (OOk n l) tr) \/
     (k = 0 /\ n = 0%nat /\ exists tr, peg env g src OFail tr)).
Proof.
  intros A T P U V env u id g a src s n s' H.
  destruct (act_len env u _ _ _ _ _ _ H) as (l & tr & s1 & Hp & Hr & Ha).
  exists l, s1. split; [exact Hr|]. split; [exact Ha|].
  inversion Hp; subst. destruct o; simpl in *; try discriminate;
    match goal with HE : OOk _ _ = OOk _ _ |- _ => inversion HE; subst end; eauto 10.
Qed.

(** G1 % G2 and G1 %= G2: the number of G1 matched. *)
Theorem C22_len_list : forall (A T P U V : Type) env (u : uclient A T P U V) id g1 g2 l0 a src s n s',
  returns env (lift u) (GAct (GList id g1 g2 l0) a) src s n None s' ->
  exists k s1, returns env (lift u) (GList id g1 g2 l0) src s n None s1 /\
    u_act u a (firstn n src) (Z.of_nat k) (ust s1) = inl (ust s') /\
    match k with
    | O => l0 = true /\ n = 0%nat /\ exists tr, peg env g1 src OFail tr
    | S j => exists m l tr r, peg env g1 src (OOk m l) tr /\
               repeats env (GAnd [g2; g1]) (skipn m src) j r /\ n = (m + r)%nat
    end.
Proof.
  intros A T P U V env u id g1 g2 l0 a src s n s' H.
  destruct (act_len env u _ _ _ _ _ _ H) as (l & tr & s1 & Hp & Hr & Ha).
  inversion Hp; subst.
  - match goal with HR : peg_rep _ _ _ _ _ |- _ => destruct (rep_repeats env _ _ _ _ HR _ _ eq_refl) as (k & -> & Hk) end.
    exists (S k), s1. split; [exact Hr|]. split.
    + replace (Z.of_nat (S k)) with (Z.of_nat k + 1) by lia. exact Ha.
    + eauto 10.
  - exists 0%nat, s1. eauto 10.
Qed.

(** the recursive rule [a] matched inside itself: the outer action still sees its own count 2 *)
Example C22_instance : exists s', returns ex_env (lift log_client) (GVar va) ex_src s0 7 None s' /\
  ust s' = [E3 7 2 (2); E3 7 5 (2)].
Proof. eexists. split; [exists 20%nat; vm_compute; reflexivity|reflexivity]. Qed.
Example C22_instance2 : exists s', returns ex_env (lift log_client) (GAct (GRep0 1 (GVar va)) 7%nat)
  (skipn 1 ex_src) s0 5 None s'.
Proof. eexists. exists 20%nat. vm_compute. reflexivity. Qed.

(** ** C23 *)
(** The client's final state is the initial one with the calls of the declarative trace applied in order. *)
Theorem C23_actions_are_the_trace : forall (A T P U V : Type) env (u : uclient A T P U V) g src s n err s',
  returns env (lift u) g src s n err s' ->
  exists tr, match err with
             | None => exists l, peg env g src (OOk n l) tr
             | Some _ => peg env g src OFail tr
             end /\
    run u tr [] (ust s) = inl ([], ust s').
Proof.
  intros A T P U V env u g src s n err s' [f H].
  destruct (ret_sound env u f g src s n err s' H) as (tr & Hp & Hr).
  exists tr. split; [destruct err; eauto|apply Hr].
Qed.

(** Every action call of a trace belongs to a success of its rule on exactly the given tokens, a
    contiguous part of the input, and directly follows the calls made inside that rule. *)
Theorem C23_action_tokens : forall (A T : Type) env (g : gr A T) src o tr, peg env g src o tr ->
  forall a ts l, In (EvAct a ts l) tr ->
  exists before after g' tr', src = before ++ ts ++ after /\
    peg env g' (ts ++ after) (OOk (length ts) l) tr' /\
    peg env (GAct g' a) (ts ++ after) (OOk (length ts) l) (tr' ++ [EvAct a ts l]).
Proof. intros A T env g src o tr H. exact (proj1 (act_events env) g src o tr H). Qed.

(** An action that panics ends the match right there. *)
Theorem C23_action_panic : forall (A T P U V : Type) env (u : uclient A T P U V) g a src s n s1 p x,
  returns env (lift u) g src s n None s1 ->
  u_act u a (firstn n src) (glen s1 g) (ust s1) = inr (p, x) ->
  exists s', panics env (lift u) (GAct g a) src s p s' /\ ust s' = x.
Proof.
  intros A T P U V env u g a src s n s1 p x [f H] Ha.
  exists (mkSt (lens s1) x). split; [|reflexivity]. exists (S f). simpl. rewrite H, Ha. reflexivity.
Qed.

(** failed alternatives are not undone: action 5 ran although its alternative failed *)
Example C23_instance : exists s', returns ex_env (lift log_client)
  (GOr [GAnd [GAct (GTok 40) 5%nat; GTok 42]; GAct (GAnd [GTok 40; GTok IDENT]) 6%nat]) ex_src s0 2 None s' /\
  ust s' = [E3 5 1 (-1); E3 6 2 (2)].
Proof. eexists. split; [exists 20%nat; vm_compute; reflexivity|reflexivity]. Qed.

(** ** C24 *)
(** [nul v] bounds which rules may match empty, [rank] orders the rules that can start one another;
    the check [wf_gr] is computable. *)
Theorem C24_well_formed_terminates : forall (A T P U V : Type) env nul rank,
  nul_ok nul env -> rank_ok nul rank env ->
  forall g : gr A T, wf_gr nul rank None g = true ->
  forall (u : uclient A T P U V) src s, ~ diverges env (lift u) g src s.
Proof.
  intros A T P U V env nul rank Hn Hr g Hw u src s Hd.
  destruct (wf_total nul rank env Hn Hr g Hw src) as (o & tr & Hp).
  destruct (proj1 (sim_all env u) _ _ _ _ Hp) as [F HF].
  specialize (HF F (Nat.le_refl _) s). rewrite (Hd F) in HF.
  destruct HF as [(p & s' & E & _)|HF]; [discriminate|].
  destruct o; [destruct HF as (s' & E & _)|destruct HF as (n & e & s' & E & _)|destruct HF as (p & s' & E & _)];
    discriminate.
Qed.

Example C24_instance : nul_ok (fun _ => false) ex_env /\ rank_ok (fun _ => false) (fun _ => 0%nat) ex_env /\
  wf_gr (fun _ => false) (fun _ => 0%nat) None (GVar va : gr nat nat) = true.
Proof.
  split; [|split; [|reflexivity]]; intros v g; unfold ex_env; destruct (beq v va); intro E; inversion E; subst.
  - vm_compute. discriminate.
  - reflexivity.
Qed.

(** ** C25 *)
Theorem C25_empty_repetition_diverges : forall (A T P U V : Type) env (u : uclient A T P U V), quiet u ->
  forall id (g : gr A T) src s l tr, peg env g src (OOk 0 l) tr ->
    diverges env (lift u) (GRep0 id g) src s /\ diverges env (lift u) (GRep1 id g) src s.
Proof.
  intros A T P U V env u Hq id g src s l tr Hp.
  assert (Hd : forall G, (forall o t, ~ peg env G src o t) -> diverges env (lift u) G src s).
  { intros G HG f. destruct (gmatch env (lift u) f G src s) eqn:E; [| |reflexivity]; exfalso.
    - destruct (ret_sound env u _ _ _ _ _ _ _ E) as (t & Ht & _). destruct err; eapply HG; eauto.
    - destruct (adq_all env u f G src s) as (o & t & Ht); [rewrite E; exact Hq|]. eapply HG; eauto. }
  split; apply Hd; intros o t Ht; inversion Ht; subst.
  - eapply rep_empty_none; eauto.
  - eapply rep_empty_none; eauto.
  - match goal with HA : peg env g src (OOk _ _) _, HB : peg env g src (OOk _ _) _ |- _ =>
      destruct (peg_det env _ _ _ _ _ _ HA HB) as [E _]; inversion E; subst end.
    simpl in *. eapply rep_empty_none; eauto.
  - match goal with HA : peg env g src (OOk _ _) _, HB : peg env g src (OOk _ _) _ |- _ =>
      destruct (peg_det env _ _ _ _ _ _ HA HB) as [E _]; inversion E; subst end.
    simpl in *. eapply rep_empty_none; eauto.
  - match goal with HA : peg env g src (OOk _ _) _, HB : peg env g src o _ |- _ =>
      destruct (peg_det env _ _ _ _ _ _ HA HB) as [E _]; subst end.
    simpl in *. tauto.
Qed.

(** Left recursion: a set of rules each of which first calls a member of the set. *)
Theorem C25_left_recursion_diverges : forall (A T P U V : Type) env (c : client A T P U V) (C : gr A T -> Prop),
  (forall g, C g -> exists g', lcall env g g' /\ C g') ->
  forall g src s, C g -> diverges env c g src s.
Proof. intros A T P U V env c C HC g src s Hg f. eapply left_rec; eauto. Qed.

Example C25_instance : exists l tr, peg ex_env (GRep01 2 (GTok 42)) ex_src (OOk 0 l) tr.
Proof.
  apply (C17_success_iff _ _ _ _ _ ex_env log_client log_quiet _ _ s0).
  eexists. exists 20%nat. vm_compute. reflexivity.
Qed.
(** e = e '+' IDENT | IDENT *)
Definition lr_g : gr nat nat := GOr [GAnd [GVar va; GTok 43; GTok IDENT]; GTok IDENT].
Definition lr_env : bytes -> option (gr nat nat) := fun v => if beq v va then Some lr_g else None.
Example C25_left_instance : forall src s, diverges lr_env (lift log_client) (GVar va) src s.
Proof.
  intros src s. apply C25_left_recursion_diverges with
    (C := fun g => g = GVar va \/ g = lr_g \/ g = GAnd [GVar va; GTok 43; GTok IDENT]); [|auto].
  intros g [-> | [-> | ->]].
  - exists lr_g. split; [apply LC_var; reflexivity|auto].
  - exists (GAnd [GVar va; GTok 43; GTok IDENT]). split; [apply LC_or|auto].
  - exists (GVar va). split; [apply LC_and; discriminate|auto].
Qed.

(** ** C26 *)
(** The only state grammar objects keep is [lens]; whatever it is, the observation is the same. *)
Theorem C26_no_state_left_behind : forall (A T P U V : Type) env (u : uclient A T P U V) g src s1 s2 o,
  ust s1 = ust s2 ->
  observes env (lift u) g src s1 o <-> observes env (lift u) g src s2 o.
Proof.
  intros A T P U V env u g src s1 s2 o E.
  assert (H : forall s1 s2 : st U, ust s1 = ust s2 -> observes env (lift u) g src s1 o ->
    observes env (lift u) g src s2 o).
  { clear. intros s1 s2 E [f H]. exists f. pose proof (indep env u f g src s1 s2 E) as HS. unfold same in HS.
    destruct (gmatch env (lift u) f g src s1) as [n [e|] s|q s|];
    destruct (gmatch env (lift u) f g src s2) as [n' [e'|] s'|q' s'|]; simpl in *; try contradiction;
      try (destruct HS as (-> & E2 & E3 & _); inversion E2; subst; rewrite <- E3; exact H);
      try (destruct HS as (_ & E2 & _); discriminate).
    - destruct HS as (-> & <-). exact H.
    - discriminate. }
  split; apply H; auto.
Qed.

(** Two matches in sequence: the second one does not see the first. *)
Corollary C26_second_match : forall (A T P U V : Type) env (u : uclient A T P U V) g src g1 src1 s n err s' o,
  returns env (lift u) g1 src1 s n err s' ->
  observes env (lift u) g src s' o <-> observes env (lift u) g src (mkSt (lens s) (ust s')) o.
Proof. intros. apply C26_no_state_left_behind. reflexivity. Qed.

Example C26_instance :
  observes ex_env (lift log_client) (GVar va) ex_src (mkSt (fun _ => 12345) []) (Accept 7 [E3 7 2 (2); E3 7 5 (2)]).
Proof. exists 20%nat. vm_compute. reflexivity. Qed.

(** ** C27 *)
Theorem C27_transactions_balanced : forall (A T : Type) env (g : gr A T) src o tr,
  peg env g src o tr -> (forall k, o <> OStop k) -> balanced tr.
Proof.
  intros A T env g src o tr H Ho. apply (proj1 (peg_balanced env) g src o tr H).
  destruct o; simpl; auto. eapply Ho; reflexivity.
Qed.

(** begin first, end last with begin's value and the success of that very rule, and the client state in
    between is the one of matching the body. *)
Theorem C27_transaction_calls : forall (A T P U V : Type) env (u : uclient A T P U V) g t src s n err s',
  returns env (lift u) (GTrans g t) src s n err s' ->
  exists v x s1, u_begin u t (ust s) = (v, x) /\
    returns env (lift u) g src (mkSt (lens s) x) n err s1 /\
    ust s' = u_end u t v (match err with None => true | Some _ => false end) (ust s1).
Proof.
  intros A T P U V env u g t src s n err s' [f H]. destruct f as [|f]; [discriminate|]. simpl in H.
  destruct (u_begin u t (ust s)) as [v x] eqn:Eb.
  destruct (gmatch env (lift u) f g src (mkSt (lens s) x)) as [n1 e1 s1|q s1|] eqn:E; inversion H; subst.
  exists v, x, s1. split; [reflexivity|]. split; [exists f; exact E|reflexivity].
Qed.

Example C27_instance : exists s', returns ex_env (lift log_client)
  (GOr [GTrans (GAnd [GTok 40; GTrans (GTok IDENT) 2%nat; GTok 42]) 1%nat; GTok 40]) ex_src s0 1 None s' /\
  ust s' = [E3 1 1000 (0); E3 2 1000 (0); E3 2 1 (1); E3 1 0 (-1)].
Proof. eexists. split; [exists 20%nat; vm_compute; reflexivity|reflexivity]. Qed.

Print Assumptions C16_match_within_input.
Print Assumptions C17_success_iff.
Print Assumptions C17_failure_iff.
Print Assumptions C17_abort.
Print Assumptions C17_unique.
Print Assumptions C17_returned_outcome.
Print Assumptions C18_plus.
Print Assumptions C18_list.
Print Assumptions C18_list0.
Print Assumptions C18_optional.
Print Assumptions C19_peek.
Print Assumptions C19_not.
Print Assumptions C19_peek_peek.
Print Assumptions C19_not_not.
Print Assumptions C20_first_alternative.
Print Assumptions C20_furthest_failure.
Print Assumptions C20_sequence_failure.
Print Assumptions C21_failfast_aborts.
Print Assumptions C21_only_failfast_aborts.
Print Assumptions C22_len_repeat0.
Print Assumptions C22_len_repeat1.
Print Assumptions C22_len_repeat01.
Print Assumptions C22_len_list.
Print Assumptions C23_actions_are_the_trace.
Print Assumptions C23_action_tokens.
Print Assumptions C23_action_panic.
Print Assumptions C24_well_formed_terminates.
Print Assumptions C25_empty_repetition_diverges.
Print Assumptions C25_left_recursion_diverges.
Print Assumptions C26_no_state_left_behind.
Print Assumptions C26_second_match.
Print Assumptions C27_transactions_balanced.
Print Assumptions C27_transaction_calls.
