(** Programs without functions end in the engine only if they end (Property C93). *)
From Coq Require Import String SpecFloat.
From Verif Require Import Base Token Grammar Compiler Interp QValue Qlang QlangSpec QlangTop QText QTidy QExpr QEval PropVars QExprP QEmbed PropEmbed QWhile QWhileP PropWhile.
Local Open Scope list_scope.
Local Open Scope Z_scope.

Section Ends.
Context {W : Type}.
Variable L : qlib W.
Notation St := (est nat value (@rest W)).
Notation ev := (QlangTop.ev L).
Notation sem := (@sem W).
Infix ">>" := seq (at level 60, right associativity).
Notation sgave := (dgave false).

(** a bound was reached, or the outcome is one of these *)
Definition wgave (d : bool) (P : outcome -> Prop) (stk : list value) (s : St) (r : @qres W unit) : Prop := stuck r \/ exists o, P o /\ dgave d stk s o r.
(** an outcome of a run with some bound *)
Definition some_run (run : nat -> env -> option outcome) (g : env) (o : outcome) : Prop := exists k, run k g = Some o.

Lemma w_from : forall d P stk s s1 r, still s s1 -> bases s s1 -> wgave d P stk s1 r -> wgave d P stk s r.
Proof. intros d P stk s s1 r A B [H|(o & Ho & H)]; [left; exact H|]. right. exists o. split; [exact Ho|]. eapply sgave_from; eassumption. Qed.
Lemma w_loosely : forall P stk s r, wgave false P stk s r -> wgave true P stk s r.
Proof. intros P stk s r [H|(o & Ho & H)]; [left; exact H|]. right. exists o. split; [exact Ho|apply loosely; exact H]. Qed.
Lemma w_blame : forall ts d P stk s (m : @Q W unit) s0, wgave d P stk s (m s0) -> wgave false P stk s (blame ts m s0).
Proof.
  intros ts d P stk s m s0 [(s1 & H)|(o & Ho & H)]; [left; unfold blame; rewrite H; eexists; reflexivity|]. right. exists o. split; [exact Ho|]. eapply sgave_blame; exact H.
Qed.
Lemma w_weaken : forall d (P P' : outcome -> Prop) stk s r, (forall o, P o -> P' o) -> wgave d P stk s r -> wgave d P' stk s r.
Proof. intros d P P' stk s r H [X|(o & Ho & X)]; [left; exact X|right; exists o; auto]. Qed.
Lemma w_one : forall d o (P : outcome -> Prop) stk s r, P o -> dgave d stk s o r -> wgave d P stk s r.
Proof. intros. right. exists o. auto. Qed.
(** one after another *)
Lemma w_bind : forall d (P P' : outcome -> Prop) stk stk' s (m f : @Q W unit), wgave d P stk' s (m s) ->
  (forall g v s1, P (g, inl v) -> e_stk s1 = v :: stk' -> at_env g s1 -> still s s1 -> bases s s1 -> wgave d P' stk s1 (f s1)) ->
  (forall g q r, P (g, inr q) -> dgave d stk' s (g, inr q) r -> wgave d P' stk s r) -> wgave d P' stk s ((m ;;; f) s).
Proof.
  intros d P P' stk stk' s m f [(s1 & E)|((g, [v|q]) & Ho & H)] Hv Hq.
  - left. unfold bind. rewrite E. eexists. reflexivity.
  - destruct H as (s1 & E & K & V & S & B). unfold bind. rewrite E. eapply w_from; [exact S|exact B|]. eapply Hv; eassumption.
  - apply (Hq g q _ Ho). apply (sgave_stop _ _ _ _ _ _ _ (fun r => r) H). reflexivity.
Qed.

(** ** Meanings *)
Definition wsmeans (st : stmt) (c : sem) : Prop :=
  exists N, forall n g s, (N <= n)%nat -> at_env g s -> wgave false (some_run (fun k => srun L k st) g) (e_stk s) s (c (ev n) n 0%nat s).
Definition wbodymeans (b : block) (ts : list token) : Prop :=
  exists N, forall n g s, (N <= n)%nat -> at_env g s -> wgave false (some_run (fun k => brun L k b) g) (e_stk s) s (run_body (ev n) 0 ts s).
Definition wrmeans (b : block) (c : sem) : Prop :=
  exists N, forall n g v s stk, (N <= n)%nat -> at_env g s -> e_stk s = v :: stk -> (fr_base (getf 0 s) <= length stk)%nat ->
    wgave false (some_run (fun k => rrun L k b v) g) (match b with BNil => stk | _ => cut_to (fr_base (getf 0 s)) stk end) s (c (ev n) n 0%nat s).
Fixpoint wbrmeans (br : branches) (l : list (list token * list token)) : Prop :=
  match br, l with
  | CNil, [] => True
  | CCons c b br', (cs, bs) :: l' => cmeans L n_expr c cs /\ wbodymeans b bs /\ wbrmeans br' l'
  | _, _ => False
  end.
(** statements without statements in them have an outcome *)
Lemma leaf_means : forall st c, (forall g, exists o, forall k, srun L k st g = Some o) -> umeans L st c -> wsmeans st c.
Proof.
  intros st c T (N & H). exists N. intros n g s Hn V. destruct (T g) as (o & Ho). apply (w_one _ o); [exists 0%nat; apply Ho|]. apply (H 0%nat g o n s (Ho 0%nat) Hn V).
Qed.
Lemma wsmeans_alike : forall st c c', alike c c' -> wsmeans st c' -> wsmeans st c.
Proof. intros st c c' A (N & H). exists N. intros n g s Hn V. rewrite A. apply H; assumption. Qed.
Lemma code_w : forall rule ts c (P : env -> outcome -> Prop), text_is L rule ts c ->
  (exists N, forall n g s, (N <= n)%nat -> at_env g s -> fr_base (getf 0 s) = length (e_stk s) -> wgave false (P g) (e_stk s) s (c (ev n) n 0%nat s)) ->
  exists N, forall n g s, (N <= n)%nat -> at_env g s -> wgave false (P g) (e_stk s) s (evalCode (ev n) 0 rule (VCode ts) s).
Proof.
  intros rule ts c P Ht (N & H). destruct (code_point L rule ts c Ht) as (N' & E). exists (S (N + N')). intros n g s Hn V. destruct n as [|n]; [lia|].
  destruct (E n g s ltac:(lia) V) as (s2 & V2 & B2 & K2 & G & X). destruct (H n g s2 ltac:(lia) V2 B2) as [Y|(o & Ho & Y)]; [left; apply X; exact Y|]. apply (w_one _ o); [exact Ho|apply G; exact Y].
Qed.

(** ** Conditions *)
Lemma w_cond : forall d e g stk (m : @Q W unit) (f : value -> @Q W unit) s (P : outcome -> Prop), at_env g s -> dgave d stk s (g, xval L g e) (m s) ->
  match xval L g e with
  | inl v => forall s1, e_stk s1 = stk -> at_env g s1 -> wgave d P stk s1 (f v s1)
  | inr q => P (g, inr q)
  end -> wgave d P stk s ((m ;;; v <-- pop_any ;; f v) s).
Proof.
  intros d e g stk m f s P V H Hf. destruct (xval L g e) as [v|q].
  - destruct H as (s1 & E & K & V1 & S1 & B1). unfold bind at 1. rewrite E. eapply w_from; [exact S1|exact B1|]. rewrite (popped v stk) by exact K.
    eapply w_from; [apply (still_stk s1 stk)|intro; reflexivity|]. apply Hf; [reflexivity|apply env_stk; exact V1].
  - apply (w_one _ (g, inr q)); [exact Hf|]. apply (sgave_stop _ _ _ _ _ _ _ (fun r => r) H). reflexivity.
Qed.
Lemma if_w : forall br l els eb, wbrmeans br l -> wbodymeans eb els ->
  exists N, forall n g s, (N <= n)%nat -> at_env g s -> wgave true (some_run (fun k => ifrun L k br (brun L k eb)) g) (e_stk s) s (if_chain (ev n) 0 l els s).
Proof.
  induction br as [|c b br IH]; intros l els eb; destruct l as [|(cs, bs) l]; intros Hb He; try (destruct Hb; fail).
  - destruct He as (N & M). exists N. intros n g s Hn V. apply w_loosely. apply M; assumption.
  - destruct Hb as ((N & Hc) & (N1 & Hbd) & Hbr). destruct (IH l els eb Hbr He) as (N2 & M). exists (N + N1 + N2)%nat. intros n g s Hn V. cbn [if_chain].
    apply (w_cond true c g); [exact V|apply loosely; apply Hc; [lia|exact V]|]. unfold some_run. destruct (xval L g c) as [v|q] eqn:E.
    + intros s1 K V1. rewrite <- K.
      assert (X : forall o, (match v with VBool true => some_run (fun k => brun L k b) g o | VBool false => some_run (fun k => ifrun L k br (brun L k eb)) g o | _ => o = (g, inr (PvErr (EOther (VMsg m_ifcond [])))) end) ->
        exists k, ifrun L k (CCons c b br) (brun L k eb) g = Some o).
      { intros o Ho. destruct v as [|[]| | | | | | | | | | | | | | | | | | | | | | | ]; try (subst o; exists 0%nat; rewrite ifrun_cons, E; reflexivity); destruct Ho as (k & Ho); exists k; rewrite ifrun_cons, E; exact Ho. }
      eapply w_weaken; [exact X|]. clear X.
      destruct v as [|[]| | | | | | | | | | | | | | | | | | | | | | | ]; try (eapply w_one; [reflexivity|]; apply (throws []); [exact V1|reflexivity]).
      * apply w_loosely. apply Hbd; [lia|exact V1].
      * apply M; [lia|exact V1].
    + exists 0%nat. rewrite ifrun_cons, E. reflexivity.
Qed.
Lemma case_w : forall br l d db, wbrmeans br l -> wbodymeans db d ->
  exists N, forall v n g s, (N <= n)%nat -> at_env g s -> wgave true (some_run (fun k => caserun L k v br (brun L k db)) g) (e_stk s) s (cases L (ev n) 0 v l d s).
Proof.
  induction br as [|c b br IH]; intros l d db; destruct l as [|(cs, bs) l]; intros Hb He; try (destruct Hb; fail).
  - destruct He as (N & M). exists N. intros v n g s Hn V. apply w_loosely. apply M; assumption.
  - destruct Hb as ((N & Hc) & (N1 & Hbd) & Hbr). destruct (IH l d db Hbr He) as (N2 & M). exists (N + N1 + N2)%nat. intros v n g s Hn V. cbn [cases].
    apply (w_cond true c g _ _ (fun w => e <-- of_op (EQ (l_same L) v w) ;; match e with VBool true => run_body (ev n) 0 bs | _ => cases L (ev n) 0 v l d end)); [exact V|apply loosely; apply Hc; [lia|exact V]|].
    unfold some_run. destruct (xval L g c) as [w|q] eqn:E; [|exists 0%nat; rewrite caserun_cons, E; reflexivity].
    intros s1 K V1. rewrite <- K. pose proof (eq_tame L v w) as T. destruct (EQ (l_same L) v w) as [r|q] eqn:Eq.
    + destruct r; try (destruct T; fail). unfold of_op, bind, ret. destruct b0.
      * apply (w_weaken _ (some_run (fun k => brun L k b) g)); [intros o (k & Ho); exists k; rewrite caserun_cons, E, Eq; exact Ho|]. apply w_loosely. apply Hbd; [lia|exact V1].
      * apply (w_weaken _ (some_run (fun k => caserun L k v br (brun L k db)) g)); [intros o (k & Ho); exists k; rewrite caserun_cons, E, Eq; exact Ho|]. apply M; [lia|exact V1].
    + apply (w_one _ (g, inr q)); [exists 0%nat; rewrite caserun_cons, E, Eq; reflexivity|]. apply (throws []); [exact V1|reflexivity].
Qed.
Lemma switch_run : forall k x br d g, srun L k (SSwitch x br d) g = match oval L x g with inl v => caserun L k v br (brun L k d) g | inr q => Some (g, inr q) end.
Proof. reflexivity. Qed.
Lemma switch_w : forall x xs br l d db, omeans L x xs -> wbrmeans br l -> wbodymeans db d ->
  exists N, forall n g s, (N <= n)%nat -> at_env g s -> wgave true (some_run (fun k => srun L k (SSwitch x br db)) g) (e_stk s) s (switch_on L (ev n) 0 xs l d s).
Proof.
  intros x xs br l d db Hx Hb Hd. destruct (case_w br l d db Hb Hd) as (N' & M). destruct x as [e|]; cbn [omeans] in *.
  - destruct Hx as (Nx & N & Hx). exists (N + N')%nat. intros n g s Hn V. destruct xs as [|t xs]; [contradiction|].
    apply (w_cond true e g _ _ (fun v => cases L (ev n) 0 v l d)); [exact V|apply loosely; apply Hx; [lia|exact V]|]. unfold some_run. destruct (xval L g e) as [v|q] eqn:E.
    + intros s1 K V1. rewrite <- K. eapply w_weaken; [|apply M; [lia|exact V1]]. intros o (k & Ho). exists k. rewrite switch_run. cbn [oval]. rewrite E. exact Ho.
    + exists 0%nat. rewrite switch_run. cbn [oval]. rewrite E. reflexivity.
  - subst xs. exists N'. intros n g s Hn V. apply (M (VBool true) n g s Hn V).
Qed.

(** ** Loops *)
Definition wdrop (run : nat -> env -> option outcome) (rule : bytes) (ts : list token) : Prop :=
  exists N, forall n g s (f : @Q W unit) (P : outcome -> Prop), (N <= n)%nat -> at_env g s ->
    (forall k g1 v s1, run k g = Some (g1, inl v) -> e_stk s1 = e_stk s -> at_env g1 s1 -> wgave true P (e_stk s) s1 (f s1)) ->
    (forall k g1 q, run k g = Some (g1, inr q) -> P (g1, inr q)) -> wgave true P (e_stk s) s ((run_drop (ev n) 0 rule ts ;;; f) s).
Lemma drops_w : forall run rule ts, (exists N, forall n g s, (N <= n)%nat -> at_env g s -> wgave false (some_run run g) (e_stk s) s (evalCode (ev n) 0 rule (VCode ts) s)) -> ts <> [] -> wdrop run rule ts.
Proof.
  intros run rule ts (N & H) Ht. exists N. intros n g s f P Hn V Hv Hq. specialize (H n g s Hn V). destruct ts as [|t ts]; [contradiction|]. unfold run_drop.
  destruct H as [(s1 & E)|((g1, [v|q]) & (k & Ho) & M)].
  - left. exists s1. unfold bind. rewrite E. reflexivity.
  - destruct M as (s1 & E1 & K1 & V1 & S1 & B1). cbn [fst snd] in *. unfold bind at 1 2. rewrite E1. unfold bind, pop. rewrite K1. cbn. eapply w_from; [exact S1|exact B1|].
    eapply w_from; [apply (still_stk s1 (e_stk s))|intro; reflexivity|]. apply (Hv k g1 v); [exact Ho|reflexivity|apply env_stk; exact V1].
  - apply (w_one _ (g1, inr q)); [apply (Hq k); exact Ho|]. apply loosely in M. destruct M as (e & s1 & E1 & M). exists e, s1. unfold bind. rewrite E1. split; [reflexivity|exact M].
Qed.
Lemma no_drop_w : forall run rule, (forall k g, run k g = Some (g, inl VNil)) -> wdrop run rule [].
Proof. intros run rule H. exists 0%nat. intros n g s f P _ V Hv _. unfold run_drop, bind, ret. apply (Hv 0%nat g VNil); [apply H|reflexivity|exact V]. Qed.
Lemma w_holds : forall e ts, fmeans L e ts -> exists N, forall n g s (f : bool -> @Q W unit) (P : outcome -> Prop), (N <= n)%nat -> at_env g s ->
  match oval L e g with
  | inl (VBool b) => forall s1, e_stk s1 = e_stk s -> at_env g s1 -> wgave true P (e_stk s) s1 (f b s1)
  | inl _ => P (g, inr (msg m_forcond []))
  | inr q => P (g, inr q)
  end -> wgave true P (e_stk s) s ((b <-- QText.holds (ev n) 0 ts ;; f b) s).
Proof.
  intros [e|] ts H; cbn [fmeans oval] in *.
  - destruct H as (Ht & N & H). exists N. intros n g s f P Hn V Hf. specialize (H n g s Hn V). apply loosely in H. destruct ts as [|t ts]; [contradiction|]. unfold QText.holds.
    destruct (xval L g e) as [v|q].
    + destruct H as (s1 & E1 & K1 & V1 & S1 & B1). cbn [fst snd] in *. unfold bind at 1 2. rewrite E1. unfold bind, pop. rewrite K1. eapply w_from; [exact S1|exact B1|].
      eapply w_from; [apply (still_stk s1 (e_stk s))|intro; reflexivity|].
      destruct v; try (eapply w_one; [exact Hf|]; apply (throws []); [apply env_stk; exact V1|reflexivity]).
      apply Hf; [reflexivity|apply env_stk; exact V1].
    + apply (w_one _ (g, inr q)); [exact Hf|]. destruct H as (e0 & s1 & E1 & M). exists e0, s1. unfold bind. rewrite E1. split; [reflexivity|exact M].
  - subst ts. exists 0%nat. intros n g s f P _ V Hf. unfold QText.holds, bind, ret. apply Hf; [reflexivity|exact V].
Qed.
Definition rises (run : nat -> env -> option outcome) : Prop := forall k, grows (run k) (run (S k)).
Lemma rises_le : forall run, rises run -> forall k k', (k <= k')%nat -> grows (run k) (run k').
Proof. intros run H k k' Hk. induction Hk as [|k' Hk IH]; intros g o E; [exact E|]. apply H. apply IH. exact E. Qed.
Lemma loop_rises : forall c (body step : nat -> env -> option outcome), rises body -> rises step -> rises (fun k => loop k c (body k) (step k)).
Proof. intros c body step Hb Hs k. apply loop_grows; [apply Hb|apply Hs]. Qed.
Lemma rounds_w : forall c cs body bs step ss, rises body -> rises step -> fmeans L c cs -> wdrop body n_docr bs -> wdrop step n_s ss ->
  exists N, forall n K g s, (N <= n)%nat -> at_env g s -> wgave true (some_run (fun k => loop k (oval L c) (body k) (step k)) g) (e_stk s) s ((rounds (ev n) K 0 cs bs ss ;;; push VNil) s).
Proof.
  intros c cs body bs step ss Rb Rs Hc (N1 & Hb) (N2 & Hs). destruct (w_holds c cs Hc) as (N & Hh). exists (N + N1 + N2)%nat. intros n K. induction K as [|K IH]; intros g s Hn V; [left; eexists; reflexivity|]. cbn [rounds].
  replace ((((h <-- QText.holds (ev n) 0 cs;; (if h then run_drop (ev n) 0 n_docr bs;;; run_drop (ev n) 0 n_s ss;;; rounds (ev n) K 0 cs bs ss else ret tt));;; push VNil)) s)
    with ((h <-- QText.holds (ev n) 0 cs;; (fun s => if h then (run_drop (ev n) 0 n_docr bs;;; run_drop (ev n) 0 n_s ss;;; rounds (ev n) K 0 cs bs ss ;;; push VNil) s else push VNil s)) s).
  - apply (Hh n g s _ _); [lia|exact V|]. unfold some_run. destruct (oval L c g) as [v0|q] eqn:E; [|exists 1%nat; cbn [loop]; rewrite E; reflexivity].
    destruct v0 as [|b0| | | | | | | | | | | | | | | | | | | | | | | ]; try (exists 1%nat; cbn [loop]; rewrite E; reflexivity). intros s1 K1 V1. destruct b0.
    + rewrite <- K1. apply (Hb n g s1); [lia|exact V1| |].
      * intros k1 g1 v1 s2 R1 K2 V2. rewrite <- K2. apply (Hs n g1 s2); [lia|exact V2| |].
        -- intros k2 g2 v2 s3 R2 K3 V3. rewrite <- K3. eapply w_weaken; [|apply IH; [exact Hn|exact V3]]. intros o (k & Ho). set (m := (k1 + k2 + k)%nat). exists (S m). cbn [loop]. rewrite E.
           rewrite (rises_le _ Rb k1 (S m) ltac:(lia) _ _ R1). cbn [andthen]. rewrite (rises_le _ Rs k2 (S m) ltac:(lia) _ _ R2). cbn [andthen].
           assert (G : grows (loop k (oval L c) (body k) (step k)) (loop m (oval L c) (body (S m)) (step (S m)))).
           { intros g0 o0 X. apply (rises_le _ (loop_rises (oval L c) body step Rb Rs) k m ltac:(lia)) in X. cbn beta in X. revert g0 o0 X. clear -Rb Rs. generalize (Rb m) (Rs m). generalize (body m) (body (S m)) (step m) (step (S m)). intros b b' st st' Hb Hs.
             induction m as [|m IH]; intros g0 o0; [discriminate|]. cbn [loop]. destruct (oval L c g0) as [v|q]; [|auto]. destruct v as [|[]| | | | | | | | | | | | | | | | | | | | | | | ]; auto.
             apply then_grows2; [apply Hb|]. intros g1 _ o1. apply then_grows2; [apply Hs|]. intros g2 _ o2. apply IH. }
           apply G. exact Ho.
        -- intros k2 g2 q2 R2. exists (S (k1 + k2)). cbn [loop]. rewrite E. rewrite (rises_le _ Rb k1 (S (k1 + k2)) ltac:(lia) _ _ R1). cbn [andthen]. rewrite (rises_le _ Rs k2 (S (k1 + k2)) ltac:(lia) _ _ R2). reflexivity.
      * intros k1 g1 q1 R1. exists (S k1). cbn [loop]. rewrite E. rewrite (Rb k1 _ _ R1). reflexivity.
    + apply (w_one _ (g, inl VNil)); [exists 1%nat; cbn [loop]; rewrite E; reflexivity|]. exists (pushed VNil s1). split; [reflexivity|]. split; [cbn; rewrite K1; reflexivity|]. split; [apply env_stk; exact V1|]. split; [apply still_stk|intro; reflexivity].
  - unfold bind. destruct (QText.holds (ev n) 0 cs s) as [(h, s1)|(e, s1)]; [|reflexivity]. destruct h; [|reflexivity].
    destruct (run_drop (ev n) 0 n_docr bs s1) as [(u, s2)|(e, s2)]; [|reflexivity]. destruct (run_drop (ev n) 0 n_s ss s2) as [(u', s3)|(e, s3)]; [|reflexivity]. reflexivity.
Qed.

(** ** Blocks *)
Definition wdmeans (s : stmt) (b : block) (c : sem) : Prop :=
  exists N, forall n g st, (N <= n)%nat -> at_env g st -> (fr_base (getf 0 st) <= length (e_stk st))%nat ->
    wgave false (some_run (fun k => brun L k (BCons s b)) g) (match b with BNil => e_stk st | _ => cut_to (fr_base (getf 0 st)) (e_stk st) end) st (c (ev n) n 0%nat st).
Lemma srun_le : forall st k k', (k <= k')%nat -> grows (srun L k st) (srun L k' st).
Proof. intros st. apply (rises_le (fun k => srun L k st)). intro k. apply (proj1 (runs_grow L k)). Qed.
Lemma brun_le : forall b k k', (k <= k')%nat -> grows (brun L k b) (brun L k' b).
Proof. intros b. apply (rises_le (fun k => brun L k b)). intro k. apply (proj1 (proj2 (runs_grow L k))). Qed.
Lemma rrun_le : forall b v k k', (k <= k')%nat -> grows (rrun L k b v) (rrun L k' b v).
Proof. intros [|s b] v k k' H; [intros g o E; exact E|]. apply (brun_le (BCons s b) k k' H). Qed.
Lemma doc_w : forall s b c rc, wsmeans s c -> wrmeans b rc -> wdmeans s b (c >> rc).
Proof.
  intros s b c rc (N1 & Hs) (N2 & Hr). exists (N1 + N2)%nat. intros n g st Hn V HB. unfold seq. eapply w_bind; [apply Hs; [lia|exact V]| |].
  - intros g1 v s1 (k1 & R1) K1 V1 S1 B1. rewrite <- (B1 0%nat). eapply w_weaken; [|apply Hr; [lia|exact V1|exact K1|rewrite (B1 0%nat); exact HB]].
    intros o (k & Ho). exists (k1 + k)%nat. rewrite brun_cons. rewrite (srun_le s k1 (k1 + k) ltac:(lia) _ _ R1). cbn [andthen]. apply (rrun_le b v k (k1 + k) ltac:(lia) _ _ Ho).
  - intros g1 q r (k1 & R1) H. apply (w_one _ (g1, inr q)); [exists k1; rewrite brun_cons, R1; reflexivity|].
    destruct b; [exact H|]. destruct (cut_app (fr_base (getf 0 st)) (e_stk st)) as (l & El). rewrite El in H at 1. apply (sgave_lower _ l). exact H.
Qed.
Lemma rest_w : forall ts s b c, wdmeans s b c -> wrmeans (BCons s b) ((fun _ _ p => blame ts (Clear p)) >> c).
Proof.
  intros ts s b c (N & M). exists N. intros n g v st stk Hn V K HB. unfold seq, bind, blame, Clear, gets, SetFrame. unfold bind at 1.
  assert (X : (fr_base (getf 0 st) <=? length (e_stk st))%nat = true) by (apply Nat.leb_le; rewrite K; cbn; lia). rewrite X. clear X.
  change (skipn (length (e_stk st) - fr_base (getf 0 st)) (e_stk st)) with (cut_to (fr_base (getf 0 st)) (e_stk st)). rewrite K, cut_cons by exact HB.
  set (s1 := set_stk (cut_to (fr_base (getf 0 st)) stk) st). eapply w_from; [apply (still_stk st (cut_to (fr_base (getf 0 st)) stk))|intro; reflexivity|]. fold s1.
  assert (L1 : length (e_stk s1) = fr_base (getf 0 s1)) by (apply (cut_length (fr_base (getf 0 st)) stk HB)).
  specialize (M n g s1 Hn (env_stk _ _ _ V) ltac:(lia)). change (cut_to (fr_base (getf 0 st)) stk) with (e_stk s1). destruct b; [exact M|]. rewrite <- L1, cut_self in M. exact M.
Qed.
Lemma wrmeans_alike : forall b c c', alike c c' -> wrmeans b c' -> wrmeans b c.
Proof. intros b c c' A (N & H). exists N. intros n g v s stk Hn V K HB. rewrite A. apply H; assumption. Qed.
Lemma nop_w : wrmeans BNil nop.
Proof. exists 0%nat. intros n g v s stk _ V K _. apply (w_one _ (g, inl v)); [exists 0%nat; reflexivity|]. exists s. split; [reflexivity|]. split; [exact K|]. split; [exact V|]. split; [apply still_refl|intro; reflexivity]. Qed.
Definition wblock (b : block) (ts : list token) : Prop := match b with BNil => ts = [] | BCons s b' => ts <> [] /\ exists c, doc_is L ts c /\ wdmeans s b' c end.
Lemma block_w : forall b ts, wblock b ts -> (exists c, opt_doc L ts c) /\ wbodymeans b ts /\ wdrop (fun k => brun L k b) n_docr ts.
Proof.
  intros [|s b] ts H.
  - cbn in H. subst ts. split; [exists nop; constructor|]. split; [|apply no_drop_w; reflexivity]. exists 0%nat. intros n g s _ V. apply (w_one _ (g, inl VNil)); [exists 0%nat; reflexivity|].
    exists (pushed VNil s). split; [reflexivity|]. split; [reflexivity|]. split; [apply env_stk; exact V|]. split; [apply still_stk|intro; reflexivity].
  - destruct H as (Ht & c & Hd & N & M). split; [exists c; apply OD_some; exact Hd|].
    assert (C : exists N, forall n g st, (N <= n)%nat -> at_env g st -> wgave false (some_run (fun k => brun L k (BCons s b)) g) (e_stk st) st (evalCode (ev n) 0 n_docr (VCode ts) st)).
    { apply (code_w n_docr ts c (fun g => some_run (fun k => brun L k (BCons s b)) g) (or_intror (or_introl (conj eq_refl Hd)))). exists N. intros n g st Hn V HB. specialize (M n g st Hn V ltac:(lia)).
      destruct b; [exact M|]. rewrite HB, cut_self in M. exact M. }
    split; [|apply drops_w; [exact C|exact Ht]]. destruct C as (N' & C). exists N'. intros n g st Hn V. destruct ts; [contradiction|]. apply C; assumption.
Qed.
Definition wheader (i : stmt) (c : option ex) (st : stmt) (header : list (list token)) : Prop :=
  exists is cs ss, wdrop (fun k => srun L k i) n_s is /\ fmeans L c cs /\ wdrop (fun k => srun L k st) n_s ss /\
    forall n p b, for_stmt (ev n) n p header b = (run_drop (ev n) p n_s is ;;; rounds (ev n) n p cs b ss ;;; push VNil).
Lemma for_run : forall k i c st b g, srun L k (SFor i c st b) g = andthen (srun L k i g) (fun g1 _ => loop k (oval L c) (brun L k b) (srun L k st) g1).
Proof. reflexivity. Qed.
Lemma for_w : forall i c st header b bs ts, wheader i c st header -> wdrop (fun k => brun L k b) n_docr bs -> wsmeans (SFor i c st b) (fun ev0 k p => blame ts (for_stmt ev0 k p header bs)).
Proof.
  intros i c st header b bs ts (is & cs & ss & (N1 & Hi) & Hc & Hs & Hf) Hb.
  assert (Rb : rises (fun k => brun L k b)) by (intro k; apply (proj1 (proj2 (runs_grow L k)))).
  assert (Rs : rises (fun k => srun L k st)) by (intro k; apply (proj1 (runs_grow L k))).
  destruct (rounds_w c cs (fun k => brun L k b) bs (fun k => srun L k st) ss Rb Rs Hc Hb Hs) as (N2 & M). exists (N1 + N2)%nat. intros n g s Hn V. apply (w_blame _ true). rewrite Hf.
  apply (Hi n g s); [lia|exact V| |].
  - intros k1 g1 v s1 R1 K1 V1. rewrite <- K1. eapply w_weaken; [|apply M; [lia|exact V1]]. intros o (k & Ho). exists (k1 + k)%nat. rewrite for_run. rewrite (srun_le i k1 (k1 + k) ltac:(lia) _ _ R1). cbn [andthen].
    apply (rises_le _ (loop_rises (oval L c) _ _ Rb Rs) k (k1 + k) ltac:(lia) _ _ Ho).
  - intros k1 g1 q R1. exists k1. rewrite for_run, R1. reflexivity.
Qed.

(** ** Texts *)
Definition wstmt (st : stmt) (ts : list token) : Prop := ts <> [] /\ plain_start ts /\ exists c, stmt_is L ts c /\ wsmeans st c.
Lemma wstmt_code : forall st ts, wstmt st ts -> wdrop (fun k => srun L k st) n_s ts.
Proof.
  intros st ts (Ht & _ & c & Hc & N & M). apply drops_w; [|exact Ht]. apply (code_w n_s ts c (fun g => some_run (fun k => srun L k st) g)); [right; right; left; split; [reflexivity|exact Hc]|].
  exists N. intros n g s Hn V _. apply M; assumption.
Qed.
Lemma factor_w : forall st ts c, ts <> [] -> plain_start ts -> factor_is L ts c -> wsmeans st c -> wstmt st ts.
Proof.
  intros st ts c A B F M. split; [exact A|]. split; [exact B|]. destruct (factor_stmt L ts c F) as (c' & X & Y). exists c'. split; [apply S_expr; exact X|]. apply (wsmeans_alike st c' c Y M).
Qed.
Lemma leaf_op : forall f x e g, exists o, forall k, srun L k (SOp f x e) g = Some o.
Proof.
  intros f x e g. cbn [srun]. destruct (xval L g e) as [w|q]; [|eexists; reflexivity]. destruct (g x) as [v|]; [|eexists; reflexivity]. destruct (f v w) as [u|q]; eexists; reflexivity.
Qed.
Lemma leaf_inc : forall f x g, exists o, forall k, srun L k (SInc f x) g = Some o.
Proof. intros f x g. cbn [srun]. destruct (g x) as [v|]; [|eexists; reflexivity]. destruct (f v) as [u|q]; eexists; reflexivity. Qed.
Lemma leaf_set : forall x e g, exists o, forall k, srun L k (SSet x e) g = Some o.
Proof. intros x e g. cbn [srun]. destruct (xval L g e) as [u|q]; eexists; reflexivity. Qed.
Theorem texts_end : plain_lib L ->
  (forall st ts, swritten L st ts -> wstmt st ts) /\ (forall b ts, bwritten L b ts -> wblock b ts) /\
  (forall b ts, rwritten L b ts -> exists c, rest_is L ts c /\ wrmeans b c) /\
  (forall br ts, elwritten L br ts -> exists l, elifs_are L ts l /\ wbrmeans br l) /\
  (forall b ts, ewritten L b ts -> exists bs, else_is L ts bs /\ wbodymeans b bs) /\
  (forall br ts, cwritten L br ts -> exists l, cases_are L ts l /\ wbrmeans br l) /\
  (forall b ts, dwritten L b ts -> exists bs, default_is L ts bs /\ wbodymeans b bs) /\
  (forall e ts, owritten L e ts -> (exists c, opt_expr L ts c) /\ hd_error (map tkind ts) <> Some LBRACE /\ omeans L e ts) /\
  (forall i c st ts, hwritten L i c st ts -> exists header, header_is L ts header /\ wheader i c st header).
Proof.
  intro PL.
  apply (written_all W L (fun st ts => wstmt st ts) (fun b ts => wblock b ts) (fun b ts => exists c, rest_is L ts c /\ wrmeans b c)
    (fun br ts => exists l, elifs_are L ts l /\ wbrmeans br l) (fun b ts => exists bs, else_is L ts bs /\ wbodymeans b bs)
    (fun br ts => exists l, cases_are L ts l /\ wbrmeans br l) (fun b ts => exists bs, default_is L ts bs /\ wbodymeans b bs)
    (fun e ts => (exists c, opt_expr L ts c) /\ hd_error (map tkind ts) <> Some LBRACE /\ omeans L e ts)
    (fun i c st ts => exists header, header_is L ts header /\ wheader i c st header)).
  (* statements *)
  - intros e ts H. destruct (written_start L _ _ _ H) as (A & B). split; [exact A|]. split; [exact B|]. destruct (expr_means L e ts H) as (c & C & M). exists c. split; [apply S_expr; exact C|apply leaf_means; [intro g; eexists; reflexivity|apply val_means; exact M]].
  - intros t t1 e ts K N K1 H. split; [discriminate|]. split; [unfold plain_start; cbn; rewrite K; split; discriminate|]. destruct (expr_means L e ts H) as (c & C & M).
    eexists. split; [apply S_assign; eassumption|]. apply leaf_means; [apply leaf_set|]. eapply set_means; eassumption.
  - intros t t1 f K K1. split; [discriminate|]. split; [unfold plain_start; cbn; rewrite K; split; discriminate|]. eexists. split; [apply S_incdec; eassumption|]. apply leaf_means; [apply leaf_inc|]. eapply inc_means; eassumption.
  - intros t t1 f e ts K K1 H. split; [discriminate|]. split; [unfold plain_start; cbn; rewrite K; split; discriminate|]. destruct (expr_means L e ts H) as (c & C & M).
    eexists. split; [eapply S_opassign; eassumption|]. apply leaf_means; [apply leaf_op|]. eapply op_means; eassumption.
  - intros t c cs t1 b bs t2 br brs els es K Hc K1 Hb IHb K2 Hbr IHbr He IHe. destruct (cond_means L c cs Hc) as (_ & _ & (cc & X) & Mc & _). destruct (block_w b bs IHb) as ((bc & Ob) & Mb & _).
    destruct IHbr as (l & El & Ml). destruct IHe as (ec & Ee & Me).
    apply (factor_w _ _ (fun ev0 _ p => blame es (if_chain ev0 p ((cs, bs) :: l) ec))); [discriminate|unfold plain_start; cbn; rewrite K; split; discriminate| |].
    + eapply F_if; [exact K|exact X|apply BD; eassumption|exact El|exact Ee].
    + destruct (if_w (CCons c b br) ((cs, bs) :: l) ec els (conj Mc (conj Mb Ml)) Me) as (N & M). exists N. intros n g s Hn V. apply (w_blame _ true). apply M; assumption.
  - intros t x xs t1 br brs d ds t2 K Hx IHx K1 Hbr IHbr Hd IHd K2. destruct IHx as ((xc & X) & Xh & Mx). destruct IHbr as (l & El & Ml). destruct IHd as (dc & Ed & Md).
    apply (factor_w _ _ (fun ev0 _ p => blame [t2] (switch_on L ev0 p xs l dc))); [discriminate|unfold plain_start; cbn; rewrite K; split; discriminate| |].
    + eapply F_switch; eassumption.
    + destruct (switch_w x xs br l dc d Mx Ml Md) as (N & M). exists N. intros n g s Hn V. apply (w_blame _ true). apply M; assumption.
  - intros t i c st hs t1 b bs t2 K Hh IHh K1 Hb IHb K2. destruct IHh as (header & Eh & Mh). destruct (block_w b bs IHb) as ((bc & Ob) & _ & Mb).
    apply (factor_w _ _ (fun ev0 k p => blame [t2] (for_stmt ev0 k p header bs))); [discriminate|unfold plain_start; cbn; rewrite K; split; discriminate| |].
    + eapply F_for; eassumption.
    + apply for_w; assumption.
  (* blocks *)
  - reflexivity.
  - intros s ts b r Hs (A & B & c & C & M) Hr (rc & R & Mr). split; [destruct ts; [contradiction|discriminate]|]. exists (seq c rc). split; [apply D; assumption|apply doc_w; assumption].
  - exists nop. split; [constructor|apply nop_w].
  - intros t s ts b r K Hs (A & B & c & C & M) Hr (rc & R & Mr). eexists. split; [apply R_stmt; eassumption|]. eapply wrmeans_alike; [apply alike_assoc|]. apply rest_w. apply doc_w; assumption.
  - intros t b r K Hd Hr (rc & R & Mr). eexists. split; [apply R_empty; eassumption|]. eapply wrmeans_alike; [apply alike_assoc|]. apply rest_w. apply doc_w; [apply leaf_means; [intro g; eexists; reflexivity|apply nil_means]|exact Mr].
  (* branches *)
  - exists []. split; [constructor|exact Logic.I].
  - intros t c cs t1 b bs t2 br r K Hc K1 Hb IHb K2 Hr (l & El & Ml). destruct (cond_means L c cs Hc) as (_ & _ & (cc & X) & Mc & _). destruct (block_w b bs IHb) as ((bc & Ob) & Mb & _).
    exists ((cs, bs) :: l). split; [eapply EL_cons; [exact K|exact X|apply BD; eassumption|exact El]|exact (conj Mc (conj Mb Ml))].
  - exists []. split; [constructor|]. apply (block_w BNil []). reflexivity.
  - intros t t1 b bs t2 K K1 Hb IHb K2. destruct (block_w b bs IHb) as ((bc & Ob) & Mb & _). exists bs. split; [eapply EE_some; [exact K|apply BD; eassumption]|exact Mb].
  - exists []. split; [constructor|exact Logic.I].
  - intros t c cs t1 b bs br r K Hc K1 Hb IHb Hr (l & El & Ml). destruct (cond_means L c cs Hc) as (_ & _ & (cc & X) & Mc & _). destruct (block_w b bs IHb) as ((bc & Ob) & Mb & _).
    exists ((cs, bs) :: l). split; [eapply CS_cons; eassumption|exact (conj Mc (conj Mb Ml))].
  - exists []. split; [constructor|]. apply (block_w BNil []). reflexivity.
  - intros t t1 b bs K K1 Hb IHb. destruct (block_w b bs IHb) as ((bc & Ob) & Mb & _). exists bs. split; [eapply DF_some; eassumption|exact Mb].
  (* headers *)
  - split; [exists nop; constructor|]. split; [discriminate|reflexivity].
  - intros e ts H. destruct (cond_means L e ts H) as (A & B & (c & C) & M & _). split; [exists c; apply OE_some; exact C|]. split; [exact B|]. split; [exact A|exact M].
  - exists []. split; [constructor|]. exists [], [], []. split; [apply no_drop_w; reflexivity|]. split; [reflexivity|]. split; [apply no_drop_w; reflexivity|]. reflexivity.
  - intros c cs H. destruct (cond_means L c cs H) as (A & B & _ & _ & (sc & C) & P & M). exists [cs]. split; [pose proof (H_some L _ _ _ _ C P (MH_nil L)) as X; rewrite app_nil_r in X; exact X|].
    exists [], cs, []. split; [apply no_drop_w; reflexivity|]. split; [exact (conj A M)|]. split; [apply no_drop_w; reflexivity|]. reflexivity.
  - intros i is c cs st ss t1 t2 Hi IHi K1 Hc K2 Hs IHs. destruct (cond_means L c cs Hc) as (A & B & _ & _ & (sc & C) & P & M). pose proof IHi as (Ai & Pi & ci & Ci & _). pose proof IHs as (As & Ps & cS & CS & _).
    exists [is; cs; ss]. split; [eapply H_some; [exact Ci|exact Pi|]; eapply MH_cons; [exact K1|exact C|exact P|]; eapply MH_cons; [exact K2|exact CS|exact Ps|constructor]|].
    exists is, cs, ss. split; [apply wstmt_code; exact IHi|]. split; [exact (conj A M)|]. split; [apply wstmt_code; exact IHs|]. reflexivity.
Qed.
End Ends.
