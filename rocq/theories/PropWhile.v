(** Property C92: programs without functions -- assignments, conditionals, switches and loops over expressions -- do to the
    engine's variables what their statements say, one after another. *)
From Coq Require Import String SpecFloat.
From Verif Require Import Base Token Scanner Tokenize Grammar Compiler Interp QValue Qlang QlangSpec QlangTop QText QTidy QExpr QEval PropVars QExprP PropText QEmbed PropEmbed QlangEx QWhile QWhileP.
Local Open Scope list_scope.
Local Open Scope Z_scope.

Section While.
Context {W : Type}.
Variable L : qlib W.
Variables isL isD : Z -> bool.
Notation St := (est nat value (@rest W)).
Notation holds := PropEmbed.holds.

(** ** The outcome does not depend on the bound *)
Definition grows (f f' : env -> option outcome) : Prop := forall g o, f g = Some o -> f' g = Some o.
Lemma then_grows : forall (a : option outcome) k k' o, (forall g v o, k g v = Some o -> k' g v = Some o) -> andthen a k = Some o -> andthen a k' = Some o.
Proof. intros [(g, [v|q])|] k k' o H E; cbn in *; [apply H; exact E|exact E|discriminate]. Qed.
Lemma then_grows2 : forall (a a' : option outcome) k k' o, (forall o, a = Some o -> a' = Some o) -> (forall g v o, k g v = Some o -> k' g v = Some o) -> andthen a k = Some o -> andthen a' k' = Some o.
Proof. intros [(g, [v|q])|] a' k k' o Ha H E; cbn in E; [rewrite (Ha _ eq_refl); apply H; exact E|rewrite (Ha _ eq_refl); exact E|discriminate]. Qed.
Lemma loop_grows : forall c b b' s s' k, grows b b' -> grows s s' -> grows (loop k c b s) (loop (S k) c b' s').
Proof.
  intros c b b' s s' k Hb Hs. induction k as [|k IH]; intros g o E; [discriminate|]. change (loop (S (S k)) c b' s' g) with
    (match c g with inl (VBool true) => andthen (b' g) (fun g1 _ => andthen (s' g1) (fun g2 _ => loop (S k) c b' s' g2)) | inl (VBool false) => Some (g, inl VNil) | inl _ => Some (g, inr (msg m_forcond [])) | inr q => Some (g, inr q) end).
  cbn [loop] in E. destruct (c g) as [v|q]; [|exact E]. destruct v as [|[]| | | | | | | | | | | | | | | | | | | | | | | ]; try exact E.
  revert E. apply then_grows2; [apply Hb|]. intros g1 _ o1. apply then_grows2; [apply Hs|]. intros g2 _ o2. apply IH.
Qed.
Scheme stmt_mut := Induction for stmt Sort Prop with block_mut := Induction for block Sort Prop with branches_mut := Induction for branches Sort Prop.
Combined Scheme program_ind from stmt_mut, block_mut, branches_mut.
Lemma runs_grow : forall k,
  (forall st, grows (srun L k st) (srun L (S k) st)) /\ (forall b, grows (brun L k b) (brun L (S k) b)) /\
  (forall br, (forall E E', grows E E' -> grows (ifrun L k br E) (ifrun L (S k) br E')) /\ (forall v E E', grows E E' -> grows (caserun L k v br E) (caserun L (S k) v br E'))).
Proof.
  intro k. apply program_ind.
  - intros g o E. exact E.
  - intros e g o E. exact E.
  - intros x e g o E. exact E.
  - intros f x g o E. exact E.
  - intros f x e g o E. exact E.
  - intros br (IH & _) els IHe g o. apply IH. exact IHe.
  - intros e br (_ & IH) d IHd g o. change (match oval L e g with inl v => caserun L k v br (brun L k d) g | inr q => Some (g, inr q) end = Some o -> match oval L e g with inl v => caserun L (S k) v br (brun L (S k) d) g | inr q => Some (g, inr q) end = Some o).
    destruct (oval L e g) as [v|q]; [|auto]. apply IH. exact IHd.
  - intros i IHi c st IHs b IHb g o. change (andthen (srun L k i g) (fun g1 _ => loop k (oval L c) (brun L k b) (srun L k st) g1) = Some o -> andthen (srun L (S k) i g) (fun g1 _ => loop (S k) (oval L c) (brun L (S k) b) (srun L (S k) st) g1) = Some o).
    apply then_grows2; [apply IHi|]. intros g1 _. apply loop_grows; assumption.
  - intros g o E. exact E.
  - intros s IHs b IHb g o. rewrite !brun_cons. apply then_grows2; [apply IHs|]. intros g1 v o1. destruct b; [auto|apply IHb].
  - split; [intros E E' H g o X; apply H; exact X|intros v E E' H g o X; apply H; exact X].
  - intros c b IHb br (IH1 & IH2). split.
    + intros E E' H g o. rewrite !ifrun_cons. destruct (xval L g c) as [v|q]; [|auto]. destruct v as [|[]| | | | | | | | | | | | | | | | | | | | | | | ]; auto. apply IH1. exact H.
    + intros v E E' H g o. rewrite !caserun_cons. destruct (xval L g c) as [w|q]; [|auto]. destruct (EQ (l_same L) v w) as [r|q]; [|auto].
      destruct r as [|[]| | | | | | | | | | | | | | | | | | | | | | | ]; try (apply IH2; exact H). apply IHb.
Qed.
Lemma runs_mono : forall k k' b g o, (k <= k')%nat -> brun L k b g = Some o -> brun L k' b g = Some o.
Proof. intros k k' b g o H E. induction H as [|k' H IH]; [exact E|]. apply (proj1 (proj2 (runs_grow k'))). exact IH. Qed.
Theorem C92_one_outcome : forall k k' b g o o', brun L k b g = Some o -> brun L k' b g = Some o' -> o = o'.
Proof.
  intros k k' b g o o' H H'. destruct (Nat.le_ge_cases k k') as [X|X].
  - apply (runs_mono _ _ _ _ _ X) in H. congruence.
  - apply (runs_mono _ _ _ _ _ X) in H'. congruence.
Qed.

(** ** Values are plain and panics are strings or errors *)
Definition tame_run (f : env -> option outcome) : Prop := forall g o, all_plain g -> f g = Some o -> tame (snd o) /\ all_plain (fst o).
Lemma then_tame : forall a k o, (forall o, a = Some o -> tame (snd o) /\ all_plain (fst o)) -> (forall g v o, all_plain g -> k g v = Some o -> tame (snd o) /\ all_plain (fst o)) ->
  andthen a k = Some o -> tame (snd o) /\ all_plain (fst o).
Proof. intros [(g, [v|q])|] k o Ha Hk E; cbn in E; [|injection E as <-; apply Ha; reflexivity|discriminate]. eapply Hk; [|exact E]. apply (Ha _ eq_refl). Qed.
Lemma assigned_tame : forall x r g o, all_plain g -> tame r -> assigned x r g = Some o -> tame (snd o) /\ all_plain (fst o).
Proof. intros x [v|q] g o G T [= <-]; (split; [exact T|]); [apply with_plain; assumption|exact G]. Qed.
Lemma nil_tame : tame (inl VNil).
Proof. intros ? ?. discriminate. Qed.
Fixpoint each_cond (T : ex -> Prop) (B : block -> Prop) (br : branches) : Prop := match br with CNil => True | CCons c b br' => T c /\ B b /\ each_cond T B br' end.
Definition tame_ex (e : ex) : Prop := forall g, all_plain g -> tame (xval L g e).
Definition tame_branches (k : nat) (br : branches) : Prop := each_cond tame_ex (fun b => tame_run (brun L k b)) br.
Lemma if_tame : forall k br E, tame_branches k br -> tame_run E -> tame_run (ifrun L k br E).
Proof.
  intros k. induction br as [|c b br IH]; intros E H HE g o G X; [apply (HE g o G X)|]. destruct H as (Hc & Hb & H). rewrite ifrun_cons in X. specialize (Hc g G).
  destruct (xval L g c) as [v|q]; [|injection X as <-; split; assumption]. destruct v as [|[]| | | | | | | | | | | | | | | | | | | | | | | ]; try (injection X as <-; split; [exact Logic.I|exact G]); [apply (Hb g o G X)|apply (IH E H HE g o G X)].
Qed.
Lemma case_tame : forall k v br E, tame_branches k br -> tame_run E -> tame_run (caserun L k v br E).
Proof.
  intros k v. induction br as [|c b br IH]; intros E H HE g o G X; [apply (HE g o G X)|]. destruct H as (Hc & Hb & H). rewrite caserun_cons in X. specialize (Hc g G).
  destruct (xval L g c) as [w|q]; [|injection X as <-; split; assumption]. pose proof (eq_tame L v w) as T. destruct (EQ (l_same L) v w) as [r|q].
  - destruct r as [|[]| | | | | | | | | | | | | | | | | | | | | | | ]; try destruct T; [apply (Hb g o G X)|apply (IH E H HE g o G X)].
  - injection X as <-. split; [destruct q; try destruct T; exact Logic.I|exact G].
Qed.
Lemma loop_tame : forall c b s k, (forall g, all_plain g -> tame (oval L c g)) -> tame_run b -> tame_run s -> tame_run (loop k (oval L c) b s).
Proof.
  intros c b s k Hc Hb Hs. induction k as [|k IH]; intros g o G E; [discriminate|]. cbn [loop] in E. specialize (Hc g G). destruct (oval L c g) as [v|q]; [|injection E as <-; split; assumption].
  destruct v as [|[]| | | | | | | | | | | | | | | | | | | | | | | ]; try (injection E as <-; split; [exact Logic.I|exact G]); [|injection E as <-; split; [exact nil_tame|exact G]].
  revert E. apply then_tame; [intros o1; apply Hb; exact G|]. intros g1 _ o1 G1. apply then_tame; [intros o2; apply Hs; exact G1|]. intros g2 _ o2. apply IH.
Qed.
Lemma written_tame : plain_lib L -> forall k,
  (forall st ts, swritten L st ts -> tame_run (srun L k st)) /\ (forall b ts, bwritten L b ts -> tame_run (brun L k b)) /\
  (forall b ts, rwritten L b ts -> b <> BNil -> tame_run (brun L k b)) /\
  (forall br ts, elwritten L br ts -> tame_branches k br) /\ (forall b ts, ewritten L b ts -> tame_run (brun L k b)) /\
  (forall br ts, cwritten L br ts -> tame_branches k br) /\ (forall b ts, dwritten L b ts -> tame_run (brun L k b)) /\
  (forall e ts, owritten L e ts -> forall g, all_plain g -> tame (oval L e g)) /\
  (forall i c st ts, hwritten L i c st ts -> tame_run (srun L k i) /\ (forall g, all_plain g -> tame (oval L c g)) /\ tame_run (srun L k st)).
Proof.
  intros PL k. assert (XT : forall e ts, written L 5 e ts -> tame_ex e) by (intros e ts H g G; apply (xval_tame L g PL G 5 e ts H)).
  assert (BN : tame_run (brun L k BNil)) by (intros g o G [= <-]; split; [exact nil_tame|exact G]).
  assert (SN : tame_run (srun L k SNone)) by (intros g o G [= <-]; split; [exact nil_tame|exact G]).
  assert (BC : forall s b, tame_run (srun L k s) -> (b <> BNil -> tame_run (brun L k b)) -> tame_run (brun L k (BCons s b))).
  { intros s b Hs Hb g o G. rewrite brun_cons. intro E. destruct (srun L k s g) as [(g1, [v|q])|] eqn:E1; cbn [andthen] in E; [| |discriminate].
    - destruct (Hs g _ G E1) as (T1 & G1). destruct b; [injection E as <-; split; assumption|]. apply (Hb ltac:(discriminate) g1 o G1 E).
    - injection E as <-. apply (Hs g _ G E1). }
  apply (written_all W L (fun st ts => tame_run (srun L k st)) (fun b ts => tame_run (brun L k b)) (fun b ts => b <> BNil -> tame_run (brun L k b))
    (fun br ts => tame_branches k br) (fun b ts => tame_run (brun L k b)) (fun br ts => tame_branches k br) (fun b ts => tame_run (brun L k b))
    (fun e ts => forall g, all_plain g -> tame (oval L e g)) (fun i c st ts => tame_run (srun L k i) /\ (forall g, all_plain g -> tame (oval L c g)) /\ tame_run (srun L k st))); try (intros; assumption).
  - intros e ts H g o G [= <-]. split; [apply (XT e ts H g G)|exact G].
  - intros t t1 e ts _ _ _ H g o G E. apply (assigned_tame _ _ _ _ G (XT e ts H g G) E).
  - intros t t1 f _ Hf g o G E. cbn in E. destruct (g (tlit t)) as [v|]; [|injection E as <-; split; [exact Logic.I|exact G]]. apply (assigned_tame _ _ _ _ G (incdec_tame _ _ Hf v) E).
  - intros t t1 f e ts _ Hf H g o G E. cbn in E. pose proof (XT e ts H g G) as T. destruct (xval L g e) as [w|q]; [|injection E as <-; split; assumption].
    destruct (g (tlit t)) as [v|]; [|injection E as <-; split; [exact Logic.I|exact G]]. apply (assigned_tame _ _ _ _ G (assign_tame L _ _ Hf v w) E).
  - intros t c cs t1 b bs t2 br brs els es _ Hc _ _ IHb _ _ IHbr _ IHe g o G E. apply (if_tame k (CCons c b br) (brun L k els)) with g; [split; [apply (XT c cs Hc)|split; assumption]|exact IHe|exact G|exact E].
  - intros t x xs t1 br brs d ds t2 _ _ IHx _ _ IHbr _ IHd _ g o G E. change (match oval L x g with inl v => caserun L k v br (brun L k d) g | inr q => Some (g, inr q) end = Some o) in E. specialize (IHx g G).
    destruct (oval L x g) as [v|q]; [|injection E as <-; split; assumption]. apply (case_tame k v br (brun L k d) IHbr IHd g o G E).
  - intros t i c st hs t1 b bs t2 _ _ (Hi & Hc & Hs) _ _ Hb _ g o G E. change (andthen (srun L k i g) (fun g1 _ => loop k (oval L c) (brun L k b) (srun L k st) g1) = Some o) in E.
    revert E. apply then_tame; [intros o1; apply Hi; exact G|]. intros g1 _ o1. apply loop_tame; assumption.
  - intros s ts b r _ Hs _ Hb. apply BC; assumption.
  - intros t s ts b r _ _ Hs _ Hb _. apply BC; assumption.
  - intros t b r _ _ _ Hb _. apply BC; assumption.
  - exact Logic.I.
  - intros t c cs t1 b bs t2 br r _ Hc _ _ IHb _ _ IHbr. split; [apply (XT c cs Hc)|split; assumption].
  - exact Logic.I.
  - intros t c cs t1 b bs br r _ Hc _ _ IHb _ IHbr. split; [apply (XT c cs Hc)|split; assumption].
  - intros g _ ? ?. discriminate.
  - intros e ts H. apply (XT e ts H).
  - split; [exact SN|]. split; [intros g _ ? ?; discriminate|exact SN].
  - intros c cs H. split; [exact SN|]. split; [apply (XT c cs H)|exact SN].
  - intros i is c cs st ss t1 t2 _ Hi _ H _ _ Hs. split; [exact Hi|]. split; [apply (XT c cs H)|exact Hs].
Qed.

(** ** Exec *)
Lemma holds_env : forall g (s : St), holds g s -> at_env g s.
Proof. intros g s (C & F & P & _ & _ & _ & _ & V). split; [exact C|]. split; [exact F|]. split; [exact P|exact V]. Qed.
(** Exec of such a program: if it ends in a value, that is on top of the stack; if it panics, so does Exec; in both cases the
    variables are those the program leaves. *)
Theorem C92_exec : forall semis old src ts eof b k g o, plain_lib L -> Tokenize isL isD false semis (AutoKw q_akw) old src = TzOk ts eof -> b <> BNil -> bwritten L b ts -> brun L k b g = Some o ->
  exists N, forall n s, (N <= n)%nat -> holds g s ->
    match snd o with
    | inl v => exists s' l, Exec L isL isD n semis old src s = inl (None, s') /\ e_stk s' = v :: l /\ (fr_base (getf 0 s') <= length l)%nat /\ holds (fst o) s'
    | inr q => exists src' s', Exec L isL isD n semis old src s = inr (wrap src' (PUser q), s') /\ holds (fst o) s'
    end.
Proof.
  intros semis old src ts eof b k g o PL Ht Nb Hw E. destruct (texts_mean L PL) as (_ & TB & _). specialize (TB b ts Hw). destruct b as [|st b]; [contradiction|]. destruct TB as (Nt & c & Hd & M).
  destruct (exec_text L isL isD semis old src ts eof c Ht Hd) as (N' & X). destruct (M k g o E) as (N & G). exists (N + N')%nat. intros n s Hn Hs. rewrite X by lia.
  pose proof Hs as (C & F & P & I & Mu & De & B & V). rewrite I. replace (set_mute 0 s) with s by (rewrite <- Mu; destruct s; reflexivity). specialize (G n s ltac:(lia) (holds_env g s Hs) B).
  set (stk := match b with BNil => e_stk s | _ => cut_to (fr_base (getf 0 s)) (e_stk s) end) in G.
  assert (HB : (fr_base (getf 0 s) <= length stk)%nat) by (unfold stk; destruct b; [exact B|]; rewrite cut_length by exact B; lia).
  assert (HH : forall s', at_env (fst o) s' -> still s s' -> (fr_base (getf 0 s') <= length (e_stk s'))%nat -> holds (fst o) s').
  { intros s' (C' & F' & P' & V') (_ & S2 & S3 & S4 & S5 & _) B'. split; [exact C'|]. split; [exact F'|]. split; [exact P'|]. split; [congruence|]. split; [congruence|]. split; [destruct (S2 0%nat) as (_ & _ & _ & ->); exact De|]. split; [exact B'|exact V']. }
  destruct o as (g', [v|q]); cbn [fst snd] in *.
  - destruct G as (s' & -> & K & V' & S' & Bs). exists s', stk. split; [reflexivity|]. split; [exact K|]. rewrite (Bs 0%nat). split; [exact HB|]. apply HH; [exact V'|exact S'|]. rewrite (Bs 0%nat), K. cbn. lia.
  - destruct G as (e & s' & -> & [(src' & ->)|(X0 & _)] & (l & K) & V' & S' & Bs); [|discriminate X0]. exists src', s'. split; [reflexivity|]. apply HH; [exact V'|exact S'|].
    destruct (Bs 0%nat) as [Y|Y]; [rewrite Y, K, app_length; lia|apply Y].
Qed.

(** ** Sessions *)
Lemma prequest_runs : forall semis a r k g an, plain_lib L -> prequests L isL isD semis a r -> panswered L k g r = Some an -> all_plain g ->
  exists N, forall n s, (N <= n)%nat -> holds g s ->
  exists x s', perform L isL isD n semis a s = (x, s') /\ looks (fst an) x /\ holds (snd an) s' /\ all_plain (snd an).
Proof.
  intros semis a r k g an PL H A G. destruct H as [a r H|old src ts eof b Ht Nb Hw].
  - injection A as <-. destruct (request_runs L isL isD semis a r PL H) as (N & X). exists N. intros n s Hn Hs. apply (X n g s Hn Hs G).
  - cbn in A. destruct (brun L k b g) as [o|] eqn:E; [|discriminate]. destruct (written_tame PL k) as (_ & TB & _). destruct (TB b ts Hw g o G E) as (T & G').
    destruct (C92_exec semis old src ts eof b k g o PL Ht Nb Hw E) as (N & X). exists N. intros n s Hn Hs. specialize (X n s Hn Hs).
    destruct o as (g', [v|q]); injection A as <-; cbn [fst snd] in *.
    + destruct X as (s1 & l & Ex & K & B & H1). pose proof (noted_holds None _ _ H1) as H2. destruct (ret_top _ (noted None s1) v l H2 K) as (s2 & R & H3).
      { rewrite (proj2 (proj2 (noted_frame None s1 0))). exact B. }
      exists (SValue (Some v)), s2. split; [|split; [constructor|split; [exact H3|exact G']]]. unfold perform, SafeEval, SafeExec. rewrite Ex. rewrite no_defers by apply H1.
      rewrite (proj1 (noted_recov None s1 (proj1 (proj2 H1)))). rewrite R. reflexivity.
    + destruct X as (src' & s1 & Ex & H1). exists (SError (inl (wrap src' (PUser q)))), (noted (Some (wrap src' (PUser q))) s1). split; [|split; [constructor|split; [apply noted_holds; exact H1|exact G']]].
      unfold perform, SafeEval. erewrite safe_fails; [reflexivity|exact Ex|destruct q; try destruct T; reflexivity|destruct q; try destruct T; reflexivity|apply H1|apply H1].
Qed.
(** A host that sets and reads variables and has such programs run, in any order, on a new engine sees what the programs do to a
    map of variables, also those that fail half-way. *)
Theorem C92_session : forall semis l rs k al g, plain_lib L -> Forall2 (prequests L isL isD semis) l rs -> panswers L k no_vars rs = Some (al, g) ->
  exists N, forall n w, (N <= n)%nat -> exists xs s, host L isL isD n semis l (q_start w) = (xs, s) /\ Forall2 looks al xs /\ forall x, Var x s = g x.
Proof.
  intros semis l rs k al g PL H A.
  assert (K : forall g0, panswers L k g0 rs = Some (al, g) -> all_plain g0 -> exists N, forall n s, (N <= n)%nat -> holds g0 s -> exists xs s', host L isL isD n semis l s = (xs, s') /\ Forall2 looks al xs /\ holds g s').
  { clear A. revert al g. induction H as [|a r l rs Ha Hl IH]; intros al g g0 A G.
    - injection A as <- <-. exists O. intros n s _ Hs. exists [], s. split; [reflexivity|]. split; [constructor|exact Hs].
    - cbn [panswers] in A. destruct (panswered L k g0 r) as [(an, g1)|] eqn:E1; [|discriminate]. destruct (panswers L k g1 rs) as [(al', g2)|] eqn:E2; [|discriminate]. injection A as <- <-.
      assert (G1 : all_plain g1).
      { destruct Ha as [a r Ha|old src ts eof b Ht Nb Hw]; cbn in E1.
        - injection E1 as E1. destruct Ha; cbn in E1; try (injection E1 as _ <-; first [exact G|apply with_plain; assumption]).
          + destruct (xval L g0 e); injection E1 as _ <-; exact G.
          + pose proof (xval_tame L g0 PL G _ _ _ H3) as T. destruct (xval L g0 e); injection E1 as _ <-; [apply with_plain; assumption|exact G].
        - destruct (brun L k b g0) as [o|] eqn:E; [|discriminate]. destruct (written_tame PL k) as (_ & TB & _). destruct (TB b ts Hw g0 o G E) as (_ & G'). destruct o as (g', [v|q]); injection E1 as _ <-; exact G'. }
      destruct (prequest_runs semis a r k g0 _ PL Ha E1 G) as (M & X). destruct (IH al' g2 g1 E2 G1) as (N & Y). exists (N + M)%nat. intros n s Hn Hs.
      destruct (X n s ltac:(lia) Hs) as (x & s1 & F1 & Lk & H1 & _). destruct (Y n s1 ltac:(lia) H1) as (xs & s2 & F2 & Lk2 & H2). exists (x :: xs), s2. cbn [host]. rewrite F1, F2. split; [reflexivity|]. split; [constructor; assumption|exact H2]. }
  destruct (K no_vars A ltac:(discriminate)) as (N & X). exists N. intros n w Hn. destruct (X n (q_start w) Hn) as (xs & s & E & Lk & Hs).
  - split; [split; [intros [|[|i]] j Y; discriminate Y|intros [|[|i]] m q Y; discriminate Y]|]. split; [apply Nat.lt_0_1|]. split; [reflexivity|]. split; [reflexivity|]. split; [reflexivity|]. split; [reflexivity|]. split; [apply Nat.le_refl|].
    intros m v. split; [intros (Y & _); discriminate Y|discriminate].
  - exists xs, s. split; [exact E|]. split; [exact Lk|]. intro x. destruct Hs as (C & _ & P & _ & _ & _ & _ & V). destruct (g x) as [v|] eqn:G; [apply var_defines; [exact C|exact P|]; apply V; exact G|].
    destruct (Var x s) as [v|] eqn:Y; [|reflexivity]. apply var_defines in Y; [|exact C|exact P]. apply V in Y. congruence.
Qed.
End While.

(** ** Examples *)
(** a program with every kind of statement; the first case would panic *)
Definition tally : string := "s = 0; for i = 1; i <= 4; i++ { if i == 2 { s += 10 } elif s > 10 { s -= 1 } else { s = s + i } }; switch s { case 0: r = nosuch case 14: r = s * 2 default: r = 3 }".
Definition tally_toks : list token := Eval vm_compute in toks tally.
Definition v_s : ex := XVar (s2b "s"). Definition v_i : ex := XVar (s2b "i"). Definition lit (z : Z) : ex := XLit (VInt z).
Definition tally_body : block :=
  BCons (SIf (CCons (XBin (EQ (l_same L0)) v_i (lit 2)) (BCons (SOp Add (s2b "s") (lit 10)) BNil)
             (CCons (XBin GT v_s (lit 10)) (BCons (SOp Sub (s2b "s") (lit 1)) BNil) CNil)) (BCons (SSet (s2b "s") (XBin Add v_s v_i)) BNil)) BNil.
Definition tally_prog : block :=
  BCons (SSet (s2b "s") (lit 0))
  (BCons (SFor (SSet (s2b "i") (lit 1)) (Some (XBin LE v_i (lit 4))) (SInc Inc (s2b "i")) tally_body)
  (BCons (SSwitch (Some v_s) (CCons (lit 0) (BCons (SSet (s2b "r") (XVar (s2b "nosuch"))) BNil) (CCons (lit 14) (BCons (SSet (s2b "r") (XBin Mul v_s (lit 2))) BNil) CNil)) (BCons (SSet (s2b "r") (lit 3)) BNil)) BNil)).
Definition yt (i : nat) : token := nth i tally_toks (mkTok 0 0 []).
Definition ys (i n : nat) : list token := firstn n (skipn i tally_toks).
Lemma name_at : forall i, tkind (yt i) = IDENT -> written L0 0 (XVar (tlit (yt i))) [yt i].
Proof. intros i H. apply w_var. exact H. Qed.
Lemma num_at : forall i z, literal L0 (yt i) (VInt z) -> written L0 0 (lit z) [yt i].
Proof. intros i z H. apply w_lit. exact H. Qed.
Lemma up : forall l k e ts, (l + k <= 5)%nat -> written L0 l e ts -> written L0 (k + l) e ts.
Proof. intros l k e ts H Hw. induction k as [|k IH]; [exact Hw|]. cbn [Nat.add]. apply w_up; [lia|]. apply IH. lia. Qed.
Ltac int_at i := refine (num_at i _ _); apply lit_int; reflexivity.
Example tally_written : bwritten L0 tally_prog tally_toks.
Proof.
  refine (bw_cons L0 _ (ys 0 3) _ (ys 3 64) _ _).
  - refine (sw_set L0 (yt 0) (yt 1) _ (ys 2 1) eq_refl _ eq_refl _); [discriminate|]. refine (up 0 5 _ _ _ _); [lia|]. int_at 2%nat.
  - refine (rw_stmt L0 (yt 3) _ (ys 4 39) _ (ys 43 24) eq_refl _ _).
    + refine (sw_for L0 (yt 4) _ _ _ (ys 5 10) (yt 15) _ (ys 16 26) (yt 42) eq_refl _ eq_refl _ eq_refl).
      * refine (hw_three L0 _ (ys 5 3) _ (ys 9 3) _ (ys 13 2) (yt 8) (yt 12) _ eq_refl _ eq_refl _).
        -- refine (sw_set L0 (yt 5) (yt 6) _ (ys 7 1) eq_refl _ eq_refl _); [discriminate|]. refine (up 0 5 _ _ _ _); [lia|]. int_at 7%nat.
        -- refine (up 3 2 _ _ _ _); [lia|]. refine (w_bin L0 2 (yt 10) _ _ (ys 9 1) _ (ys 11 1) (op_le L0) _ _); [refine (up 0 3 _ _ _ (name_at 9 eq_refl)); lia|]. refine (up 0 2 _ _ _ _); [lia|]. int_at 11%nat.
        -- refine (sw_inc L0 (yt 13) (yt 14) Inc eq_refl _). left. reflexivity.
      * refine (bw_cons L0 _ (ys 16 26) _ [] _ (rw_nil L0)).
        refine (sw_if L0 (yt 16) _ (ys 17 3) (yt 20) _ (ys 21 3) (yt 24) _ (ys 25 9) _ (ys 34 8) eq_refl _ eq_refl _ eq_refl _ _).
        -- refine (up 3 2 _ _ _ _); [lia|]. refine (w_bin L0 2 (yt 18) _ _ (ys 17 1) _ (ys 19 1) (op_eq L0) _ _); [refine (up 0 3 _ _ _ (name_at 17 eq_refl)); lia|]. refine (up 0 2 _ _ _ _); [lia|]. int_at 19%nat.
        -- refine (bw_cons L0 _ (ys 21 3) _ [] _ (rw_nil L0)). refine (sw_op L0 (yt 21) (yt 22) _ _ (ys 23 1) eq_refl _ _); [left; reflexivity|]. refine (up 0 5 _ _ _ _); [lia|]. int_at 23%nat.
        -- refine (elw_cons L0 (yt 25) _ (ys 26 3) (yt 29) _ (ys 30 3) (yt 33) _ [] eq_refl _ eq_refl _ eq_refl (elw_nil L0)).
           ++ refine (up 3 2 _ _ _ _); [lia|]. refine (w_bin L0 2 (yt 27) _ _ (ys 26 1) _ (ys 28 1) (op_gt L0) _ _); [refine (up 0 3 _ _ _ (name_at 26 eq_refl)); lia|]. refine (up 0 2 _ _ _ _); [lia|]. int_at 28%nat.
           ++ refine (bw_cons L0 _ (ys 30 3) _ [] _ (rw_nil L0)). refine (sw_op L0 (yt 30) (yt 31) _ _ (ys 32 1) eq_refl _ _); [right; left; reflexivity|]. refine (up 0 5 _ _ _ _); [lia|]. int_at 32%nat.
        -- refine (ew_else L0 (yt 34) (yt 35) _ (ys 36 5) (yt 41) eq_refl eq_refl _ eq_refl). refine (bw_cons L0 _ (ys 36 5) _ [] _ (rw_nil L0)).
           refine (sw_set L0 (yt 36) (yt 37) _ (ys 38 3) eq_refl _ eq_refl _); [discriminate|]. refine (up 2 3 _ _ _ _); [lia|].
           refine (w_bin L0 1 (yt 39) _ _ (ys 38 1) _ (ys 40 1) (op_add L0) (up 0 2 _ _ _ (name_at 38 eq_refl)) (up 0 1 _ _ _ (name_at 40 eq_refl))); lia.
    + refine (rw_stmt L0 (yt 43) _ (ys 44 23) _ [] eq_refl _ (rw_nil L0)).
      refine (sw_switch L0 (yt 44) _ (ys 45 1) (yt 46) _ (ys 47 14) _ (ys 61 5) (yt 66) eq_refl _ eq_refl _ _ eq_refl).
      * refine (ow_some L0 _ (ys 45 1) _). refine (up 0 5 _ _ _ (name_at 45 eq_refl)). lia.
      * refine (cw_cons L0 (yt 47) _ (ys 48 1) (yt 49) _ (ys 50 3) _ (ys 53 8) eq_refl _ eq_refl _ _).
        -- refine (up 0 5 _ _ _ _); [lia|]. int_at 48%nat.
        -- refine (bw_cons L0 _ (ys 50 3) _ [] _ (rw_nil L0)). refine (sw_set L0 (yt 50) (yt 51) _ (ys 52 1) eq_refl _ eq_refl (up 0 5 _ _ _ (name_at 52 eq_refl))); [discriminate|lia].
        -- refine (cw_cons L0 (yt 53) _ (ys 54 1) (yt 55) _ (ys 56 5) _ [] eq_refl _ eq_refl _ (cw_nil L0)); [refine (up 0 5 _ _ _ _); [lia|]; int_at 54%nat|].
           refine (bw_cons L0 _ (ys 56 5) _ [] _ (rw_nil L0)). refine (sw_set L0 (yt 56) (yt 57) _ (ys 58 3) eq_refl _ eq_refl _); [discriminate|]. refine (up 1 4 _ _ _ _); [lia|].
           refine (w_bin L0 0 (yt 59) _ _ (ys 58 1) _ (ys 60 1) (op_mul L0) (up 0 1 _ _ _ (name_at 58 eq_refl)) _); [lia|]. int_at 60%nat.
      * refine (dw_default L0 (yt 61) (yt 62) _ (ys 63 3) eq_refl eq_refl _). refine (bw_cons L0 _ (ys 63 3) _ [] _ (rw_nil L0)).
        refine (sw_set L0 (yt 63) (yt 64) _ (ys 65 1) eq_refl _ eq_refl _); [discriminate|]. refine (up 0 5 _ _ _ _); [lia|]. int_at 65%nat.
Qed.
(** one that fails after its first statement *)
Definition fails : string := "s = 20; t = nosuch; s = 21".
Definition fails_toks : list token := Eval vm_compute in toks fails.
Definition fails_prog : block := BCons (SSet (s2b "s") (lit 20)) (BCons (SSet (s2b "t") (XVar (s2b "nosuch"))) (BCons (SSet (s2b "s") (lit 21)) BNil)).
Definition ft (i : nat) : token := nth i fails_toks (mkTok 0 0 []).
Definition fs (i n : nat) : list token := firstn n (skipn i fails_toks).
Lemma up1 : forall e ts, written L0 0 e ts -> written L0 5 e ts.
Proof. intros e ts H. apply (up 0 5); [lia|exact H]. Qed.
Example fails_written : bwritten L0 fails_prog fails_toks.
Proof.
  refine (bw_cons L0 _ (fs 0 3) _ (fs 3 8) _ (rw_stmt L0 (ft 3) _ (fs 4 3) _ (fs 7 4) eq_refl _ (rw_stmt L0 (ft 7) _ (fs 8 3) _ [] eq_refl _ (rw_nil L0)))).
  - refine (sw_set L0 (ft 0) (ft 1) _ (fs 2 1) eq_refl _ eq_refl (up1 _ _ (w_lit L0 (ft 2) (VInt 20) _))); [discriminate|]. apply lit_int; reflexivity.
  - refine (sw_set L0 (ft 4) (ft 5) _ (fs 6 1) eq_refl _ eq_refl (up1 _ _ (w_var L0 (ft 6) eq_refl))). discriminate.
  - refine (sw_set L0 (ft 8) (ft 9) _ (fs 10 1) eq_refl _ eq_refl (up1 _ _ (w_lit L0 (ft 10) (VInt 21) _))); [discriminate|]. apply lit_int; reflexivity.
Qed.
Definition talk : list action := [AEval PropScan.fresh (s2b tally); AGet (s2b "r"); AEval PropScan.fresh (s2b fails); AGet (s2b "s"); ASet (s2b "nosuch") (VInt 1); AEval PropScan.fresh (s2b fails); AGet (s2b "s")].
Definition talk_asked : list prequest := [PRun tally_prog; PAsk (RGet (s2b "r")); PRun fails_prog; PAsk (RGet (s2b "s")); PAsk (RSet (s2b "nosuch") (VInt 1)); PRun fails_prog; PAsk (RGet (s2b "s"))].
Example talk_ok : Forall2 (prequests L0 no_class no_class false) talk talk_asked.
Proof.
  assert (T : prequests L0 no_class no_class false (AEval PropScan.fresh (s2b tally)) (PRun tally_prog)) by (eapply pq_run; [vm_compute; reflexivity|discriminate|exact tally_written]).
  assert (F : prequests L0 no_class no_class false (AEval PropScan.fresh (s2b fails)) (PRun fails_prog)) by (eapply pq_run; [vm_compute; reflexivity|discriminate|exact fails_written]).
  repeat (constructor; [first [exact T | exact F | apply pq_ask; first [apply rq_get | apply rq_set; discriminate]]|]). constructor.
Qed.
Example talk_answers : option_map fst (panswers L0 9 no_vars talk_asked) =
  Some [AValue (VInt 28); AVar (Some (VInt 28)); AFailed (msg m_nosym [VStr (s2b "nosuch")]); AVar (Some (VInt 20)); ANothing; AValue (VInt 21); AVar (Some (VInt 21))].
Proof. vm_compute. reflexivity. Qed.
Example talk_run : match host L0 no_class no_class 200 false talk (q_start tt) with
  ([SValue a; SVar b; SError (inl (PUser (PvRuntime (EOfStr (SOther m)) _))); SVar c; SNothing; SValue d; SVar e], s) => ([a; b; Some m; c; d; e], e_stk s) | _ => ([], []) end =
  ([Some (VInt 28); Some (VInt 28); Some (VMsg m_nosym [VStr (s2b "nosuch")]); Some (VInt 20); Some (VInt 21); Some (VInt 21)], []).
Proof. vm_compute. reflexivity. Qed.

Print Assumptions C92_one_outcome.
Print Assumptions C92_exec.
Print Assumptions C92_session.
