(** Property C94: programs with functions -- made, passed around, called in expressions, recursive, left by return -- and slices do what their
    statements say: each call has variables of its own below those of the call its function was made in. *)
From Coq Require Import String SpecFloat.
From Verif Require Import Base Token Scanner Tokenize Grammar Compiler Interp QValue Qlang QlangSpec QlangTop QText QTidy QExpr QEval PropVars QExprP PropText QEmbed PropEmbed QlangEx QWhile QWhileP QFun QFunP QFunK QRead.
From Verif Require PropScan PropClass PropWhile.
Local Open Scope list_scope.
Local Open Scope Z_scope.

Section Fun.
Context {W : Type}.
Variable L : qlib W.
Variables isL isD : Z -> bool.
Variable reads : list token -> option fblock.
Notation St := (est nat value (@rest W)).

(** ** The outcome does not depend on the bound *)
Definition fgrows (f f' : nat -> store -> option foutcome) : Prop := forall p h o, f p h = Some o -> f' p h = Some o.
Definition more (c c' : func -> list value -> store -> option foutcome) : Prop := forall f vs h o, c f vs h = Some o -> c' f vs h = Some o.
Lemma fthen_grows : forall (a a' : option foutcome) k k' o, (forall o, a = Some o -> a' = Some o) -> (forall h v o, k h v = Some o -> k' h v = Some o) -> fthen a k = Some o -> fthen a' k' = Some o.
Proof. intros [(h, [v|q|v])|] a' k k' o Ha H E; cbn in E; try (rewrite (Ha _ eq_refl); first [apply H; exact E|exact E]). discriminate. Qed.
Lemma floop_grows : forall (c c' b b' s s' : store -> option foutcome) k, (forall h o, c h = Some o -> c' h = Some o) -> (forall h o, b h = Some o -> b' h = Some o) -> (forall h o, s h = Some o -> s' h = Some o) ->
  forall h o, floop k c b s h = Some o -> floop (S k) c' b' s' h = Some o.
Proof.
  intros c c' b b' s s' k Hc Hb Hs. induction k as [|k IH]; intros h o; [intro E; discriminate E|]. apply fthen_grows; [apply Hc|]. intros h1 v o1 E. destruct v as [|[]| | | | | | | | | | | | | | | | | | | | | | | ]; try exact E.
  revert E. apply fthen_grows; [apply Hb|]. intros h2 _ o2. apply fthen_grows; [apply Hs|]. intros h3 _ o3. apply IH.
Qed.
Scheme fx_mut := Induction for fx Sort Prop with fxs_mut := Induction for fxs Sort Prop.
Combined Scheme fexpr_ind from fx_mut, fxs_mut.
Lemma xvals_cons : forall c e l p h, xvals L c (YCons e l) p h =
  match xval L c e p h with
  | Some (h1, Gives v) => match xvals L c l p h1 with Some (h2, inl vs) => Some (h2, inl (v :: vs)) | r => r end
  | Some (h1, Panics q) => Some (h1, inr q)
  | _ => None
  end.
Proof. reflexivity. Qed.
Lemma xval_slice : forall c l p h, xval L c (YSlice l) p h =
  match xvals L c l p h with Some (h1, inl vs) => Some (h1, Gives (slice_of vs)) | Some (h1, inr q) => Some (h1, Panics q) | None => None end.
Proof. reflexivity. Qed.
Lemma xvals_grow : forall c c', more c c' -> (forall e, fgrows (xval L c e) (xval L c' e)) /\ (forall l p h r, xvals L c l p h = Some r -> xvals L c' l p h = Some r).
Proof.
  intros c c' M. apply fexpr_ind.
  - intros v p h o E. exact E.
  - intros n p h o E. exact E.
  - intros f a IH p h o. apply fthen_grows; [apply IH|auto].
  - intros f a IHa b IHb p h o. apply fthen_grows; [apply IHa|]. intros h1 v o1. apply fthen_grows; [apply IHb|auto].
  - intros a IHa b IHb p h o. apply fthen_grows; [apply IHa|]. intros h1 v o1 E. destruct v as [|[]| | | | | | | | | | | | | | | | | | | | | | | ]; try exact E. apply IHb. exact E.
  - intros a IHa b IHb p h o. apply fthen_grows; [apply IHa|]. intros h1 v o1 E. destruct v as [|[]| | | | | | | | | | | | | | | | | | | | | | | ]; try exact E. apply IHb. exact E.
  - intros ps v body p h o E. exact E.
  - intros f IHf l IHl v0 p h o. apply fthen_grows; [apply IHf|]. intros h1 fv o1 E. cbn beta in *. fold (xvals L c) in E. fold (xvals L c'). destruct (xvals L c l p h1) as [(h2, r)|] eqn:R; [|discriminate E]. rewrite (IHl _ _ _ R). destruct r as [vs|q]; [|exact E].
    destruct (if v0 then spread_out vs else Some (inl vs)) as [[vs'|q]|]; [|exact E|exact E]. destruct fv; try exact E. apply M. exact E.
  - intros l IHl p h o E. rewrite xval_slice in *. destruct (xvals L c l p h) as [r|] eqn:R; [|discriminate E]. rewrite (IHl _ _ _ R). exact E.
  - intros a IHa i IHi p h o. apply fthen_grows; [apply IHa|]. intros h1 v o1. apply fthen_grows; [apply IHi|auto].
  - intros p h o E. exact E.
  - intros p h r E. exact E.
  - intros e IHe l IHl p h r E. rewrite xvals_cons in *. destruct (xval L c e p h) as [(h1, x)|] eqn:X; [|discriminate E]. rewrite (IHe _ _ _ X). destruct x as [v|q|v]; try exact E.
    destruct (xvals L c l p h1) as [r1|] eqn:R; [|discriminate E]. rewrite (IHl _ _ _ R). exact E.
Qed.
Lemma xoval_grows : forall c c' e, more c c' -> fgrows (xoval L c e) (xoval L c' e).
Proof. intros c c' [e|] M p h o E; [|exact E]. apply (proj1 (xvals_grow c c' M)). exact E. Qed.
Scheme fstmt_mut := Induction for fstmt Sort Prop with fblock_mut := Induction for fblock Sort Prop with fbranches_mut := Induction for fbranches Sort Prop.
Combined Scheme fprogram_ind from fstmt_mut, fblock_mut, fbranches_mut.
Lemma fruns_grow : forall c c' k, more c c' ->
  (forall st, fgrows (frun L c k st) (frun L c' (S k) st)) /\ (forall b, fgrows (fbrun L c k b) (fbrun L c' (S k) b)) /\
  (forall br, (forall E E', fgrows E E' -> fgrows (fifrun L c k br E) (fifrun L c' (S k) br E')) /\ (forall v E E', fgrows E E' -> fgrows (fcaserun L c k v br E) (fcaserun L c' (S k) v br E'))).
Proof.
  intros c c' k M. pose proof (proj1 (xvals_grow c c' M)) as XM. apply fprogram_ind.
  - intros p h o E. exact E.
  - intros e p h o. apply XM.
  - intros x e p h o. apply fthen_grows; [apply XM|auto].
  - intros xs e p h o. apply fthen_grows; [apply XM|auto].
  - intros f x p h o E. exact E.
  - intros f x e p h o. apply fthen_grows; [apply XM|auto].
  - intros br (IH & _) els IHe p h o. apply IH. exact IHe.
  - intros e br (_ & IH) d IHd p h o. apply fthen_grows; [apply xoval_grows; exact M|]. intros h1 v. apply IH. exact IHd.
  - intros i IHi e st IHs b IHb p h o. apply fthen_grows; [apply IHi|]. intros h1 _. apply floop_grows; [apply (xoval_grows c c' e M p)|apply IHb|apply IHs].
  - intros [e|] p h o; [|auto]. apply fthen_grows; [apply XM|auto].
  - intros ts p h o E. exact E.
  - intros p h o E. exact E.
  - intros s IHs b IHb p h o. destruct b as [|s' b']; [apply IHs|]. apply fthen_grows; [apply IHs|]. intros h1 _ o1. apply IHb.
  - split; [intros E E' H p h o X; apply H; exact X|intros v E E' H p h o X; apply H; exact X].
  - intros e b IHb br (IH1 & IH2). split.
    + intros E E' H p h o. apply fthen_grows; [apply XM|]. intros h1 v o1 X. destruct v as [|[]| | | | | | | | | | | | | | | | | | | | | | | ]; try exact X; [apply IHb; exact X|apply (IH1 E E' H); exact X].
    + intros v E E' H p h o. apply fthen_grows; [apply XM|]. intros h1 w o1 X. destruct (EQ (l_same L) v w) as [r|q]; [|exact X].
      destruct r as [|[]| | | | | | | | | | | | | | | | | | | | | | | ]; try (apply (IH2 v E E' H); exact X). apply IHb. exact X.
Qed.
Lemma fcall_S : forall k f args h, fcall L reads (S k) f args h =
  match miscounted f args with Some q => Some (h, Panics q) | None =>
  match f_body f with
  | None => Some (h, Gives VNil)
  | Some ts => if (f_variadic f && (length (f_args f) =? 0)%nat)%bool then Some (h, Panics rt_error) else match reads ts with
    | None => None
    | Some b => if (f_parent f <? length (st_scopes h))%nat then
        match fbrun L (fcall L reads k) k b (length (st_scopes h)) (mkStore (st_scopes h ++ [mkScope (given f args) (Some (f_parent f)) (fun _ => false) [] None]) (st_made h) (st_caught h)) with
        | Some (h2, r) =>
            match run_deferred L reads (fcall L reads k) (deferred h2 (length (st_scopes h))) (length (st_scopes h)) (set_pending (length (st_scopes h)) (match r with Panics q => Some q | _ => None end) h2) with
            | Some (h3, Gives _) => Some (set_deferred (length (st_scopes h)) [] h3, match pending h3 (length (st_scopes h)), r with Some q, _ => Panics q | None, Returns v => Gives v | None, _ => Gives VNil end)
            | Some (h3, Panics q) => Some (h3, Panics q)
            | _ => None
            end
        | None => None
        end else None
    end
  end
  end.
Proof. reflexivity. Qed.
Lemma deferred_grows : forall c c', more c c' -> forall l p h o, run_deferred L reads c l p h = Some o -> run_deferred L reads c' l p h = Some o.
Proof.
  intros c c' M. induction l as [|ts l IH]; intros p h o E; [exact E|]. cbn [run_deferred] in *. destruct (reads ts) as [[|[|e| | | | | | | | |] [|]]|]; try discriminate E. revert E. apply fthen_grows; [apply (proj1 (xvals_grow c c' M))|]. intros h1 _ o1. apply IH.
Qed.
Lemma fcall_grows : forall k, more (fcall L reads k) (fcall L reads (S k)).
Proof.
  induction k as [|k IH]; intros f vs h o E; [discriminate|]. rewrite fcall_S in *.
  destruct (miscounted f vs); [exact E|]. destruct (f_body f) as [ts|]; [|exact E]. destruct (_ && _)%bool; [exact E|]. destruct (reads ts) as [b|]; [|exact E]. destruct (_ <? _)%nat; [|exact E].
  destruct (fbrun L (fcall L reads k) k b _ _) as [(h2, r)|] eqn:R; [|discriminate]. apply (proj1 (proj2 (fruns_grow _ _ k IH))) in R. rewrite R.
  destruct (run_deferred L reads (fcall L reads k) _ _ _) as [o2|] eqn:R2; [|discriminate]. apply (deferred_grows _ _ IH) in R2. rewrite R2. exact E.
Qed.
Lemma program_mono : forall k k' b h o, (k <= k')%nat -> program L reads k b h = Some o -> program L reads k' b h = Some o.
Proof. intros k k' b h o H E. induction H as [|k' H IH]; [exact E|]. apply (proj1 (proj2 (fruns_grow _ _ k' (fcall_grows k')))). exact IH. Qed.
Theorem C94_one_outcome : forall k k' b h o o', program L reads k b h = Some o -> program L reads k' b h = Some o' -> o = o'.
Proof.
  intros k k' b h o o' H H'. destruct (Nat.le_ge_cases k k') as [X|X].
  - apply (program_mono _ _ _ _ _ X) in H. congruence.
  - apply (program_mono _ _ _ _ _ X) in H'. congruence.
Qed.

(** ** One program *)
(** an engine between two evaluations whose calls so far are those of [h] *)
Definition running (h : store) (s : St) : Prop :=
  at_store 0 h s /\ e_ipt s = 0%nat /\ e_mute s = 0 /\ fr_defers (getf 0 s) = [] /\ (fr_base (getf 0 s) <= length (e_stk s))%nat.
Lemma running_top : forall h (s : St), at_store 0 h s -> up h 0 = None.
Proof.
  intros h s (C & _ & _ & P & _). rewrite <- P. destruct (parent 0 s) as [j|] eqn:E; [|reflexivity]. pose proof (proj1 C _ _ E). lia.
Qed.
Lemma running_defers : forall h (s : St), at_store 0 h s -> fr_defers (getf 0 s) = [].
Proof. intros h s V. pose proof (running_top h s V) as U. destruct V as (_ & _ & _ & _ & _ & (_ & D & I) & _). rewrite (proj1 (D 0%nat)), (I 0%nat U). reflexivity. Qed.
(** such an engine is one the theorems of C91 and C92 are about *)
Lemma running_holds : forall h (s : St), running h s -> PropEmbed.holds (own h 0) s.
Proof.
  intros h s (V & I & M & D & B). pose proof (running_top h s V) as U. destruct V as (C & F & N & P & V & _). split; [exact C|]. split; [exact F|]. split; [rewrite P; exact U|].
  repeat (split; [assumption|]). intros n v. apply V.
Qed.
Theorem C94_exec : forall semis old src ts eof b k h o, plain_lib L -> reads_ok L reads -> Tokenize isL isD false semis (AutoKw q_akw) old src = TzOk ts eof -> b <> FNil -> fbwritten L b ts ->
  program L reads k b h = Some o ->
  exists N, forall n (s : St), (N <= n)%nat -> running h s ->
    match snd o with
    | Gives v => exists s' l, Exec L isL isD n semis old src s = inl (None, s') /\ e_stk s' = v :: l /\ (fr_base (getf 0 s') <= length l)%nat /\ running (fst o) s'
    | Panics q => fine q /\ exists src' s', Exec L isL isD n semis old src s = inr (wrap src' (PUser q), s') /\ running (fst o) s'
    | Returns _ => False
    end.
Proof.
  intros semis old src ts eof b k h o PL RO Ht Nb Hw E. destruct (texts_mean L PL (fcall L reads k) k (calls_mean L reads PL RO k)) as (_ & TB & _). specialize (TB b ts Hw).
  destruct b as [|st b]; [contradiction|]. destruct TB as (Nt & c & Hd & M).
  destruct (exec_text L isL isD semis old src ts eof c Ht Hd) as (N' & X). destruct (M 0%nat h o E) as (N & G). exists (N + N')%nat. intros n s Hn Hs. rewrite X by lia.
  destruct Hs as (V & I & Mu & De & B). rewrite I. replace (set_mute 0 s) with s by (rewrite <- Mu; destruct s; reflexivity). specialize (G n s ltac:(lia) V B).
  assert (F0 : (0 < nframes s)%nat) by apply V.
  set (stk := match b with FNil => e_stk s | _ => cut_to (fr_base (getf 0 s)) (e_stk s) end) in G.
  assert (HB : (fr_base (getf 0 s) <= length stk)%nat) by (unfold stk; destruct b; [exact B|]; rewrite cut_length by exact B; lia).
  destruct o as (h', [v|q|v]); cbn [dgave fst snd] in *.
  - destruct G as (s' & -> & _ & K & V' & (A & A1 & A2 & A3 & _)). destruct (A 0%nat F0) as (_ & _ & a4). exists s', stk. split; [reflexivity|]. split; [exact K|]. rewrite a4. split; [exact HB|].
    split; [exact V'|]. split; [congruence|]. split; [congruence|]. split; [exact (running_defers _ _ V')|]. rewrite a4, K. cbn. lia.
  - destruct G as (e & s' & -> & [(src' & ->)|(X0 & _)] & Fq & (l & K) & V' & (A & A1 & A2 & A3 & _)); [|discriminate X0]. split; [exact Fq|]. destruct (A 0%nat F0) as (_ & _ & a4). exists src', s'. split; [reflexivity|].
    split; [exact V'|]. split; [congruence|]. split; [congruence|]. split; [exact (running_defers _ _ V')|]. destruct a4 as [->|(_ & a4)]; [rewrite K, app_length; lia|exact a4].
  - destruct G as (s' & _ & (_ & U) & _ & _ & V' & _). apply U. exact (running_top _ _ V').
Qed.
(** a call of a function, made from anywhere, ends as [fcall] says: the caller's stack is as before but for the value *)
Theorem C94_call : forall k f args h o, plain_lib L -> reads_ok L reads -> Forall plain args -> fcall L reads k f args h = Some o ->
  exists N, forall n p (s : St), (N <= n)%nat -> at_store p h s ->
    match snd o with
    | Gives v => exists s', FnCall (ev L n) f args s = inl (v, s') /\ e_stk s' = e_stk s /\ at_store p (fst o) s'
    | Panics q => exists e s', FnCall (ev L n) f args s = inr (e, s') /\ panics_as true q e /\ at_store p (fst o) s'
    | Returns _ => False
    end.
Proof.
  intros k f args h o PL RO Pa E. destruct (calls_mean L reads PL RO k f args h o E Pa) as (N & G). exists N. intros n p s Hn V. specialize (G n p s Hn V). destruct o as (h', [v|q|v]); cbn [fst snd] in *.
  - destruct G as (s' & A & _ & B & C & _). exists s'. auto.
  - destruct G as (e & s' & A & B & _ & _ & C & _). exists e, s'. auto.
  - destruct G.
Qed.

(** The text of a program tells the program: [read] is a reader for which the theorems here hold, without further assumptions. *)
Theorem C94_read : forall ts b, plain_lib L -> read L ts = Some b -> b <> FNil /\ fbwritten L b ts.
Proof. intros ts b PL. apply (read_ok L PL). Qed.

(** ** Sessions *)
Lemma noted_running : forall x r h (s : St), recov_as x r -> running h s -> running (set_pending 0 x h) (noted r s).
Proof.
  intros x r h s Xr Hs. pose proof (noted_holds r _ s (running_holds h s Hs)) as (C' & F' & P' & I' & M' & D' & B' & _). destruct Hs as (V & I & M & D & B). assert (F : (0 < nframes s)%nat) by apply V.
  split; [|split; [exact I'|split; [exact M'|split; [exact D'|exact B']]]].
  apply (store_pending 0 0 0 x r h s); [destruct V as (_ & _ & NF & _); lia|exact Xr| |intro i; apply (proj2 (noted_frame r s i))|unfold noted; rewrite !nframes_updf; reflexivity|split; reflexivity|exact F|exact V].
  intro i. split; [apply noted_frame|]. destruct (Nat.eqb_spec i 0) as [->|Ni]; [split; [congruence|apply (proj1 (noted_recov r s F))]|]. unfold noted. rewrite !getf_updf. destruct (Nat.eqb_spec i 0); [contradiction|]. split; reflexivity.
Qed.
Lemma taken_running : forall h (s : St) l, running h s -> (fr_base (getf 0 s) <= length l)%nat -> running h (set_stk l s).
Proof. intros h s l (V & I & M & D & B) H. split; [apply store_stk; exact V|]. repeat (split; [assumption|]). exact H. Qed.
Lemma safe_panics : forall n semis old src (s s1 : St) e, Exec L isL isD n semis old src s = inr (e, s1) -> uncatchable e = false -> as_error e = None ->
  fr_defers (getf 0 s1) = [] -> (0 < nframes s1)%nat -> SafeExec L isL isD n semis old src s = inr (e, noted (Some e) s1).
Proof. intros n semis old src s s1 e E U A D F. unfold SafeExec. rewrite E, U, no_defers by assumption. rewrite (proj1 (noted_recov (Some e) s1 F)), A. reflexivity. Qed.
Lemma frequest_runs : forall semis a r k h an, plain_lib L -> reads_ok L reads -> frequests L isL isD semis a r -> fanswered L reads k h r = Some an ->
  exists N, forall n (s : St), (N <= n)%nat -> running h s ->
  exists x s', perform L isL isD n semis a s = (x, s') /\ looks (fst an) x /\ running (snd an) s'.
Proof.
  intros semis a r k h an PL RO H A. destruct H as [y v Pv|y|old src ts eof b Ht Nb Hw]; cbn [fanswered] in A.
  - injection A as <-. exists O. intros n s _ (V0 & I0 & M & D & B). pose proof (running_top h s V0) as U. destruct V0 as (C & F & N & P & V & I & T). assert (P0 : parent 0 s = None) by (rewrite P; exact U).
    destruct (C91_set y v s C P0 F Pv) as (A1 & A2 & _). exists SNothing, (SetVar y v s). split; [reflexivity|]. split; [constructor|]. destruct A1 as (W1 & W2 & W3 & W4 & W5 & W6 & W7 & W8 & W9 & W10).
    destruct (put_facts 0 y v h ltac:(lia)) as (Q1 & Q2 & Q3 & Q6 & Q4 & Q5). destruct (W3 0%nat) as (_ & _ & _ & w4 & w5). cbn [snd].
    split; [|split; [congruence|split; [congruence|split; [congruence|rewrite w5, W1; exact B]]]].
    split; [exact A2|]. rewrite W4, Q1. split; [exact F|]. split; [exact N|]. split; [intro i; rewrite Q2, <- P; apply (W3 i)|]. split; [|split; [apply (kept_like h _ s); [exact I|exact Q3|exact Q2|exact Q6|split; [exact W8|exact W9]|intro i; destruct (W3 i) as (x1 & x2 & x3 & x4 & x5); split; [exact x4|exact x2 || exact x3]]|]].
    + intros i m u. rewrite W2, Q4. destruct (_ && _)%bool; [split; congruence|apply V].
    + intros i m. rewrite Q5, Bool.orb_true_iff, Bool.andb_true_iff, Nat.eqb_eq, <- T.
      assert (En : has_entry (SetVar y v s) m i <-> has_entry s m i \/ (m = y /\ i = 0%nat)) by exact (put_entries 0 y v (e_stk s) s F m i).
      rewrite En. split; [intros [Y|(-> & ->)]; [right; exact Y|left; split; [apply beq_refl|reflexivity]]|intros [(Y & ->)|Y]; [right; apply beq_eq in Y; auto|left; exact Y]].
  - injection A as <-. exists O. intros n s _ Hs. exists (SVar (Var y s)), s. split; [reflexivity|]. split; [|exact Hs]. cbn [fst]. destruct (running_holds h s Hs) as (C & _ & P & _ & _ & _ & _ & V).
    replace (own h 0 y) with (Var y s); [constructor|]. destruct (own h 0 y) as [v|] eqn:E; [apply var_defines; [exact C|exact P|]; apply V; exact E|].
    destruct (Var y s) as [v|] eqn:X; [|reflexivity]. apply var_defines in X; [|exact C|exact P]. apply V in X. congruence.
  - destruct (program L reads k b h) as [o|] eqn:E; [|discriminate]. destruct (C94_exec semis old src ts eof b k h o PL RO Ht Nb Hw E) as (N & X). exists N. intros n s Hn Hs. specialize (X n s Hn Hs).
    destruct o as (h', [v|q|v]); [| |discriminate]; [injection A as <-|assert (An : an = (match q with PvOther v => APanicked v | _ => AFailed q end, set_pending 0 (Some q) h')) by (destruct q; injection A as <-; reflexivity); subst an]; cbn [fst snd] in *.
    + destruct X as (s1 & l & Ex & K & B & H1). pose proof (noted_running None None _ _ Logic.I H1) as H2. assert (F1 : (0 < nframes s1)%nat) by apply H1.
      assert (B2 : fr_base (getf 0 (noted None s1)) = fr_base (getf 0 s1)) by apply noted_frame.
      exists (SValue (Some v)), (set_stk (skipn (length (e_stk (noted None s1)) - fr_base (getf 0 (noted None s1))) (e_stk (noted None s1))) (noted None s1)). split; [|split; [constructor|]].
      * assert (R : Ret (noted None s1) = inl (Some v, set_stk (skipn (length (e_stk (noted None s1)) - fr_base (getf 0 (noted None s1))) (e_stk (noted None s1))) (noted None s1))).
        { unfold Ret. destruct H2 as (_ & I2 & _ & _ & B3). destruct (Nat.leb_spec (fr_base (getf 0 (noted None s1))) (length (e_stk (noted None s1)))); [|lia]. replace (hd_error (e_stk (noted None s1))) with (Some v) by (change (e_stk (noted None s1)) with (e_stk s1); rewrite K; reflexivity). reflexivity. }
        unfold perform, SafeEval, SafeExec. rewrite Ex. rewrite no_defers by apply H1. rewrite (proj1 (noted_recov None s1 F1)). rewrite R. reflexivity.
      * apply taken_running; [exact H2|]. destruct H2 as (_ & _ & _ & _ & B3). rewrite skipn_length. lia.
    + destruct X as (Fq & src' & s1 & Ex & H1).
      assert (O : (exists v, q = PvOther v) \/ forall v, q <> PvOther v) by (destruct q; try (right; intros ? ?; discriminate); left; eexists; reflexivity). destruct O as [(v & ->)|NO].
      { change (wrap src' (PUser (PvOther v))) with (@PUser bytes Empty_set pvq (PvOther v)) in Ex. exists (SPanic (PUser (PvOther v))), (noted (Some (PUser (PvOther v))) s1). split; [|split; [constructor|apply noted_running; [exact (conj Fq (ex_intro _ src' eq_refl))|exact H1]]].
        unfold perform, SafeEval. erewrite safe_panics; [reflexivity|exact Ex|destruct v; try destruct Fq; reflexivity|reflexivity|apply H1|apply H1]. }
      replace (match q with PvOther v => APanicked v | _ => AFailed q end) with (AFailed q) by (destruct q; try reflexivity; destruct (NO _ eq_refl)).
      exists (SError (inl (wrap src' (PUser q)))), (noted (Some (wrap src' (PUser q))) s1). split; [|split; [constructor|apply noted_running; [exact (conj Fq (ex_intro _ src' eq_refl))|exact H1]]].
      unfold perform, SafeEval. erewrite safe_fails; [reflexivity|exact Ex|destruct q; try destruct Fq; try reflexivity; destruct (NO _ eq_refl)|destruct q; try destruct Fq; try reflexivity; destruct (NO _ eq_refl)|apply H1|apply H1].
Qed.
(** A host that sets and reads variables and has programs run, in any order, on a new engine sees what the programs do to the
    variables of their calls: functions stay, with the variables of the calls they were made in, and failed programs leave what they
    had done. *)
Theorem C94_session : forall semis l rs k al h, plain_lib L -> reads_ok L reads -> Forall2 (frequests L isL isD semis) l rs -> fanswers L reads k start rs = Some (al, h) ->
  exists N, forall n w, (N <= n)%nat -> exists xs s, host L isL isD n semis l (q_start w) = (xs, s) /\ Forall2 looks al xs /\ forall x, Var x s = own h 0 x.
Proof.
  intros semis l rs k al h PL RO H A.
  assert (K : forall h0, fanswers L reads k h0 rs = Some (al, h) -> exists N, forall n (s : St), (N <= n)%nat -> running h0 s -> exists xs s', host L isL isD n semis l s = (xs, s') /\ Forall2 looks al xs /\ running h s').
  { clear A. revert al h. induction H as [|a r l rs Ha Hl IH]; intros al h h0 A.
    - injection A as <- <-. exists O. intros n s _ Hs. exists [], s. split; [reflexivity|]. split; [constructor|exact Hs].
    - cbn [fanswers] in A. destruct (fanswered L reads k h0 r) as [(an, h1)|] eqn:E1; [|discriminate]. destruct (fanswers L reads k h1 rs) as [(al', h2)|] eqn:E2; [|discriminate]. injection A as <- <-.
      destruct (frequest_runs semis a r k h0 _ PL RO Ha E1) as (M & X). destruct (IH al' h2 h1 E2) as (N & Y). exists (N + M)%nat. intros n s Hn Hs.
      destruct (X n s ltac:(lia) Hs) as (x & s1 & F1 & Lk & H1). destruct (Y n s1 ltac:(lia) H1) as (xs & s2 & F2 & Lk2 & H2). exists (x :: xs), s2. cbn [host]. rewrite F1, F2. split; [reflexivity|]. split; [constructor; assumption|exact H2]. }
  destruct (K start A) as (N & X). exists N. intros n w Hn. destruct (X n (q_start w) Hn) as (xs & s & E & Lk & Hs).
  - split; [|split; [reflexivity|split; [reflexivity|split; [reflexivity|apply Nat.le_refl]]]]. split; [split; [intros [|[|i]] j Y; discriminate Y|intros [|[|i]] m q Y; discriminate Y]|]. split; [apply Nat.lt_0_1|]. split; [reflexivity|].
    split; [intros [|[|i]]; reflexivity|]. split; [|split; [split; [split; [reflexivity|constructor]|split; intros [|[|i]]; try reflexivity; split; exact Logic.I || reflexivity]|intros [|[|i]] m; split; [intro Y; destruct (Y eq_refl)|discriminate|intro Y; destruct (Y eq_refl)|discriminate|intro Y; destruct (Y eq_refl)|discriminate]]]. intros i m v. unfold own. split; [intros (Y & _); destruct i as [|[|i]]; discriminate Y|destruct i as [|[|i]]; discriminate].
  - exists xs, s. split; [exact E|]. split; [exact Lk|]. intro x. destruct (running_holds _ _ Hs) as (C & _ & P & _ & _ & _ & _ & V). destruct (own h 0 x) as [v|] eqn:G; [apply var_defines; [exact C|exact P|]; apply V; exact G|].
    destruct (Var x s) as [v|] eqn:Y; [|reflexivity]. apply var_defines in Y; [|exact C|exact P]. apply V in Y. congruence.
Qed.
End Fun.

(** ** Examples *)
(** [read] (QRead) reads the texts of programs *)
(** recursion *)
Definition fact : string := "fact = fn(n) { if n <= 1 { return 1 }; return n * fact(n - 1) }; x = fact(5)".
(** functions that share a variable of the call they were made in, and keep it *)
Definition counter : string := "make = fn() { c = 0; return fn(d) { c = c + d; return c } }; a = make(); b = make(); a(1); a(1); y = a(1) * 10 + b(1)".
(** functions passed and returned; called where they are written *)
Definition higher : string := "twice = fn(f, v) { return f(f(v)) }; add = fn(p) { return fn(q) { return p + q } }; z = twice(fn(q) { return q * 3 }, 2) + add(1)(2) + fn() { return 1 }()".
(** loops and returns from within them; branches; names that hide others *)
Definition search : string := "find = fn(n) { for i = 2; i < n; i++ { if n % i == 0 { return i } }; switch n { case 2: return 0; default: return n } }; r = find(91) * 1000 + find(2) * 100 + find(13)".
(** an enclosing variable that has not been read *)
Definition poke : string := "poke = fn() { y = 5 }; poke()".
(** a private name *)
Definition private : string := "_p = 3; k = fn() { return _p }; k()".
(** a wrong number of arguments; called later, also when it is no longer a function *)
Definition wrong : string := "fact(1, 2)".
Definition later : string := "a(5)".
(** slices, made of arguments and made into arguments *)
Definition slices : string := "pick = fn(i, vs...) { return vs[i] }; sum = fn(u, v, w) { return u + v * 10 + w * 100 }; l = [3, 4, 5]; fs = [sum, pick,]; x = sum(l...) * 1000 + fs[1](1, l...) * 10 + pick(0, [2, 8][1],)".
Definition mixed : string := "[l, ""ab""][1][0]".
Definition beyond : string := "l[3]".
Definition few : string := "pick()".
Definition nothing : string := "pick(l[0]...)".
Definition several : string := "divmod = fn(a, b) { return [a / b, a % b] }; q, r = divmod(17, 5); q, r = [r, q]; q * 10 + r".
Definition too_many : string := "q, r = [1, 2, 3]".
Definition no_slice : string := "q, r = 5".
(** deferred expressions, the last one first, after a return and after a panic; none after one that panics *)
Definition tidy : string := "t = 0; work = fn(n) { defer fn() { t = t * 10 + n }(); defer fn() { t = t * 10 + 9 }(); if n > 5 { return 1 }; return [1][n] }; work(7)".
Definition untidy : string := "work(3)".
Definition worse : string := "fail = fn() { defer fn() { t = 1 + t }(); defer [1][5]; return 3 }; fail()".
(** a panic recovered by a deferred call, which may look at it: the call then gives nil, or panics anew; recover() without a panic, and out of place *)
Definition safe : string := "u = 0; none = fn() { }(); safe = fn(n) { defer fn() { if recover() != none { u = u + 1 } }(); return [4, 5][n] }; [safe(1), safe(9), u, safe(8), u]".
Definition rethrow : string := "again = fn(n) { defer fn() { recover(); u = u + 10; return [1][u] }(); return [4, 5][n] }; again(7)".
Definition calm : string := "lost = fn() { recover(); defer recover(); return [1][1] }; lost()".
(** panics made, recovered and passed on; a recovered number *)
Definition guarded : string := "check = fn(n) { if n > 3 { panic(""big"") }; return n }; guard = fn(n) { defer fn() { e = recover(); if e != nil { u = u + 100; if n > 7 { panic(e) } } }(); return check(n) }; [guard(2), guard(5), u]".
Definition passed : string := "guard(9)".
Definition number : string := "find = fn(l, n) { defer fn() { w = recover() + 1; u = u + w }(); for i = 0; true; i++ { if l[i] == n { panic(i) } } }; find([7, 8, 9], 9); u".
Definition uncaught : string := "u = 9; panic([u, 2])".
Definition twice_panic : string := "panic(""a"", ""b"")".
Definition prog (x : string) : fblock := match read L0 (toks x) with Some b => b | None => FNil end.
Example all_read : forallb (fun x => match read L0 (toks x) with Some _ => true | None => false end) [fact; counter; higher; search; poke; private; wrong; later; slices; mixed; beyond; few; nothing; several; too_many; no_slice; tidy; untidy; worse; safe; rethrow; calm; guarded; passed; number; uncaught; twice_panic] = true.
Proof. vm_compute. reflexivity. Qed.
Definition run (x : string) : action := AEval PropScan.fresh (s2b x).
Definition talk : list action :=
  [run fact; AGet (s2b "x"); run slices; AGet (s2b "x"); run mixed; run beyond; run few; run nothing; run several; run too_many; run no_slice; AGet (s2b "q"); run tidy; AGet (s2b "t"); run untidy; run worse; AGet (s2b "t"); run safe; run rethrow; AGet (s2b "u"); run calm; run guarded; run passed; AGet (s2b "u"); run number; run uncaught; AGet (s2b "u"); run twice_panic; run counter; AGet (s2b "c"); run higher; AGet (s2b "z"); run search; run poke; AGet (s2b "y"); run private; AGet (s2b "_p"); run wrong; run later; ASet (s2b "a") (VInt 1); AGet (s2b "a"); run later].
Definition talk_asked : list frequest :=
  [QRun (prog fact); QGet (s2b "x"); QRun (prog slices); QGet (s2b "x"); QRun (prog mixed); QRun (prog beyond); QRun (prog few); QRun (prog nothing); QRun (prog several); QRun (prog too_many); QRun (prog no_slice); QGet (s2b "q"); QRun (prog tidy); QGet (s2b "t"); QRun (prog untidy); QRun (prog worse); QGet (s2b "t"); QRun (prog safe); QRun (prog rethrow); QGet (s2b "u"); QRun (prog calm); QRun (prog guarded); QRun (prog passed); QGet (s2b "u"); QRun (prog number); QRun (prog uncaught); QGet (s2b "u"); QRun (prog twice_panic); QRun (prog counter); QGet (s2b "c"); QRun (prog higher); QGet (s2b "z"); QRun (prog search); QRun (prog poke); QGet (s2b "y"); QRun (prog private); QGet (s2b "_p"); QRun (prog wrong); QRun (prog later); QSet (s2b "a") (VInt 1); QGet (s2b "a"); QRun (prog later)].
Definition plain0 : plain_lib L0 := proj1 session_asked.
Lemma run_asked : forall x, (exists eof, Tokenize no_class no_class false false (AutoKw q_akw) PropScan.fresh (s2b x) = TzOk (toks x) eof) -> (match read L0 (toks x) with Some _ => true | None => false end) = true -> frequests L0 no_class no_class false (run x) (QRun (prog x)).
Proof.
  intros x (eof & Ht) H. unfold prog. destruct (read L0 (toks x)) as [b|] eqn:E; [|discriminate H]. destruct (read_ok L0 plain0 _ _ E) as (Nb & Wb). eapply fq_run; eassumption.
Qed.
Example talk_ok : plain_lib L0 /\ reads_ok L0 (read L0) /\ Forall2 (frequests L0 no_class no_class false) talk talk_asked.
Proof.
  split; [exact plain0|]. split; [exact (read_ok L0 plain0)|]. unfold talk, talk_asked. repeat (constructor; [first [apply fq_get | apply fq_set; discriminate | apply run_asked; [eexists; vm_compute; reflexivity|vm_compute; reflexivity]]|]). constructor.
Qed.
Example talk_answers : option_map fst (fanswers L0 (read L0) 20 start talk_asked) =
  Some [AValue (VInt 120); AVar (Some (VInt 120)); AValue (VInt 543048); AVar (Some (VInt 543048)); AValue (VByte 97); AFailed rt_error; AFailed (msg m_argcv [VInt 1; VInt 0]); AFailed (msg m_dotsnon []); AValue (VInt 23); AFailed (PvErr (e_massign 3 2)); AFailed (PvErr e_notslice); AVar (Some (VInt 2)); AValue (VInt 1); AVar (Some (VInt 97)); AFailed rt_error; AFailed rt_error; AVar (Some (VInt 9793)); AValue (VSlice TAny [VInt 5; VNil; VInt 1; VNil; VInt 2]); AFailed rt_error; AVar (Some (VInt 12)); AFailed rt_error; AValue (VSlice TAny [VInt 2; VNil; VInt 112]); AFailed (PvStr (SOther (VStr (s2b "big")))); AVar (Some (VInt 212)); AValue (VInt 215); APanicked (VSlice TInt [VInt 9; VInt 2]); AVar (Some (VInt 9)); AFailed (PvErr (EArgCount 1 2)); AValue (VInt 31); AVar None; AValue (VInt 22); AVar (Some (VInt 22)); AValue (VInt 7013); AFailed (msg m_extern [VStr (s2b "y")]); AVar (Some (VInt 31));
        AFailed (msg m_nosym [VStr (s2b "_p")]); AVar (Some (VInt 3)); AFailed (msg m_argc [VInt 1; VInt 2]); AValue (VInt 8); ANothing; AVar (Some (VInt 1)); AFailed rt_error].
Proof. vm_compute. reflexivity. Qed.
Definition shows (x : seen) : option value :=
  match x with SValue a => a | SVar b => b | SError (inl (PUser (PvRuntime (EOfStr (SOther m)) _))) => Some m | SPanic (PUser (PvOther v)) => Some v | _ => None end.
Example talk_run : let (xs, s) := host L0 no_class no_class 300 false talk (q_start tt) in (map shows xs, e_stk s) =
  ([Some (VInt 120); Some (VInt 120); Some (VInt 543048); Some (VInt 543048); Some (VByte 97); None; Some (VMsg m_argcv [VInt 1; VInt 0]); Some (VMsg m_dotsnon []); Some (VInt 23); None; None; Some (VInt 2); Some (VInt 1); Some (VInt 97); None; None; Some (VInt 9793); Some (VSlice TAny [VInt 5; VNil; VInt 1; VNil; VInt 2]); None; Some (VInt 12); None; Some (VSlice TAny [VInt 2; VNil; VInt 112]); Some (VStr (s2b "big")); Some (VInt 212); Some (VInt 215); Some (VSlice TInt [VInt 9; VInt 2]); Some (VInt 9); None; Some (VInt 31); None; Some (VInt 22); Some (VInt 22); Some (VInt 7013); Some (VMsg m_extern [VStr (s2b "y")]); Some (VInt 31);
    Some (VMsg m_nosym [VStr (s2b "_p")]); Some (VInt 3); Some (VMsg m_argc [VInt 1; VInt 2]); Some (VInt 8); None; Some (VInt 1); None], []).
Proof. vm_compute. reflexivity. Qed.

Print Assumptions C94_read.
Print Assumptions C94_one_outcome.
Print Assumptions C94_exec.
Print Assumptions C94_call.
Print Assumptions C94_session.
