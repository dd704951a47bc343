(** A larger bound on nesting, matching and rounds changes no result that was reached within a smaller one. *)
From Coq Require Import String SpecFloat.
From Verif Require Import Base Token Grammar Scanner Tokenize Matcher PegSpec MatchProofs Compiler Interp QValue Qlang QlangSpec QlangTop QText.
Local Open Scope Z_scope.

(** ** Matching *)
Section GMono.
Context {A T P U V : Type}.
Variable env : bytes -> option (gr A T).
(** the panic that says a bound was reached inside an action *)
Variable fp : pan A T P.
Definition rle (r r' : res A T P U) : Prop := r' = r \/ r = OutOfFuel \/ exists s, r = Panic fp s.
Definition lle (r r' : lres A T P U) : Prop := r' = r \/ r = LOutOfFuel \/ exists s, r = LPanic fp s.
Definition ale (r r' : ares A T P U) : Prop := r' = r \/ r = AOutOfFuel \/ exists s, r = APanic fp s.
Definition gle (m m' : matcher A T P U) : Prop := forall g src s, rle (m g src s) (m' g src s).
Definition cle (c c' : client A T P U V) : Prop :=
  (forall a ts l s, ale (c_act c a ts l s) (c_act c' a ts l s)) /\ c_begin c' = c_begin c /\ c_end c' = c_end c.

Lemma rle_refl : forall r, rle r r.
Proof. left. reflexivity. Qed.
Ltac stop := solve [right; left; reflexivity | right; right; eexists; reflexivity].
Ltac use H g src s := let s' := fresh in destruct (H g src s) as [->|[->|(s' & ->)]]; [|stop|stop].

Lemma and_loop_le : forall m m' p src gs ff n s, gle m m' -> rle (and_loop m p src gs ff n s) (and_loop m' p src gs ff n s).
Proof.
  intros m m' p src gs ff n s H. revert ff n s. induction gs as [|g gs IH]; intros ff n s; [apply rle_refl|].
  assert (X : g = GNil \/ g <> GNil) by (destruct g; (left; reflexivity) || (right; discriminate)). destruct X as [->|X]; [apply IH|].
  assert (E : forall m : matcher A T P U, and_loop m p src (g :: gs) ff n s =
    match m g (skipn n src) s with
    | Ret n1 None s1 => and_loop m p src gs ff (n + n1) s1
    | Ret n1 (Some e) s1 => if ff then Panic (PMatch (MErr p src (Some e) (n + n1))) s1 else Ret (n + n1) (Some e) s1
    | r => r
    end) by (intro; destruct g; try reflexivity; contradiction X; reflexivity).
  rewrite !E. use H g (skipn n src) s. destruct (m g (skipn n src) s) as [n1 [e|] s1|p1 s1|]; try apply rle_refl. apply IH.
Qed.
Lemma or_loop_le : forall m m' p src gs nm em me s, gle m m' -> rle (or_loop m p src gs nm em me s) (or_loop m' p src gs nm em me s).
Proof.
  intros m m' p src gs nm em me s H. revert nm em me s. induction gs as [|g gs IH]; intros; [apply rle_refl|]. cbn [or_loop].
  use H g src s. destruct (m g src s) as [n1 [e|] s1|p1 s1|]; try apply rle_refl. destruct (nm <=? n1)%nat; [destruct (n1 =? nm)%nat|]; apply IH.
Qed.
Lemma rep_loop_le : forall m m' k k' g src cnt n s, gle m m' -> (k <= k')%nat -> lle (rep_loop k m g src cnt n s) (rep_loop k' m' g src cnt n s).
Proof.
  intros m m' k k' g src cnt n s H. revert k' src cnt n s. induction k as [|k IH]; intros k' src cnt n s Hk; [stop|]. destruct k' as [|k']; [lia|]. cbn [rep_loop].
  use H g src s. destruct (m g src s) as [n1 [e|] s1|p1 s1|]; try (left; reflexivity). apply IH. lia.
Qed.
Lemma gstep_le : forall c c' m m' k k' g src s, cle c c' -> gle m m' -> (k <= k')%nat -> rle (gstep env c k m g src s) (gstep env c' k' m' g src s).
Proof.
  intros c c' m m' k k' g src s (Ha & Hb & He) H Hk.
  destruct g; cbn [gstep]; try apply rle_refl; try (apply and_loop_le; exact H); try (apply or_loop_le; exact H).
  - use H g src s. apply rle_refl.
  - use H g src s. apply rle_refl.
  - destruct (rep_loop_le m m' k k' g src 0 O s H Hk) as [->|[->|(s' & ->)]]; [apply rle_refl|stop|stop].
  - use H g src s. destruct (m g src s) as [n [e|] s1|p s1|]; try apply rle_refl.
    destruct (rep_loop_le m m' k k' g (skipn n src) 0 O s1 H Hk) as [->|[->|(s' & ->)]]; [apply rle_refl|stop|stop].
  - use H g src s. apply rle_refl.
  - use H g1 src s. destruct (m g1 src s) as [n [e|] s1|p s1|]; try apply rle_refl.
    destruct (rep_loop_le m m' k k' (GAnd [g2; g1]) (skipn n src) 1 n s1 H Hk) as [->|[->|(s' & ->)]]; [apply rle_refl|stop|stop].
  - destruct (env name); [|apply rle_refl]. apply H.
  - apply H.
  - use H g src s. destruct (m g src s) as [n [e|] s1|p s1|]; try apply rle_refl.
    destruct (Ha a (firstn n src) (glen s1 g) s1) as [->|[->|(s' & ->)]]; [apply rle_refl|stop|stop].
  - rewrite Hb, He. destruct (c_begin c t s) as [v s0]. use H g src s0. apply rle_refl.
Qed.
Lemma gmatch_le : forall c c' f f' g src s, cle c c' -> (f <= f')%nat -> rle (gmatch env c f g src s) (gmatch env c' f' g src s).
Proof.
  intros c c' f f' g src s Hc. revert f' g src s. induction f as [|f IH]; intros f' g src s Hf; [stop|]. destruct f' as [|f']; [lia|]. cbn [gmatch].
  apply gstep_le; [exact Hc| |lia]. intros g1 src1 s1. apply IH. lia.
Qed.
End GMono.

(** ** The interpreter *)
Section QMono.
Context {W : Type}.
Variable L : qlib W.
Notation St := (est nat value (@rest W)).
Notation qval := (rval float value nat value).
Notation Qfn := (gofn float value nat value (@rest W)).
(** the smaller bound was reached, or nothing is different *)
Definition sle {A : Type} (r r' : A + (panicq * St)) : Prop := r' = r \/ exists s, r = inr (PUser PvFuel, s).
Definition qle {A : Type} (m m' : @Q W A) : Prop := forall s, sle (m s) (m' s).
Definition evle (e e' : @evaluator W) : Prop := forall p rule c, qle (e p rule c) (e' p rule c).

Ltac stop := solve [right; eexists; reflexivity].
Lemma qle_refl : forall A (m : @Q W A), qle m m.
Proof. left. reflexivity. Qed.
Lemma qle_bind : forall A B (m m' : @Q W A) (f f' : A -> @Q W B), qle m m' -> (forall x, qle (f x) (f' x)) -> qle (bind m f) (bind m' f').
Proof.
  intros A B m m' f f' Hm Hf s. unfold bind. destruct (Hm s) as [->|(s' & ->)]; [|stop]. destruct (m s) as [(x, s1)|r]; [apply Hf|left; reflexivity].
Qed.
Lemma qle_if : forall A (b : bool) (m m' n n' : @Q W A), qle m m' -> qle n n' -> qle (if b then m else n) (if b then m' else n').
Proof. intros A [|] m m' n n' Hm Hn; assumption. Qed.
Lemma qle_no_fuel : forall A (m : @Q W A), qle no_fuel m.
Proof. intros A m s. stop. Qed.
Create HintDb qm.
Hint Resolve qle_refl qle_no_fuel : qm.
Ltac qms := repeat first [ solve [auto with qm] | apply qle_bind; [|intro] | apply qle_if |
  match goal with
  | |- qle (match ?x with _ => _ end) _ => destruct x
  | |- qle (let (_, _) := ?x in _) _ => destruct x
  end ].

Section Ev.
Variables e e' : @evaluator W.
Hypothesis He : evle e e'.
Lemma evalCode_le : forall p rule c, qle (evalCode e p rule c) (evalCode e' p rule c).
Proof. intros. unfold evle in He. unfold evalCode. qms. Qed.
Hint Resolve evalCode_le : qm.
Lemma eval_body_le : forall p c, qle (eval_body e p c) (eval_body e' p c).
Proof. intros. unfold eval_body. qms. Qed.
Hint Resolve eval_body_le : qm.
Lemma AndOr_le : forall b r m p, qle (AndOr e b r m p) (AndOr e' b r m p).
Proof. intros. unfold AndOr. qms. Qed.
Lemma if_loop_le : forall p br el, qle (if_loop e p br el) (if_loop e' p br el).
Proof. intros p. fix IH 1. intros [|c [|b br]] el; cbn [if_loop]; qms. Qed.
Lemma If_le : forall p, qle (If e p) (If e' p).
Proof. intros. pose proof if_loop_le. unfold If. qms. Qed.
Lemma switch_loop_le : forall p v br el, qle (switch_loop L e p v br el) (switch_loop L e' p v br el).
Proof. intros p v. fix IH 1. intros [|c [|b br]] el; cbn [switch_loop]; qms. Qed.
Lemma Switch_le : forall p, qle (Switch L e p) (Switch L e' p).
Proof. intros. pose proof switch_loop_le. unfold Switch. qms. Qed.
Lemma evalCondS_le : forall p c, qle (evalCondS e p c) (evalCondS e' p c).
Proof. intros. unfold evalCondS. qms. Qed.
Lemma eval_drop_le : forall p r c, qle (eval_drop e p r c) (eval_drop e' p r c).
Proof. intros. unfold eval_drop. qms. Qed.
Hint Resolve evalCondS_le eval_drop_le : qm.
Lemma for_loop_le : forall k k' p c b s, (k <= k')%nat -> qle (for_loop e k p c b s) (for_loop e' k' p c b s).
Proof.
  induction k as [|k IH]; intros k' p c b s H; [apply qle_no_fuel|]. destruct k' as [|k']; [lia|]. cbn [for_loop].
  apply qle_bind; [qms|]. intros [|]; [|apply qle_refl]. apply qle_bind; [qms|]. intro. apply qle_bind; [qms|]. intro. apply IH. lia.
Qed.
Lemma For_le : forall k k' p, (k <= k')%nat -> qle (For e k p) (For e' k' p).
Proof. intros k k' p H. pose proof (fun p c b s => for_loop_le k k' p c b s H). unfold For. qms. Qed.
Lemma run_defers_le : forall p l, qle (run_defers e p l) (run_defers e' p l).
Proof. intros p l. unfold evle in He. induction l as [|c l IH]; cbn [run_defers]; qms. Qed.
Lemma ExecDefers_le : forall p, qle (ExecDefers e p) (ExecDefers e' p).
Proof. intros. pose proof run_defers_le. unfold ExecDefers. qms. Qed.
Hint Resolve ExecDefers_le : qm.
Lemma Return_le : forall p, qle (Return e p) (Return e' p).
Proof. intros. unfold Return. qms. Qed.
Lemma call_end_le : forall k b x, qle (call_end e k b x) (call_end e' k b x).
Proof. intros. unfold call_end. qms. Qed.
Lemma FnCall_le : forall f args, qle (FnCall e f args) (FnCall e' f args).
Proof.
  intros f args. pose proof call_end_le as CE. unfold FnCall. destruct (call_count f args); [apply qle_refl|]. destruct (f_body f) as [b|]; [|apply qle_refl].
  destruct (call_vars f args); [|apply qle_refl]. apply qle_bind; [apply qle_refl|]. intro k. apply qle_bind; [apply qle_refl|]. intros base s.
  destruct (He k n_docr (VCode b) s) as [->|(s' & ->)]; [|stop]. destruct (e k n_docr (VCode b) s) as [(r, s1)|(x, s1)].
  - apply qle_bind; [apply CE|]. intro. apply qle_refl.
  - destruct (uncatchable x); [left; reflexivity|]. apply qle_bind; [apply CE|]. intro. apply qle_refl.
Qed.
Hint Resolve FnCall_le : qm.
Lemma Main_le : forall p, qle (Main e p) (Main e' p).
Proof. intros. unfold Main. qms. Qed.
Lemma New_le : forall p, qle (New e p) (New e' p).
Proof. intros. unfold New, ThisCall. qms. Qed.

(** functions that differ in what a call does only *)
Definition fnle (f f' : Qfn) : Prop :=
  exists b i v o c c', f = mkFn b i v o c /\ f' = mkFn b i v o c' /\ forall args s, sle (c args s) (c' args s).
Definition ofnle (f f' : option Qfn) : Prop := match f, f' with Some x, Some y => fnle x y | None, None => True | _, _ => False end.
Lemma fnle_refl : forall f, fnle f f.
Proof. intros [b i v o c]. do 6 eexists. split; [reflexivity|]. split; [reflexivity|]. left. reflexivity. Qed.
Lemma ofnle_refl : forall f, ofnle f f.
Proof. intros [f|]; [apply fnle_refl|exact Logic.I]. Qed.
Lemma run_le : forall A (m m' : @Q W A) out s, qle m m' -> sle (run m out s) (run m' out s).
Proof. intros A m m' out s H. unfold run. destruct (H s) as [->|(s' & ->)]; [left; reflexivity|stop]. Qed.
Lemma apply_le : forall f f' args s, fnle f f' -> sle (apply_fn q_pushret f args s) (apply_fn q_pushret f' args s).
Proof.
  intros f f' args s (b & i & v & o & c & c' & -> & -> & H). unfold apply_fn. cbn [fn_call]. destruct (H args s) as [->|(s' & ->)]; [left; reflexivity|stop].
Qed.
Lemma DoCall_le : forall f f' a v s, fnle f f' -> sle (DoCall emb q_pushret q_to_float f a v s) (DoCall emb q_pushret q_to_float f' a v s).
Proof.
  intros f f' a v s H. pose proof (fun args s => apply_le f f' args s H) as A. destruct H as (b & i & w & o & c & c' & -> & -> & H). unfold DoCall. cbn [fn_in].
  destruct (0 <? a); [|apply A]. destruct (PopArgs emb a (e_stk s)) as [[(args, stk)|]|]; try (left; reflexivity).
  destruct (validateArgs _ _ _ _) as [[args'|x]|]; try (left; reflexivity). apply A.
Qed.
Lemma VCall_le : forall (af af' : qval -> option Qfn) a s, (forall r, ofnle (af r) (af' r)) ->
  sle (Interp.VCall emb q_pushret q_to_float af a s) (Interp.VCall emb q_pushret q_to_float af' a s).
Proof.
  intros af af' a s H. unfold Interp.VCall. destruct (PopArgs emb (a + 1) (e_stk s)) as [[([|f args], stk)|]|]; try (left; reflexivity).
  specialize (H f). destruct (af f) as [fn|], (af' f) as [fn'|]; try contradiction; [|left; reflexivity]. cbn in H.
  pose proof (fun args s => apply_le fn fn' args s H) as A. destruct H as (b & i & w & o & c & c' & -> & -> & H).
  unfold count_err. cbn [fn_in fn_variadic]. match goal with |- sle (match ?x with _ => _ end) _ => destruct x end; [left; reflexivity|].
  destruct (validateArgs _ _ _ _) as [[args'|x]|]; try (left; reflexivity). apply A.
Qed.
Lemma as_fn_le : forall r, ofnle (as_fn L e r) (as_fn L e' r).
Proof.
  intro r. unfold as_fn. destruct (unemb r); try apply ofnle_refl.
  - do 6 eexists. split; [reflexivity|]. split; [reflexivity|]. intros args s. apply run_le. apply FnCall_le.
  - do 6 eexists. split; [reflexivity|]. split; [reflexivity|]. intros args s. apply run_le. unfold ThisCall. apply FnCall_le.
Qed.
Lemma QVCall_le : qle (QVCall L e) (QVCall L e').
Proof.
  unfold QVCall. apply qle_bind; [apply qle_refl|]. intro va. apply qle_bind; [apply qle_refl|]. intro a. apply qle_bind; [apply qle_refl|]. intros n s.
  unfold lift_call. destruct (VCall_le _ _ n s as_fn_le) as [->|(s' & ->)]; [left; reflexivity|stop].
Qed.

(** the table *)
Definition entle (a b : bytes * Qfn) : Prop := fst a = fst b /\ fnle (snd a) (snd b).
Lemma find_le : forall l l' name, Forall2 entle l l' -> ofnle (find name l) (find name l').
Proof.
  intros l l' name H. induction H as [|(a, f) (b, g) l l' (E & F) H IH]; [exact Logic.I|]. cbn in E. subst b. cbn [find]. destruct (beq name a); [exact F|exact IH].
Qed.
Lemma ent_of : forall A n b i v o (m m' : list qval -> @Q W A) out, (forall args, qle (m args) (m' args)) ->
  entle (n, mkFn b i v o (fun args => run (m args) out)) (n, mkFn b i v o (fun args => run (m' args) out)).
Proof. intros. split; [reflexivity|]. do 6 eexists. split; [reflexivity|]. split; [reflexivity|]. intros args s. apply run_le. apply H. Qed.
Lemma qtable_le : forall k k', (k <= k')%nat -> Forall2 entle (qtable L e k) (qtable L e' k').
Proof.
  intros k k' Hk. pose proof AndOr_le. pose proof If_le. pose proof Switch_le. pose proof (fun p => For_le k k' p Hk). pose proof Return_le. pose proof Main_le. pose proof New_le.
  pose proof QVCall_le. unfold qtable.
  repeat first [ apply Forall2_nil | apply Forall2_cons; [first [ split; [reflexivity|apply fnle_refl] | apply ent_of; intro args; cbn beta; unfold And, Or; auto; fail ]|] ].
Qed.
Lemma fntable_le : forall k k' name, (k <= k')%nat -> ofnle (fntable L e k name) (fntable L e' k' name).
Proof. intros. unfold fntable. apply find_le. apply qtable_le. assumption. Qed.

(** the actions *)
Lemma raise_le : forall (r r' : (list qval * St) + (panicq * St)), sle r r' -> sle (raise_ret r) (raise_ret r').
Proof. intros r r' [->|(s & ->)]; [left; reflexivity|stop]. Qed.
Lemma iact_le : forall k k' mark ts len s, (k <= k')%nat -> sle (qact L e k mark ts len s) (qact L e' k' mark ts len s).
Proof.
  intros k k' mark ts len s Hk. unfold qact, iact, fn_of. pose proof (fntable_le k k' (36 :: mark) Hk) as H.
  destruct (fntable L e k (36 :: mark)) as [f|], (fntable L e' k' (36 :: mark)) as [f'|]; try contradiction; [|left; reflexivity]. cbn in H.
  destruct (silenced mark (e_mute s)); [left; reflexivity|].
  assert (B : sle (body emb q_pushret q_to_float f_of_int (l_parse_float L) t_stack t_ipt None mark f ts len s)
                  (body emb q_pushret q_to_float f_of_int (l_parse_float L) t_stack t_ipt None mark f' ts len s)).
  { pose proof (fun a v s => DoCall_le f f' a v s H) as D. destruct H as (b & i & w & o & c & c' & -> & -> & H). unfold body. unfold recvr. cbn [fn_in fn_call] in *.
    match goal with |- sle (if ?x then _ else _) _ => destruct x end.
    - destruct (D (Z.of_nat (length i)) false s) as [->|(s' & ->)]; [left; reflexivity|stop].
    - destruct i as [|t0 [|t1 [|t2 i]]]; [left; reflexivity| | |].
      + apply raise_le. apply H.
      + destruct (arg1 _ _ mark ts len t1); [|left; reflexivity]. apply raise_le. apply H.
      + destruct (arg1 _ _ mark ts len t1); [|left; reflexivity]. destruct (ctxValue ts); [|left; reflexivity]. apply raise_le. apply H. }
  destruct B as [->|(s' & ->)]; [left; reflexivity|stop].
Qed.
Lemma client_le : forall k k', (k <= k')%nat -> cle (PUser PvFuel) (lift (q_client L e k)) (lift (q_client L e' k')).
Proof.
  intros k k' Hk. unfold lift, q_client, iclient. split; [|split; cbn [c_begin u_begin c_end u_end]; reflexivity]. intros a ts l s. cbn [c_act u_act].
  pose proof (iact_le k k' a ts l (ust s) Hk) as H. unfold qact in H. destruct H as [->|(s' & ->)]; [left; reflexivity|right; right; eexists; reflexivity].
Qed.
End Ev.

(** the panic or value that the outcome of a match is *)
Definition mle_out (r r' : @mout bytes Empty_set (pv value) St) : Prop := r' = r \/ r = MFuel \/ exists s, r = MPanic (PUser PvFuel) s.
Lemma EvalCode_le : forall (d : dst bytes Empty_set unit) e e' k k' p rule ts s, evle e e' -> (k <= k')%nat ->
  mle_out (EvalCode emb q_pushret q_to_float f_of_int (l_parse_float L) (fntable L e k) t_stack t_ipt None d k p rule ts s)
          (EvalCode emb q_pushret q_to_float f_of_int (l_parse_float L) (fntable L e' k') t_stack t_ipt None d k' p rule ts s).
Proof.
  intros d e e' k k' p rule ts s He Hk. unfold EvalCode, EvalSubTokens. destruct (find rule (d_grams d)) as [g|]; [|left; reflexivity].
  pose proof (gmatch_le (cenv d) (PUser PvFuel) _ _ k k' g ts (iinit (mkSt (lens s) (set_ipt p (ust s)))) (client_le e e' He k k' Hk) Hk) as H.
  unfold q_client in H. destruct H as [->|[->|(s' & ->)]]; [left; reflexivity|right; left; reflexivity|right; right; eexists; reflexivity].
Qed.
Lemma ev_le : forall n n', (n <= n')%nat -> evle (ev L n) (ev L n').
Proof.
  induction n as [|n IH]; intros n' Hn p rule c s; [stop|]. destruct n' as [|n']; [lia|].
  assert (E : forall n, ev L (S n) p rule c s = match c with
      | VCode ts =>
          match EvalCode emb q_pushret q_to_float f_of_int (l_parse_float L) (fntable L (ev L n) n) t_stack t_ipt None q_dst n p rule ts (mkSt (fun _ => 0) s) with
          | MNil s' | MNext _ s' => inl (None, ust s')
          | MFail e s' => inl (Some (PMatch e), ust s')
          | MNoGrammar s' | MTokErr _ s' => inl (Some e_nogram, ust s')
          | MPanic p s' => inr (p, ust s')
          | MFuel => no_fuel s
          end
      | _ => inl (Some e_nosrc, s)
      end) by reflexivity.
  rewrite !E. clear E. destruct c; try (left; reflexivity). generalize q_dst. intro d.
  destruct (EvalCode_le d _ _ n n' p rule ts (mkSt (fun _ => 0) s) (IH n' ltac:(lia)) ltac:(lia)) as [->|[->|(s' & ->)]]; [left; reflexivity|stop|stop].
Qed.
Variables isL isD : Z -> bool.
Lemma MatchExactly_le : forall env (c c' : client bytes Empty_set (pv value) St unit) semis minit n n' g tk old src s, cle (PUser PvFuel) c c' -> (n <= n')%nat ->
  mle_out (MatchExactly env c isL isD false semis minit n g tk old src s) (MatchExactly env c' isL isD false semis minit n' g tk old src s).
Proof.
  intros env c c' semis minit n n' g tk old src s Hc Hn. unfold MatchExactly, Match.
  assert (D : mle_out (Match env c isL isD false semis minit n g tk old src s) (Match env c' isL isD false semis minit n' g tk old src s)).
  { unfold Match. destruct (Tokenize isL isD false semis tk old src) as [tokens x| |].
    - destruct (gmatch_le env (PUser PvFuel) c c' n n' g tokens (minit s) Hc Hn) as [->|[->|(s' & ->)]]; [left; reflexivity| |]; destruct g; first [left; reflexivity|right; left; reflexivity|right; right; eexists; reflexivity].
    - left. reflexivity.
    - left. reflexivity. }
  unfold Match in D. destruct D as [->|[->|(s' & ->)]]; [left; reflexivity|right; left; reflexivity|right; right; eexists; reflexivity].
Qed.
Lemma Exec_le : forall n n' semis old src s, (n <= n')%nat -> sle (Exec L isL isD n semis old src s) (Exec L isL isD n' semis old src s).
Proof.
  intros n n' semis old src s Hn. unfold Exec. pose proof (client_le _ _ (ev_le n n' Hn) n n' Hn) as C. revert C. generalize q_dst, d_doc. intros d g C.
  destruct (MatchExactly_le (cenv d) _ _ semis iinit n n' g (AutoKw q_akw) old src (mkSt (fun _ => 0) s) C Hn) as [->|[->|(s' & ->)]]; [left; reflexivity|stop|stop].
Qed.
Lemma SafeExec_le : forall n n' semis old src s, (n <= n')%nat -> sle (SafeExec L isL isD n semis old src s) (SafeExec L isL isD n' semis old src s).
Proof.
  intros n n' semis old src s Hn. unfold SafeExec. destruct (Exec_le n n' semis old src s Hn) as [->|(s' & ->)]; [|stop].
  pose proof (ExecDefers_le _ _ (ev_le n n' Hn) 0%nat) as D.
  destruct (Exec L isL isD n semis old src s) as [(er, s1)|(x, s1)]; [|destruct (uncatchable x); [left; reflexivity|]].
  all: match goal with |- sle (match ExecDefers _ _ ?y with _ => _ end) _ => destruct (D y) as [->|(s' & ->)]; [left; reflexivity|stop] end.
Qed.
End QMono.
