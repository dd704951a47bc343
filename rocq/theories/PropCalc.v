(** Properties C40 and C41: the calculators of tpl/number, tpl/rat and tpl/cmplx.
    Specification file: CalcSpec.v (v_doc: the value of a sequence of tokens). *)
From Coq Require Import String QArith.
From Verif Require Import Base Token Utf8 Scanner Tokenize Grammar Matcher PegSpec MatchProofs MatchProofs2 MatchProofs3 MatchProofs4 MatchObs Wf PegTools Compiler CompilerBack.
From Verif Require Import Utf8Proofs ScannerSpec ScannerProofs TokenizeProofs PropMatch PropMatcher PropCompiler Interp Calc CalcSpec CalcProofs CalcValue CalcActs CalcTop.
Local Open Scope Z_scope.

Section Engine.
Context {F X E : Type}.
Variable k : calc F X E.
Variable to_float : val F X unit E -> F.
Variable of_int : Z -> F.
Variable parse_float : bytes -> F + nerr.
Variables isL isD : Z -> bool.
Notation S := (est unit E unit).
(** interpreter.New(calculator, nil): the grammar compiles to [root] and rules [d] (interpreter.go:306-319) *)
Definition engine (old : sc) (grammar : bytes) (root : gr bytes Empty_set) (d : dst bytes Empty_set unit) : Prop :=
  compiles_to (cmarker k to_float) isL isD (AutoKw new_akw) old tt grammar (ClOk root d).
(** Eval, i.e. MatchExactly of the engine, for [f] steps *)
Definition Eval (root : gr bytes Empty_set) (d : dst bytes Empty_set unit) (f : nat) (old : sc) (src : bytes) (s : st S) : @mout bytes Empty_set (pv X) S :=
  MatchExactly (cenv d) (lift (kclient k to_float of_int parse_float)) isL isD false false iinit f root (d_tk d) old src s.
(** Calculator.Ret: number.go:226-231, big.go:207-212, cmplx.go:198-203 *)
Definition Ret (x : S) : option E * S := (hd_error (e_stk x), set_stk [] x).

Section Generic.
Variables leaves1 leaves2 muls : list (Z * bytes).
Notation Hconds := (shape_ok leaves1 leaves2 muls /\
  (forall e, validateType to_float (k_emb k e) (k_type k) = Val (inl (k_emb k e))) /\ (forall e, k_unemb k (k_emb k e) = Some e) /\
  (forall e, k_unret k (k_emb k e) = inl e) /\ (teq (k_type k) tstk = false /\ teq (k_type k) tipt = false) /\
  (forall name l, k_lib k name = Some l -> l_variadic l = true -> l_arity l <> 0%nat)).
Variable lit : bytes -> bytes -> option E.
Variable bin : bytes -> E -> E -> option E.
Hypothesis Hc : Hconds.
Hypothesis Hlit : forall kd m, In (kd, m) (leaves1 ++ leaves2) -> exists lf, ctable k to_float (36 :: m) = Some (fn_leaf lf) /\ isLen m = Some false /\
  (forall s, lit m s = leaf_val of_int parse_float lf s).
Hypothesis Hbin : forall kd m, In (kd, m) (muls ++ adds) -> exists f, ctable k to_float (36 :: m) = Some (pure k (lib2 f)) /\ (forall a b, bin m a b = f a b).
Hypothesis Hwf : wf_gr (fun _ => false) (fun _ => 0%nat) None (g_doc muls) = true /\ wf_gr (fun _ => false) (fun _ => 0%nat) (Some 0%nat) (g_factor leaves1 leaves2 muls) = true /\
  may_empty (fun _ => false) (g_factor leaves1 leaves2 muls) = false.
Notation Vd := (v_doc (tab lit (leaves1 ++ leaves2)) (tab bin muls) (tab bin adds) (k_neg k) (lib_call k)).
Notation Ev f tk old src s := (MatchExactly (g_env leaves1 leaves2 muls) (lift (kclient k to_float of_int parse_float)) isL isD false false iinit f (g_doc muls) tk old src s).
Definition len_ok (ts : list token) : Prop := forall n, 0 <= n <= Z.of_nat (length ts) -> k_to_len k (k_of_len k n) = Some n.

Lemma calc_eval : forall tk old src s ts eof, Tokenize isL isD false false tk old src = TzOk ts eof -> len_ok ts ->
  (forall v s', (exists f, Ev f tk old src s = MNil s') /\ ust s' = push v (set_mute 0 (ust s)) -> Vd ts (Some v)) /\
  (forall v, Vd ts (Some v) -> exists f s', Ev f tk old src s = MNil s' /\ ust s' = push v (set_mute 0 (ust s))) /\
  (Vd ts None -> exists f e w s', Ev f tk old src s = MPanic (PUser (PvRuntime e w)) s') /\
  (forall f s', Ev f tk old src s = MNil s' -> exists v, Vd ts (Some v) /\ ust s' = push v (set_mute 0 (ust s))) /\
  (forall r r', Vd ts r -> Vd ts r' -> r = r').
Proof.
  intros tk old src s ts eof Ht Hl. destruct Hc as (H1 & H2 & H3 & H4 & H5 & H6).
  assert (Hn : g_doc muls <> GNil) by discriminate.
  assert (Hg : good (ust (iinit s))) by reflexivity.
  assert (P4 : forall f s', Ev f tk old src s = MNil s' -> exists v, Vd ts (Some v) /\ ust s' = push v (set_mute 0 (ust s))).
  { intros f s' Hf. destruct (proj1 (C28_exactly_iff _ _ isL isD false false iinit (g_doc muls) tk old src s s') (ex_intro _ f Hf)) as (_ & ts' & eof' & Ht' & Hr).
    rewrite Ht in Ht'. injection Ht' as <- <-. apply (match_only k to_float of_int parse_float leaves1 leaves2 muls H1 H2 H3 H4 H5 H6 lit bin Hlit Hbin ts Hl _ _ Hg Hr). }
  split; [|split; [|split; [|split]]].
  - intros v s' ((f & Hf) & Hs). destruct (P4 f s' Hf) as (v' & Hv & Hs'). rewrite Hs in Hs'. injection Hs' as ->. exact Hv.
  - intros v Hv. destruct (match_value k to_float of_int parse_float leaves1 leaves2 muls H1 H2 H3 H4 H5 H6 lit bin Hlit Hbin ts Hl v (iinit s) Hv Hg) as (s' & Hr & Hs).
    destruct (proj2 (C28_exactly_iff (g_env leaves1 leaves2 muls) (lift (kclient k to_float of_int parse_float)) isL isD false false iinit (g_doc muls) tk old src s s')) as (f & Hf).
    { split; [exact Hn|]. exists ts, eof. split; [exact Ht|exact Hr]. }
    exists f, s'. split; [exact Hf|exact Hs].
  - intro Hv. destruct (match_novalue k to_float of_int parse_float leaves1 leaves2 muls H1 H2 H3 H4 H5 H6 lit bin Hlit Hbin ts Hl (iinit s) Hv Hg) as (e & w & s' & Hp).
    destruct (proj2 (proj2 (proj2 (proj2 (C28_otherwise (g_env leaves1 leaves2 muls) (lift (kclient k to_float of_int parse_float)) isL isD false false iinit (g_doc muls) tk old src s)) Hn ts eof Ht)) _ _ Hp) as (f & Hf).
    exists f, e, w, s'. exact Hf.
  - exact P4.
  - apply (value_unique k to_float of_int parse_float leaves1 leaves2 muls H1 H2 H3 H4 H5 H6 lit bin Hlit Hbin ts Hl).
Qed.
Lemma calc_ends : forall tk old src s, Forall byte src -> tk_ok tk -> exists f, Ev f tk old src s <> MFuel.
Proof.
  intros tk old src s Hb Htk. assert (Hn : g_doc muls <> GNil) by discriminate.
  destruct (Tokenize isL isD false false tk old src) as [ts eof|ts e|] eqn:Et.
  - assert (Hnul : nul_ok (fun _ => false) (g_env leaves1 leaves2 muls)).
    { intros v g Hg Hm. unfold g_env in Hg. cbn [find] in Hg. destruct (beq v c_factor_name); [|discriminate]. injection Hg as <-.
      change (GOr _) with (g_factor leaves1 leaves2 muls) in Hm. rewrite (proj2 (proj2 Hwf)) in Hm. discriminate. }
    assert (Hrank : rank_ok (fun _ => false) (fun _ => 0%nat) (g_env leaves1 leaves2 muls)).
    { intros v g Hg. unfold g_env in Hg. cbn [find] in Hg. destruct (beq v c_factor_name); [|discriminate]. injection Hg as <-. apply (proj1 (proj2 Hwf)). }
    destruct (wf_total _ _ _ Hnul Hrank (g_doc muls) (proj1 Hwf) ts) as (o & y & Hp).
    destruct (proj1 (sim_all _ (kclient k to_float of_int parse_float)) _ _ _ _ Hp) as (f & Hf). specialize (Hf f (Nat.le_refl _) (iinit s)).
    exists f. unfold MatchExactly. rewrite match_unfold, Et by exact Hn.
    destruct (gmatch _ _ f (g_doc muls) ts (iinit s)) as [n [e|] s1|p s1|]; try discriminate.
    + destruct (skipn n ts); discriminate.
    + destruct Hf as [(p & s' & Hf & _)|Hf]; [discriminate|]. destruct o; [destruct Hf as (s' & Hf & _)|destruct Hf as (n & e & s' & Hf & _)|destruct Hf as (p & s' & Hf & _)]; discriminate.
  - exists 0%nat. unfold MatchExactly. rewrite match_unfold, Et by exact Hn. discriminate.
  - exfalso. destruct (Tokenize_spec isL isD false false src Hb tk old Htk) as (n & ts0 & t & s' & _ & _ & _ & _ & [(_ & _ & H)|(es & e & _ & H)]); rewrite Et in H; discriminate H.
Qed.

(** the theorems below, for any calculator *)
Notation Evd := (Eval (g_doc muls)).
Lemma calc_C40 : forall d, cenv d = g_env leaves1 leaves2 muls -> forall old src s ts eof, Tokenize isL isD false false (d_tk d) old src = TzOk ts eof -> len_ok ts ->
  (forall v, Vd ts (Some v) <-> exists f s', Evd d f old src s = MNil s' /\ e_stk (ust s') = v :: e_stk (ust s) /\ fst (Ret (ust s')) = Some v) /\
  (Vd ts None -> exists f e w s', Evd d f old src s = MPanic (PUser (PvRuntime e w)) s').
Proof.
  intros d He old src s ts eof Ht Hl. unfold Eval. rewrite He. destruct (calc_eval (d_tk d) old src s ts eof Ht Hl) as (_ & P2 & P3 & P4 & _). split; [|exact P3].
  intro v. split.
  - intro Hv. destruct (P2 v Hv) as (f & s' & Hf & Hs). exists f, s'. rewrite Hs. auto.
  - intros (f & s' & Hf & Hs & _). destruct (P4 f s' Hf) as (v' & Hv & Hs'). rewrite Hs' in Hs. injection Hs as ->. exact Hv.
Qed.
Lemma calc_C41 : forall d, cenv d = g_env leaves1 leaves2 muls -> tk_ok (d_tk d) -> forall old src s,
  (Forall byte src -> exists f, Evd d f old src s <> MFuel) /\
  ((forall ts eof, Tokenize isL isD false false (d_tk d) old src = TzOk ts eof -> len_ok ts) ->
   forall f s', Evd d f old src s = MNil s' -> exists ts eof v, Tokenize isL isD false false (d_tk d) old src = TzOk ts eof /\ Vd ts (Some v) /\
     (forall r, Vd ts r -> r = Some v) /\ ust s' = mkE 0 (e_ipt (ust s)) (v :: e_stk (ust s)) (e_rest (ust s))).
Proof.
  intros d He Htk old src s. unfold Eval. rewrite He. split; [intro Hb; apply calc_ends; assumption|]. intros Hl f s' Hf.
  destruct (proj1 (C28_exactly_iff _ _ isL isD false false iinit (g_doc muls) (d_tk d) old src s s') (ex_intro _ f Hf)) as (_ & ts & eof & Ht & _).
  specialize (Hl ts eof Ht). destruct (calc_eval (d_tk d) old src s ts eof Ht Hl) as (_ & _ & _ & P4 & P5). destruct (P4 f s' Hf) as (v & Hv & Hs).
  exists ts, eof, v. split; [exact Ht|]. split; [exact Hv|]. split; [intros r Hr; apply P5; assumption|exact Hs].
Qed.
End Generic.
End Engine.

Lemma shape_1 : forall p l2 muls, acc (fst p) 45 = false -> acc (fst p) 40 = false -> acc (fst p) 43 = false -> acc (fst p) 41 = false -> acc (fst p) IDENT = false ->
  (l2 = [] \/ exists m, l2 = [(IDENT, m)]) -> (muls = Calc.num_muls \/ muls = rat_muls) -> shape_ok [p] l2 muls.
Proof.
  intros p l2 muls H1 H2 H3 H4 H5 Hl Hm. split; [|split; [|split; [exact Hl|]]].
  - intros l x [<-|[]] [<- | [<- | [<- | [<- | [<- | []]]]]]; assumption.
  - intros a l b Ea l' x Hi. destruct a as [|q a]; [contradiction Hi|]. injection Ea as _ Ea. destruct a; discriminate Ea.
  - destruct Hm as [-> | ->]; split.
    + intros o [<- | [<- | [<- | []]]] Hi; vm_compute in Hi; intuition discriminate.
    + repeat constructor; cbn; intuition discriminate.
    + intros o [<- | [<- | []]] Hi; vm_compute in Hi; intuition discriminate.
    + repeat constructor; cbn; intuition discriminate.
Qed.
Lemma shape_2 : shape_ok [(FLOAT, m_push); (IMAG, m_pushi)] [] rat_muls.
Proof.
  split; [|split; [|split; [left; reflexivity|split]]].
  - intros l x [<- | [<- | []]] [<- | [<- | [<- | [<- | [<- | []]]]]]; reflexivity.
  - intros a l b Ea l' x Hi Hx. destruct a as [|q a]; [contradiction Hi|]. injection Ea as <- Ea. destruct a as [|q a]; [|injection Ea as _ Ea; destruct a; discriminate Ea].
    injection Ea as <- _. destruct Hi as [<-|[]]. cbn [fst] in *. unfold acc in *. change (IMAG =? FLOAT) with false in Hx. rewrite andb_false_r, orb_false_r in Hx. apply Z.eqb_eq in Hx. subst x. reflexivity.
  - intros o [<- | [<- | []]] Hi; vm_compute in Hi; intuition discriminate.
  - repeat constructor; cbn; intuition discriminate.
Qed.

(** The number of tokens of any text a 64-bit process can hold. *)
Definition fits (ts : list token) : Prop := Z.of_nat (length ts) < 2 ^ 53.

(** ** number *)
Section Number.
Context {F X : Type}.
(** float64 arithmetic, constants, conversions, library *)
Variable f_neg : F -> F.
Variables f_mul f_quo f_mod f_add f_sub : F -> F -> F.
Variable consts : bytes -> option F.
Variable of_int : Z -> F.
Variable f_int : F -> Z.
Variable lib : bytes -> option (libfn F).
Variable to_float : val F X unit F -> F.
Variable parse_float : bytes -> F + nerr.
Variables isL isD : Z -> bool.
(** integers below 2^53 are exact *)
Hypothesis f_int_of_int : forall n, 0 <= n < 2 ^ 53 -> f_int (of_int n) = n.
(** a variadic function has a parameter *)
Hypothesis lib_ok : forall name l, lib name = Some l -> l_variadic l = true -> l_arity l <> 0%nat.
Notation num := (@number F X f_neg f_mul f_quo f_mod f_add f_sub consts of_int f_int lib).

(** the meaning of the operators, literals, constants and functions *)
Definition yes2 {E : Type} (f : E -> E -> E) : E -> E -> option E := fun a b => Some (f a b).
Definition num_lits : list (Z * (bytes -> option F)) :=
  [(FLOAT, fun s => match ParseFloat of_int parse_float s with Val (inl v) => Some v | _ => None end); (IDENT, consts)].
Definition num_muls : list (Z * (F -> F -> option F)) := [(MUL, yes2 f_mul); (QUO, yes2 f_quo); (REM, yes2 f_mod)].
Definition num_adds : list (Z * (F -> F -> option F)) := [(ADD, yes2 f_add); (SUB, yes2 f_sub)].
Definition call_in {E : Type} (lib : bytes -> option (libfn E)) (name : bytes) (vs : list E) : option E :=
  match lib name with
  | None => None
  | Some l => if (if l_variadic l then (l_arity l - 1 <=? length vs)%nat else (length vs =? l_arity l)%nat) then l_run l vs else None
  end.
Notation num_value := (v_doc num_lits num_muls num_adds (fun a => Some (f_neg a)) (call_in lib)).

(** New succeeds ... *)
Theorem C40_number_engine : forall old, exists root d, engine num to_float isL isD old number_grammar root d.
Proof. intro old. eexists _, _. apply (compiles_run _ _ _ _ _ _ _ 200); [vm_compute; reflexivity|discriminate]. Qed.
Lemma number_engine : forall old root d, engine num to_float isL isD old number_grammar root d ->
  root = g_doc Calc.num_muls /\ cenv d = g_env [(FLOAT, m_push)] [(IDENT, m_ident)] Calc.num_muls /\ tk_ok (d_tk d).
Proof.
  intros old root d H.
  assert (G : exists d', engine num to_float isL isD old number_grammar (g_doc Calc.num_muls) d' /\
    d_vars d' = [(c_factor_name, g_factor [(FLOAT, m_push)] [(IDENT, m_ident)] Calc.num_muls)] /\ tk_ok (d_tk d')).
  { eexists. split; [apply (compiles_run _ _ _ _ _ _ _ 200); [vm_compute; reflexivity|discriminate]|]. split; [reflexivity|]. intros w v Hw. discriminate Hw. }
  destruct G as (d' & G & Ev & Et). pose proof (compiles_unique _ _ _ _ _ _ _ _ _ H G) as U. injection U as -> ->.
  split; [reflexivity|]. split; [unfold cenv; rewrite Ev; reflexivity|exact Et].
Qed.

Definition num_lit (m : bytes) : bytes -> option F :=
  if beq m m_push then fun s => match ParseFloat of_int parse_float s with Val (inl v) => Some v | _ => None end else consts.
Definition num_bin (m : bytes) : F -> F -> option F :=
  if beq m m_mul then yes2 f_mul else if beq m m_quo then yes2 f_quo else if beq m m_mod then yes2 f_mod else if beq m m_add then yes2 f_add else yes2 f_sub.
Lemma num_conds : shape_ok [(FLOAT, m_push)] [(IDENT, m_ident)] Calc.num_muls /\
  (forall e, validateType to_float (k_emb num e) (k_type num) = Val (inl (k_emb num e))) /\ (forall e, k_unemb num (k_emb num e) = Some e) /\
  (forall e, k_unret num (k_emb num e) = inl e) /\ (teq (k_type num) tstk = false /\ teq (k_type num) tipt = false) /\
  (forall name l, k_lib num name = Some l -> l_variadic l = true -> l_arity l <> 0%nat).
Proof. split; [apply shape_1; eauto|]. repeat split; try reflexivity. exact lib_ok. Qed.
Lemma num_hlit : forall kd m, In (kd, m) ([(FLOAT, m_push)] ++ [(IDENT, m_ident)]) -> exists lf, ctable num to_float (36 :: m) = Some (fn_leaf lf) /\ isLen m = Some false /\
  (forall s, num_lit m s = leaf_val of_int parse_float lf s).
Proof. intros kd m [H | [H | []]]; injection H as <- <-; eexists; split; try reflexivity; split; reflexivity. Qed.
Lemma num_hbin : forall kd m, In (kd, m) (Calc.num_muls ++ adds) -> exists f, ctable num to_float (36 :: m) = Some (pure num (lib2 f)) /\ (forall a b, num_bin m a b = f a b).
Proof. intros kd m [H | [H | [H | [H | [H | []]]]]]; injection H as <- <-; eexists; split; try reflexivity; split; reflexivity. Qed.
Lemma num_len : forall ts, fits ts -> len_ok num ts.
Proof. intros ts H n Hn. cbn. rewrite f_int_of_int by (unfold fits in H; lia). reflexivity. Qed.

(** ... and evaluating a text gives [v], on top of whatever was on the stack, exactly when its tokens are an expression of value
    [v]; an expression without a value raises a *RuntimeError. *)
Theorem C40_number : forall old0 root d, engine num to_float isL isD old0 number_grammar root d ->
  forall old src s ts eof, Tokenize isL isD false false (d_tk d) old src = TzOk ts eof -> fits ts ->
  (forall v, num_value ts (Some v) <->
     exists f s', Eval num to_float of_int parse_float isL isD root d f old src s = MNil s' /\ e_stk (ust s') = v :: e_stk (ust s) /\ fst (Ret (ust s')) = Some v) /\
  (num_value ts None ->
     exists f e w s', Eval num to_float of_int parse_float isL isD root d f old src s = MPanic (PUser (PvRuntime e w)) s').
Proof.
  intros old0 root d H old src s ts eof Ht Hf. apply number_engine in H. destruct H as (-> & He & _).
  exact (calc_C40 num to_float of_int parse_float isL isD [(FLOAT, m_push)] [(IDENT, m_ident)] Calc.num_muls num_lit num_bin num_conds num_hlit num_hbin d He old src s ts eof Ht (num_len ts Hf)).
Qed.
(** Evaluation always ends; if it returns nil, the tokens are an expression with exactly one value, which has been pushed, and nothing
    else has changed. *)
Theorem C41_number : forall old0 root d, engine num to_float isL isD old0 number_grammar root d ->
  forall old src s,
  (Forall byte src -> exists f, Eval num to_float of_int parse_float isL isD root d f old src s <> MFuel) /\
  ((forall ts eof, Tokenize isL isD false false (d_tk d) old src = TzOk ts eof -> fits ts) ->
   forall f s', Eval num to_float of_int parse_float isL isD root d f old src s = MNil s' ->
   exists ts eof v, Tokenize isL isD false false (d_tk d) old src = TzOk ts eof /\ num_value ts (Some v) /\
     (forall r, num_value ts r -> r = Some v) /\ ust s' = mkE 0 (e_ipt (ust s)) (v :: e_stk (ust s)) (e_rest (ust s))).
Proof.
  intros old0 root d H old src s. apply number_engine in H. destruct H as (-> & He & Hk).
  destruct (calc_C41 num to_float of_int parse_float isL isD [(FLOAT, m_push)] [(IDENT, m_ident)] Calc.num_muls num_lit num_bin num_conds num_hlit num_hbin ltac:(vm_compute; auto) d He Hk old src s) as (P & Q).
  split; [exact P|]. intro Hf. apply Q. intros ts eof Ht. apply num_len. eapply Hf. exact Ht.
Qed.
End Number.

(** ** rat: exact rational numbers; a literal that is not a sequence of decimal digits is read by [set_string], whose failure is a
    nil number, with which any operation fails *)
Section Rat.
Context {F X : Type}.
Variable set_string : bytes -> option Q.
Variable to_float : val F X unit rat -> F.
Variable of_int : Z -> F.
Variable parse_float : bytes -> F + nerr.
Variables isL isD : Z -> bool.
Notation rc := (@rat_calc F X set_string).
(** numbers are kept in lowest terms *)
Definition q1 (f : Q -> Q) : rat -> option rat := r1 (fun a => Some (Qred (f a))).
Definition q2 (f : Q -> Q -> Q) : rat -> rat -> option rat := r2 (fun a b => Some (Qred (f a b))).
Definition rat_lits : list (Z * (bytes -> option rat)) :=
  [(INT, fun s => Some (if negb (length s =? 0)%nat && all_digits s then Some (inject_Z (decimal 0 s)) else set_string s))].
Definition rat_mulv : list (Z * (rat -> rat -> option rat)) :=
  [(MUL, q2 Qmult); (QUO, r2 (fun a b => match q_quo a b with Some q => Some (Qred q) | None => None end))].
Definition rat_addv : list (Z * (rat -> rat -> option rat)) := [(ADD, q2 Qplus); (SUB, q2 Qminus)].
Definition rat_lib (name : bytes) : option (libfn rat) := find name rat_libs.
Notation rat_value := (v_doc rat_lits rat_mulv rat_addv (q1 Qopp) (call_in rat_lib)).

Theorem C40_rat_engine : forall old, exists root d, engine rc to_float isL isD old rat_grammar root d.
Proof. intro old. eexists _, _. apply (compiles_run _ _ _ _ _ _ _ 200); [vm_compute; reflexivity|discriminate]. Qed.
Lemma rat_engine : forall old root d, engine rc to_float isL isD old rat_grammar root d ->
  root = g_doc rat_muls /\ cenv d = g_env [(INT, m_push)] [] rat_muls /\ tk_ok (d_tk d).
Proof.
  intros old root d H.
  assert (G : exists d', engine rc to_float isL isD old rat_grammar (g_doc rat_muls) d' /\
    d_vars d' = [(c_factor_name, g_factor [(INT, m_push)] [] rat_muls)] /\ tk_ok (d_tk d')).
  { eexists. split; [apply (compiles_run _ _ _ _ _ _ _ 200); [vm_compute; reflexivity|discriminate]|]. split; [reflexivity|]. intros w v Hw. discriminate Hw. }
  destruct G as (d' & G & Ev & Et). pose proof (compiles_unique _ _ _ _ _ _ _ _ _ H G) as U. injection U as -> ->.
  split; [reflexivity|]. split; [unfold cenv; rewrite Ev; reflexivity|exact Et].
Qed.
Definition rat_lit (m : bytes) : bytes -> option rat := fun s => Some (rat_string set_string s).
Definition rat_bin (m : bytes) : rat -> rat -> option rat :=
  if beq m m_mul then q2 Qmult else if beq m m_quo then r2 (fun a b => match q_quo a b with Some q => Some (Qred q) | None => None end)
  else if beq m m_add then q2 Qplus else q2 Qminus.
Lemma rat_conds : shape_ok [(INT, m_push)] [] rat_muls /\
  (forall e, validateType to_float (k_emb rc e) (k_type rc) = Val (inl (k_emb rc e))) /\ (forall e, k_unemb rc (k_emb rc e) = Some e) /\
  (forall e, k_unret rc (k_emb rc e) = inl e) /\ (teq (k_type rc) tstk = false /\ teq (k_type rc) tipt = false) /\
  (forall name l, k_lib rc name = Some l -> l_variadic l = true -> l_arity l <> 0%nat).
Proof.
  split; [apply shape_1; auto|]. repeat split; try reflexivity. intros name l H Hv. unfold rat_calc in H. cbn [k_lib rat_libs find] in H.
  repeat match type of H with (if ?b then _ else _) = _ => destruct b; [injection H as <-; discriminate|] end. discriminate H.
Qed.
Lemma rat_hlit : forall kd m, In (kd, m) ([(INT, m_push)] ++ []) -> exists lf, ctable rc to_float (36 :: m) = Some (fn_leaf lf) /\ isLen m = Some false /\
  (forall s, rat_lit m s = leaf_val of_int parse_float lf s).
Proof. intros kd m [H | []]; injection H as <- <-; eexists; split; try reflexivity; split; reflexivity. Qed.
Lemma rat_hbin : forall kd m, In (kd, m) (rat_muls ++ adds) -> exists f, ctable rc to_float (36 :: m) = Some (pure rc (lib2 f)) /\ (forall a b, rat_bin m a b = f a b).
Proof. intros kd m [H | [H | [H | [H | []]]]]; injection H as <- <-; eexists; split; try reflexivity; split; reflexivity. Qed.
Lemma rat_len : forall ts, fits ts -> len_ok rc ts.
Proof.
  intros ts H n Hn. unfold fits in H. cbn [k_to_len k_of_len rat_calc]. assert (R : Qred (inject_Z n) = inject_Z n).
  { unfold Qred, inject_Z. pose proof (Z.ggcd_gcd n 1) as G1. pose proof (Z.ggcd_correct_divisors n 1) as G2. destruct (Z.ggcd n 1) as (g, (aa, bb)). cbn [fst] in G1.
    rewrite Z.gcd_1_r in G1. subst g. destruct G2 as (G2 & G3). rewrite Z.mul_1_l in G2, G3. subst aa bb. reflexivity. }
  rewrite R. cbn [inject_Z Qden Qnum Pos.eqb]. unfold int64. rewrite Z.mod_small by lia. destruct (Z.ltb_spec n (2 ^ 63)); [reflexivity|lia].
Qed.

Theorem C40_rat : forall old0 root d, engine rc to_float isL isD old0 rat_grammar root d ->
  forall old src s ts eof, Tokenize isL isD false false (d_tk d) old src = TzOk ts eof -> fits ts ->
  (forall v, rat_value ts (Some v) <->
     exists f s', Eval rc to_float of_int parse_float isL isD root d f old src s = MNil s' /\ e_stk (ust s') = v :: e_stk (ust s) /\ fst (Ret (ust s')) = Some v) /\
  (rat_value ts None ->
     exists f e w s', Eval rc to_float of_int parse_float isL isD root d f old src s = MPanic (PUser (PvRuntime e w)) s').
Proof.
  intros old0 root d H old src s ts eof Ht Hf. apply rat_engine in H. destruct H as (-> & He & _).
  exact (calc_C40 rc to_float of_int parse_float isL isD [(INT, m_push)] [] rat_muls rat_lit rat_bin rat_conds rat_hlit rat_hbin d He old src s ts eof Ht (rat_len ts Hf)).
Qed.
Theorem C41_rat : forall old0 root d, engine rc to_float isL isD old0 rat_grammar root d ->
  forall old src s,
  (Forall byte src -> exists f, Eval rc to_float of_int parse_float isL isD root d f old src s <> MFuel) /\
  ((forall ts eof, Tokenize isL isD false false (d_tk d) old src = TzOk ts eof -> fits ts) ->
   forall f s', Eval rc to_float of_int parse_float isL isD root d f old src s = MNil s' ->
   exists ts eof v, Tokenize isL isD false false (d_tk d) old src = TzOk ts eof /\ rat_value ts (Some v) /\
     (forall r, rat_value ts r -> r = Some v) /\ ust s' = mkE 0 (e_ipt (ust s)) (v :: e_stk (ust s)) (e_rest (ust s))).
Proof.
  intros old0 root d H old src s. apply rat_engine in H. destruct H as (-> & He & Hk).
  destruct (calc_C41 rc to_float of_int parse_float isL isD [(INT, m_push)] [] rat_muls rat_lit rat_bin rat_conds rat_hlit rat_hbin ltac:(vm_compute; auto) d He Hk old src s) as (P & Q).
  split; [exact P|]. intro Hf. apply Q. intros ts eof Ht. apply rat_len. eapply Hf. exact Ht.
Qed.
End Rat.

(** ** cmplx *)
Section Cmplx.
Context {F X C : Type}.
Variable f_neg : C -> C.
Variables f_mul f_quo f_add f_sub : C -> C -> C.
Variables of_real of_imag : F -> C.
Variable of_int : Z -> F.
Variable c_int : C -> option Z.
Variable lib : bytes -> option (libfn C).
Variable parse_anyway : bytes -> F.
Variable to_float : val F X unit C -> F.
Variable parse_float : bytes -> F + nerr.
Variables isL isD : Z -> bool.
Hypothesis c_int_of_real : forall n, 0 <= n < 2 ^ 53 -> c_int (of_real (of_int n)) = Some n.
Hypothesis lib_ok : forall name l, lib name = Some l -> l_variadic l = true -> l_arity l <> 0%nat.
Notation cc := (@cmplx F X C f_neg f_mul f_quo f_add f_sub of_real of_imag of_int c_int lib parse_anyway).
(** an IMAG literal is its last byte, i, after a number, whose error is ignored *)
Definition cmplx_lits : list (Z * (bytes -> option C)) :=
  [(FLOAT, fun s => match ParseFloat of_int parse_float s with Val (inl v) => Some (of_real v) | _ => None end);
   (IMAG, fun s => match s with [] => None | _ => Some (of_imag (parse_anyway (removelast s))) end)].
Definition cmplx_mulv : list (Z * (C -> C -> option C)) := [(MUL, yes2 f_mul); (QUO, yes2 f_quo)].
Definition cmplx_addv : list (Z * (C -> C -> option C)) := [(ADD, yes2 f_add); (SUB, yes2 f_sub)].
Notation cmplx_value := (v_doc cmplx_lits cmplx_mulv cmplx_addv (fun a => Some (f_neg a)) (call_in lib)).

Theorem C40_cmplx_engine : forall old, exists root d, engine cc to_float isL isD old cmplx_grammar root d.
Proof. intro old. eexists _, _. apply (compiles_run _ _ _ _ _ _ _ 200); [vm_compute; reflexivity|discriminate]. Qed.
Lemma cmplx_engine : forall old root d, engine cc to_float isL isD old cmplx_grammar root d ->
  root = g_doc rat_muls /\ cenv d = g_env [(FLOAT, m_push); (IMAG, m_pushi)] [] rat_muls /\ tk_ok (d_tk d).
Proof.
  intros old root d H.
  assert (G : exists d', engine cc to_float isL isD old cmplx_grammar (g_doc rat_muls) d' /\
    d_vars d' = [(c_factor_name, g_factor [(FLOAT, m_push); (IMAG, m_pushi)] [] rat_muls)] /\ tk_ok (d_tk d')).
  { eexists. split; [apply (compiles_run _ _ _ _ _ _ _ 200); [vm_compute; reflexivity|discriminate]|]. split; [reflexivity|]. intros w v Hw. discriminate Hw. }
  destruct G as (d' & G & Ev & Et). pose proof (compiles_unique _ _ _ _ _ _ _ _ _ H G) as U. injection U as -> ->.
  split; [reflexivity|]. split; [unfold cenv; rewrite Ev; reflexivity|exact Et].
Qed.
Definition cmplx_lit (m : bytes) : bytes -> option C :=
  if beq m m_push then fun s => match ParseFloat of_int parse_float s with Val (inl v) => Some (of_real v) | _ => None end
  else fun s => match s with [] => None | _ => Some (of_imag (parse_anyway (removelast s))) end.
Definition cmplx_bin (m : bytes) : C -> C -> option C :=
  if beq m m_mul then yes2 f_mul else if beq m m_quo then yes2 f_quo else if beq m m_add then yes2 f_add else yes2 f_sub.
Lemma cmplx_conds : shape_ok [(FLOAT, m_push); (IMAG, m_pushi)] [] rat_muls /\
  (forall e, validateType to_float (k_emb cc e) (k_type cc) = Val (inl (k_emb cc e))) /\ (forall e, k_unemb cc (k_emb cc e) = Some e) /\
  (forall e, k_unret cc (k_emb cc e) = inl e) /\ (teq (k_type cc) tstk = false /\ teq (k_type cc) tipt = false) /\
  (forall name l, k_lib cc name = Some l -> l_variadic l = true -> l_arity l <> 0%nat).
Proof. split; [exact shape_2|]. repeat split; try reflexivity. exact lib_ok. Qed.
Lemma cmplx_hlit : forall kd m, In (kd, m) ([(FLOAT, m_push); (IMAG, m_pushi)] ++ []) -> exists lf, ctable cc to_float (36 :: m) = Some (fn_leaf lf) /\ isLen m = Some false /\
  (forall s, cmplx_lit m s = leaf_val of_int parse_float lf s).
Proof. intros kd m [H | [H | []]]; injection H as <- <-; eexists; split; try reflexivity; split; reflexivity. Qed.
Lemma cmplx_hbin : forall kd m, In (kd, m) (rat_muls ++ adds) -> exists f, ctable cc to_float (36 :: m) = Some (pure cc (lib2 f)) /\ (forall a b, cmplx_bin m a b = f a b).
Proof. intros kd m [H | [H | [H | [H | []]]]]; injection H as <- <-; eexists; split; try reflexivity; split; reflexivity. Qed.
Lemma cmplx_len : forall ts, fits ts -> len_ok cc ts.
Proof. intros ts H n Hn. cbn. apply c_int_of_real. unfold fits in H. lia. Qed.

Theorem C40_cmplx : forall old0 root d, engine cc to_float isL isD old0 cmplx_grammar root d ->
  forall old src s ts eof, Tokenize isL isD false false (d_tk d) old src = TzOk ts eof -> fits ts ->
  (forall v, cmplx_value ts (Some v) <->
     exists f s', Eval cc to_float of_int parse_float isL isD root d f old src s = MNil s' /\ e_stk (ust s') = v :: e_stk (ust s) /\ fst (Ret (ust s')) = Some v) /\
  (cmplx_value ts None ->
     exists f e w s', Eval cc to_float of_int parse_float isL isD root d f old src s = MPanic (PUser (PvRuntime e w)) s').
Proof.
  intros old0 root d H old src s ts eof Ht Hf. apply cmplx_engine in H. destruct H as (-> & He & _).
  exact (calc_C40 cc to_float of_int parse_float isL isD [(FLOAT, m_push); (IMAG, m_pushi)] [] rat_muls cmplx_lit cmplx_bin cmplx_conds cmplx_hlit cmplx_hbin d He old src s ts eof Ht (cmplx_len ts Hf)).
Qed.
Theorem C41_cmplx : forall old0 root d, engine cc to_float isL isD old0 cmplx_grammar root d ->
  forall old src s,
  (Forall byte src -> exists f, Eval cc to_float of_int parse_float isL isD root d f old src s <> MFuel) /\
  ((forall ts eof, Tokenize isL isD false false (d_tk d) old src = TzOk ts eof -> fits ts) ->
   forall f s', Eval cc to_float of_int parse_float isL isD root d f old src s = MNil s' ->
   exists ts eof v, Tokenize isL isD false false (d_tk d) old src = TzOk ts eof /\ cmplx_value ts (Some v) /\
     (forall r, cmplx_value ts r -> r = Some v) /\ ust s' = mkE 0 (e_ipt (ust s)) (v :: e_stk (ust s)) (e_rest (ust s))).
Proof.
  intros old0 root d H old src s. apply cmplx_engine in H. destruct H as (-> & He & Hk).
  destruct (calc_C41 cc to_float of_int parse_float isL isD [(FLOAT, m_push); (IMAG, m_pushi)] [] rat_muls cmplx_lit cmplx_bin cmplx_conds cmplx_hlit cmplx_hbin ltac:(vm_compute; auto) d He Hk old src s) as (P & Q).
  split; [exact P|]. intro Hf. apply Q. intros ts eof Ht. apply cmplx_len. eapply Hf. exact Ht.
Qed.
End Cmplx.

(** ** Instances: 1 - 2 - 3*(4 - max(1, 7/2)) + -(1) is -7/2, with a garbage value already on the stack; 1/(2-2) fails; 1 + is
    rejected; a match of a prefix (which Eval never does) is not covered. *)
Definition ratc : calc unit unit rat := rat_calc (fun _ => None).
Definition ex_isL (c : Z) : bool := false.
Definition ex_run (src : string) : option (rat * list rat) + bool :=
  match Cl (cmarker ratc (fun _ => tt)) ex_isL ex_isL 200 (AutoKw new_akw) PropScan.fresh tt rat_grammar with
  | ClOk root d =>
      match Eval ratc (fun _ => tt) (fun _ => tt) (fun _ => inr NSyntax) ex_isL ex_isL root d 2000 PropScan.fresh (s2b src) (mkSt (fun _ => 0) (mkE 3 tt [Some 9%Q] tt)) with
      | MNil s => inl (match fst (Ret (ust s)) with Some v => Some (v, e_stk (ust s)) | None => None end)
      | MPanic (PUser (PvRuntime _ _)) _ => inr true
      | MFail _ _ => inr false
      | _ => inl None
      end
  | _ => inl None
  end.
Example C40_instance : ex_run "1 - 2 - 3*(4 - max(1, 7/2)) + -(1)" = inl (Some (Some (-7 # 2)%Q, [Some (-7 # 2)%Q; Some 9%Q])) /\
  ex_run "1/(2-2)" = inr true /\ ex_run "1 +" = inr false /\ ex_run "max(2" = inr false.
Proof. vm_compute. auto. Qed.
(** fits and the hypotheses on conversions are met, e.g., by exact integers in place of float64 *)
Example C40_number_hypotheses : exists (of_int : Z -> Z) (f_int : Z -> Z), forall n, 0 <= n < 2 ^ 53 -> f_int (of_int n) = n.
Proof. exists (fun z => z), (fun z => z). auto. Qed.

Print Assumptions C40_number_engine.
Print Assumptions C40_number.
Print Assumptions C41_number.
Print Assumptions C40_rat_engine.
Print Assumptions C40_rat.
Print Assumptions C41_rat.
Print Assumptions C40_cmplx_engine.
Print Assumptions C40_cmplx.
Print Assumptions C41_cmplx.
