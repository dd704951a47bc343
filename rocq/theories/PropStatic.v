(** Property C86: the interpreter that tplgen -i generates, beside the one interpreter.New makes. *)
From Coq Require Import String.
From Verif Require Import Base Token Utf8 Utf8Proofs Grammar PegSpec MatchProofs MatchProofs2 MatchProofs3 Wf MatchProofs4 MatchObs.
From Verif Require Import Scanner ScannerSpec ScannerProofs ScanRun ScanInit ScanObs Tokenize TokenizeProofs PropScan Matcher MatcherProofs PropMatcher.
From Verif Require Import MatchInv PegTools Compiler CompilerBack Interp PropInterp PropObj StaticInterp.
Local Open Scope list_scope. Local Open Scope Z_scope.

(** ** Specification *)
(** the grammars that a match of [root] may come to *)
Inductive part {A T : Type} (env : bytes -> option (gr A T)) (root : gr A T) : gr A T -> Prop :=
| Pt_root : part env root root
| Pt_peek : forall g, part env root (GPeek g) -> part env root g
| Pt_not : forall g, part env root (GNot g) -> part env root g
| Pt_and : forall gs g, part env root (GAnd gs) -> In g gs -> part env root g
| Pt_or : forall gs g, part env root (GOr gs) -> In g gs -> part env root g
| Pt_rep0 : forall i g, part env root (GRep0 i g) -> part env root g
| Pt_rep1 : forall i g, part env root (GRep1 i g) -> part env root g
| Pt_rep01 : forall i g, part env root (GRep01 i g) -> part env root g
| Pt_item : forall i a b l, part env root (GList i a b l) -> part env root a
| Pt_sep : forall i a b l, part env root (GList i a b l) -> part env root b
| Pt_var : forall n g, part env root (GVar n) -> env n = Some g -> part env root g
| Pt_named : forall n g, part env root (GNamed n g) -> part env root g
| Pt_act : forall a g, part env root (GAct g a) -> part env root g
| Pt_trans : forall t g, part env root (GTrans g t) -> part env root g.

(** a token of a text that Tokenize accepts *)
Definition from_text (t : token) : Prop :=
  exists isL isD mC mS tk old src ts eof, Forall byte src /\ tk_ok tk /\ Tokenize isL isD mC mS tk old src = TzOk ts eof /\ In t ts.
(** integers are spelled in decimal *)
Definition decimal_only (t : token) : Prop := tkind t = INT -> ~ leading_zero (tlit t).

(** ** Two clients whose actions do the same make matching the same *)
Section Ext.
Context {A T P U V : Type}.
Variable env : bytes -> option (gr A T).
Variables c1 c2 : client A T P U V.
Variable root : gr A T.
Variable Q : token -> Prop.
Hypothesis Hact : forall g a f src s n s' l, part env root (GAct g a) -> Forall Q src -> gmatch env c1 f g src s = Ret n None s' ->
  c_act c1 a (firstn n src) l s' = c_act c2 a (firstn n src) l s'.
Hypothesis Hbegin : forall t s, c_begin c1 t s = c_begin c2 t s.
Hypothesis Hend : forall t v ok s, c_end c1 t v ok s = c_end c2 t v ok s.
Notation part := (part env root).
Definition kept (g : gr A T) : Prop := part g \/ exists a b, g = GAnd [b; a] /\ part a /\ part b.

Lemma qskip : forall n src, Forall Q src -> Forall Q (skipn n src).
Proof. induction n as [|n IH]; intros [|t src] H; cbn; auto. inversion H; auto. Qed.
Lemma gm_ext : forall f g src s, kept g -> Forall Q src -> gmatch env c1 f g src s = gmatch env c2 f g src s.
Proof.
  induction f as [|f IH]; intros g src s K HQ; [reflexivity|]. cbn [gmatch].
  assert (Hrep : forall k g src cnt n s, kept g -> Forall Q src -> rep_loop k (gmatch env c1 f) g src cnt n s = rep_loop k (gmatch env c2 f) g src cnt n s).
  { induction k as [|k IHk]; intros g0 src0 cnt n s0 K0 H0; [reflexivity|]. cbn [rep_loop]. rewrite <- IH by assumption.
    destruct (gmatch env c1 f g0 src0 s0) as [n1 [e|] s1|p s1|]; auto. apply IHk; [assumption|apply qskip; assumption]. }
  assert (Hand : forall gs p src ff n s, (forall g, In g gs -> kept g) -> Forall Q src -> and_loop (gmatch env c1 f) p src gs ff n s = and_loop (gmatch env c2 f) p src gs ff n s).
  { induction gs as [|g0 gs IHg]; intros p0 src0 ff n s0 K0 H0; [reflexivity|].
    assert (Hd : g0 = GNil \/ forall c : client A T P U V, and_loop (gmatch env c f) p0 src0 (g0 :: gs) ff n s0 =
        match gmatch env c f g0 (skipn n src0) s0 with
        | Ret n1 None s1 => and_loop (gmatch env c f) p0 src0 gs ff (n + n1) s1
        | Ret n1 (Some e) s1 => if ff then Panic (PMatch (MErr p0 src0 (Some e) (n + n1))) s1 else Ret (n + n1) (Some e) s1
        | r => r
        end) by (destruct g0; auto).
    destruct Hd as [-> | Hd]; [cbn [and_loop]; apply IHg; [intros; apply K0; right; assumption|exact H0]|]. rewrite !Hd, <- IH by (try (apply K0; left; reflexivity); apply qskip; exact H0).
    destruct (gmatch env c1 f g0 (skipn n src0) s0) as [n1 [e|] s1|p s1|]; auto. apply IHg; [intros; apply K0; right; assumption|exact H0]. }
  assert (Hor : forall gs p src nm em me s, (forall g, In g gs -> kept g) -> Forall Q src -> or_loop (gmatch env c1 f) p src gs nm em me s = or_loop (gmatch env c2 f) p src gs nm em me s).
  { induction gs as [|g0 gs IHg]; intros p0 src0 nm em me s0 K0 H0; [reflexivity|]. cbn [or_loop]. rewrite <- IH by (try (apply K0; left; reflexivity); exact H0).
    destruct (gmatch env c1 f g0 src0 s0) as [n1 [e|] s1|p s1|]; auto.
    assert (K1 : forall g, In g gs -> kept g) by (intros; apply K0; right; assumption).
    destruct (nm <=? n1)%nat; [destruct (n1 =? nm)%nat|]; apply IHg; assumption. }
  destruct K as [K|(ga & gb & -> & Ka & Kb)]; [|cbn [gstep]; apply Hand; [intros g [<-|[<-|[]]]; left; assumption|exact HQ]].
  destruct g; cbn [gstep]; try reflexivity.
  - rewrite <- IH; [reflexivity|left; econstructor; exact K|exact HQ].
  - rewrite <- IH; [reflexivity|left; eapply Pt_not; exact K|exact HQ].
  - apply Hand; [intros g Hg; left; eapply Pt_and; eassumption|exact HQ].
  - apply Hor; [intros g Hg; left; eapply Pt_or; eassumption|exact HQ].
  - rewrite <- Hrep; [reflexivity|left; eapply Pt_rep0; exact K|exact HQ].
  - assert (K1 : kept g) by (left; eapply Pt_rep1; exact K). rewrite <- IH by assumption. destruct (gmatch env c1 f g src s) as [n1 [e|] s1|p s1|]; try reflexivity.
    rewrite <- Hrep; [reflexivity|exact K1|apply qskip; exact HQ].
  - rewrite <- IH; [reflexivity|left; eapply Pt_rep01; exact K|exact HQ].
  - assert (K1 : part g1) by (eapply Pt_item; exact K). assert (K2 : part g2) by (eapply Pt_sep; exact K).
    rewrite <- IH by (try (left; exact K1); exact HQ). destruct (gmatch env c1 f g1 src s) as [n1 [e|] s1|p s1|]; try reflexivity.
    rewrite <- Hrep; [reflexivity|right; exists g1, g2; auto|apply qskip; exact HQ].
  - destruct (env name) eqn:En; [|reflexivity]. apply IH; [left; eapply Pt_var; eassumption|exact HQ].
  - apply IH; [left; eapply Pt_named; exact K|exact HQ].
  - rewrite <- IH by (try (left; eapply Pt_act; exact K); exact HQ). destruct (gmatch env c1 f g src s) as [n1 [e|] s1|p s1|] eqn:Eg; try reflexivity.
    rewrite (Hact g a f src s n1 s1 (glen s1 g) K HQ Eg). reflexivity.
  - rewrite <- Hbegin. destruct (c_begin c1 t s) as [v s0]. rewrite <- IH by (try (left; eapply Pt_trans; exact K); exact HQ). destruct (gmatch env c1 f g src s0) as [n1 e s1|p s1|]; try reflexivity.
    rewrite <- Hend. reflexivity.
Qed.
End Ext.

(** ** Literals *)
Lemma float_spelling : forall t, from_text t -> tkind t = FLOAT -> number FLOAT (tlit t).
Proof.
  intros t (isL & isD & mC & mS & tk & old & src & ts & eof & Hb & Hk & Ht & Hi) K.
  destruct (tz_run isL isD mC mS src Hb tk Hk old ts eof Ht) as (n & ts0 & s' & E & -> & Ke & _ & Ee).
  apply in_map_iff in Hi. destruct Hi as (t0 & E0 & Hi).
  assert (Et : tkind t0 = FLOAT /\ tlit t0 = tlit t).
  { subst t. destruct tk as [|kw]; [auto|]. cbn [tk_scan] in *. unfold KwScan in *. destruct (tkind t0 =? IDENT) eqn:Ei; [|auto].
    destruct (kw_find kw (tlit t0)) as [v|] eqn:Ef; [|auto]. specialize (Hk _ _ Ef). cbn [tkind] in K. subst v. vm_compute in Hk. congruence. }
  destruct Et as (K0 & L0). rewrite <- L0.
  destruct (C65_no_error_means_well_formed isL isD mC mS src old Hb (S n) ts0 eof s' E Ke Ee) as (b & ps & Ep & _ & _ & _ & W).
  assert (Hp : In t0 (map p_tok ps)) by (rewrite <- Ep; apply in_app_iff; left; exact Hi).
  apply in_map_iff in Hp. destruct Hp as (p & E1 & Hp). apply in_split in Hp. destruct Hp as (ps1 & ps2 & Hp).
  destruct (W ps1 p ps2 Hp) as (_ & Sp & Wf). rewrite E1 in *.
  destruct Wf as [(Wf & _)|Wf]; [rewrite K0 in Wf; discriminate|]. destruct Sp as [Lx|((Sp & _) & _)]; [|rewrite K0 in Sp; discriminate].
  rewrite K0 in Lx. remember FLOAT as k eqn:Ek. remember (tlit t0) as l. remember (p_text p) as x. clear - Lx Ek. destruct Lx; try discriminate Ek; subst k.
  - assumption.
  - exfalso. revert H0. apply (not_op isL isD). cbn; tauto.
Qed.
Lemma uint_stop : forall base s n c, 0 <= base -> In c s -> (digval c = None \/ exists d, digval c = Some d /\ base <= d) -> exists e, uint_loop base n s = inr e.
Proof.
  intros base. induction s as [|c0 s IH]; intros n c Hb Hi Hc; [contradiction|]. destruct Hi as [->|Hi]; cbn [uint_loop].
  - destruct Hc as [-> |(d & -> & L)]; [eauto|]. destruct (Z.leb_spec base d); [eauto|lia].
  - destruct (digval c0) as [d|]; [|eauto]. destruct (base <=? d); [eauto|]. destruct (2 ^ 64 <=? n * base + d); [eauto|]. eapply IH; eauto.
Qed.
Lemma strint_stop : forall base s c, 0 <= base -> In c s -> c <> 43 -> c <> 45 -> (digval c = None \/ exists d, digval c = Some d /\ base <= d) -> exists e, StrInt base s = inr e.
Proof.
  intros base s c Hb Hi N1 N2 Hc. unfold StrInt. destruct s as [|c0 r]; [contradiction|].
  assert (X : exists e, StrUint base (if (c0 =? 43) || (c0 =? 45) then r else c0 :: r) = inr e).
  { unfold StrUint. destruct ((c0 =? 43) || (c0 =? 45)) eqn:Es.
    - destruct Hi as [->|Hi]; [apply orb_true_iff in Es; rewrite !Z.eqb_eq in Es; lia|]. destruct r as [|c1 r]; [contradiction|]. eapply uint_stop; eauto.
    - eapply uint_stop; eauto. }
  destruct X as (e & ->). eauto.
Qed.

Section Lits.
Context {F : Type}.
Variable of_int : Z -> F.
Variable parse_float : bytes -> F + nerr.
Lemma float_reads : forall t, from_text t -> tkind t = FLOAT -> ParseFloat of_int parse_float (tlit t) = Val (parse_float (tlit t)).
Proof.
  intros t Ht K. pose proof (float_spelling t Ht K) as N. remember FLOAT as k eqn:Ek. destruct N.
  - discriminate Ek.
  - unfold number_kind in Ek. destruct im as [|]; [|discriminate Ek]. cbn [is_nil negb] in Ek.
    assert (C : exists c, In c (fr ++ ex ++ []) /\ (c = 46 \/ c = 101 \/ c = 69)).
    { destruct H1 as [-> |(ds1 & -> & _)]; [|exists 46; cbn; auto]. destruct H2 as [-> |(e & sg & ds2 & -> & He & _)]; [discriminate Ek|]. exists e. cbn. tauto. }
    destruct C as (c & Hc & Ec). destruct ds as [|d ds]; [congruence|]. cbn [app]. destruct (Z.eq_dec d 48) as [-> |Nd].
    + assert (Hs : In c (ds ++ fr ++ ex ++ [])) by (apply in_app_iff; right; exact Hc). destruct (ds ++ fr ++ ex ++ []) as [|x r] eqn:Er; [contradiction|]. cbn [ParseFloat].
      assert (X : x <> 120 /\ x <> 88).
      { destruct ds as [|d1 ds]; cbn [app] in Er.
        - destruct H1 as [-> |(ds1 & -> & _)]; [|injection Er as <- _; lia]. destruct H2 as [-> |(e & sg & ds2 & -> & He & _)]; [discriminate Er|injection Er as <- _; lia].
        - injection Er as <- _. inversion H0 as [|? ? _ H5]; subst. inversion H5; subst. unfold digit in *. lia. }
      destruct X as (X1 & X2). apply Z.eqb_neq in X1, X2. rewrite X1, X2. cbn [orb].
      destruct (strint_stop 8 (x :: r) c) as (e & ->); try lia; [exact Hs| |reflexivity].
      destruct Ec as [-> |[-> | ->]]; [left; reflexivity|right; exists 14; split; [reflexivity|lia]|right; exists 14; split; [reflexivity|lia]].
    + destruct d as [|d|d]; try reflexivity. do 6 (destruct d as [d|d|]; try reflexivity). congruence.
  - reflexivity.
Qed.
Lemma plain_int : forall l, l <> [] -> ~ leading_zero l -> ParseInt l = Val (StrInt 10 l).
Proof.
  intros [|c r] N L; [congruence|]. destruct (Z.eq_dec c 48) as [-> |Nc].
  - destruct r as [|x r]; [reflexivity|]. exfalso. apply L. exists x, r. reflexivity.
  - destruct c as [|p|p]; try reflexivity. do 6 (destruct p as [p|p|]; try reflexivity). congruence.
Qed.
Lemma plain_float : parse_float [48] = inl (of_int 0) -> forall l, l <> [] -> ~ leading_zero l -> ParseFloat of_int parse_float l = Val (parse_float l).
Proof.
  intros Hz [|c r] N L; [congruence|]. destruct (Z.eq_dec c 48) as [-> |Nc].
  - destruct r as [|x r]; [rewrite Hz; reflexivity|]. exfalso. apply L. exists x, r. reflexivity.
  - destruct c as [|p|p]; try reflexivity. do 6 (destruct p as [p|p|]; try reflexivity). congruence.
Qed.
End Lits.
Lemma int_from_text : forall t, from_text t -> tkind t = INT -> int_token t.
Proof. intros t (isL & isD & mC & mS & tk & old & src & ts & eof & H1 & H2 & H3 & H4) K. exists isL, isD, mC, mS, tk, old, src, ts, eof. auto. Qed.
Lemma int_nonempty : forall t, int_token t -> tlit t <> [].
Proof. intros t Ht. destruct (int_spelling t Ht) as (Hn & _). destruct Hn; [discriminate| |discriminate]. destruct ds; [congruence|discriminate]. Qed.

Section Static.
Context {F X I E R : Type}.
Notation rval := (rval F X I E).
Notation gofn := (gofn F X I E R).
Notation S := (est I E R).
Notation panic := (panic (X := X)).
Variable emb : E -> rval.
Variable pushret : list rval -> list E -> list E * option (err X).
Variable to_float : val F X I E -> F.
Variable of_int : Z -> F.
Variable parse_float : bytes -> F + nerr.
Variable fline : list token -> X.
Variable fntable : bytes -> option gofn.
Variables tstk tipt : rtype.
Variable callfn : option (gofn -> S -> S + (panic * S)).
Notation fit_mark := (fit_mark fntable tstk tipt).
Notation smarker := (smarker fntable tstk tipt).
Notation imarker := (imarker fntable tstk tipt).
Notation SAct := (siact emb pushret to_float parse_float fline fntable tstk tipt callfn).
Notation IAct := (iact emb pushret to_float of_int parse_float fntable tstk tipt callfn).
Notation SCl := (sclient emb pushret to_float parse_float fline fntable tstk tipt callfn).
Notation ICl := (iclient emb pushret to_float of_int parse_float fntable tstk tipt callfn).
Definition takes_recv (fn : gofn) : Prop := takes fn tstk \/ takes fn tipt.

(** *** Marks *)
(** the functions of a generated interpreter that take the stack or the interpreter first have at most one parameter more *)
Definition sfit_mark (mark : bytes) : Prop :=
  fit_mark mark /\ forall fn, fntable (36 :: mark) = Some fn -> takes_recv fn -> (length (fn_in fn) <= 2)%nat.
Lemma smarker_is : forall (M : Type) g mark (m : M), smarker g mark m =
  match imarker g mark m with
  | inr r => inr r
  | inl r => match fntable (36 :: mark) with
             | Some fn => if negb (recvr tstk tipt fn =? 0)%nat && (length (fn_in fn) =? 3)%nat then inr (MPTooManyParams mark, m) else inl r
             | None => inl r
             end
  end \/ exists fn p, fntable (36 :: mark) = Some fn /\ takes_recv fn /\ length (fn_in fn) = 3%nat /\ imarker g mark m = inr (p, m) /\ smarker g mark m = inr (MPTooManyParams mark, m).
Proof.
  intros M g mark m. unfold StaticInterp.smarker, Interp.imarker, fn_of. destruct (fntable (36 :: mark)) as [fn|] eqn:Ef; [|left; destruct (beq mark m_mute || beq mark m_unmute || beq mark m_tr); reflexivity].
  destruct (negb (fn_func fn)); [left; reflexivity|]. destruct (fn_variadic fn); [left; reflexivity|]. destruct (fn_in fn) as [|t ins] eqn:Ei; [left; reflexivity|].
  destruct (recvr tstk tipt fn =? 0)%nat eqn:Er; cbn [negb andb].
  - left. destruct (isLen mark); reflexivity.
  - rewrite <- Ei. destruct (Nat.ltb_spec 3 (length (fn_in fn))); [left; destruct (Nat.ltb_spec 2 (length (fn_in fn))); [reflexivity|lia]|].
    destruct (Nat.eqb_spec (length (fn_in fn)) 3) as [E3|N3].
    + destruct (Nat.ltb_spec 2 (length (fn_in fn))); [|lia].
      destruct (match fn_out fn with [] => None | [t1] => if teq t1 typeError then None else Some (MPRetType mark) | _ => Some (MPTooManyRets mark) end) as [p|] eqn:Eo.
      * right. exists fn, p. split; [reflexivity|]. split; [apply recvr_iff; exact Er|]. auto.
      * destruct (isLen mark); [left; reflexivity|]. right. exists fn, MPIndex. split; [reflexivity|]. split; [apply recvr_iff; exact Er|]. auto.
    + left. destruct (Nat.ltb_spec 2 (length (fn_in fn))); [lia|].
      destruct (match fn_out fn with [] => None | [t1] => if teq t1 typeError then None else Some (MPRetType mark) | _ => Some (MPTooManyRets mark) end); [reflexivity|]. destruct (isLen mark); reflexivity.
Qed.
(** a generated interpreter attaches the actions of those marks, and its constructor panics at any other: so it accepts less than New does, by
    exactly the functions of three parameters *)
Theorem C86_marks : forall (M : Type) g mark (m : M),
  (sfit_mark mark -> smarker g mark m = inl (GAct g mark, m) /\ imarker g mark m = inl (GAct g mark, m)) /\
  (~ sfit_mark mark -> exists p, smarker g mark m = inr (p, m)).
Proof.
  intros M g mark m. destruct (C81_marks fntable tstk tipt M g mark m) as (A & B). split.
  - intros (Hf & H2). specialize (A Hf). split; [|exact A]. destruct (smarker_is M g mark m) as [Es|(fn & p & Ef & _ & _ & Ei & _)]; [|congruence]. rewrite Es, A.
    destruct (fntable (36 :: mark)) as [fn|] eqn:Ef; [|reflexivity]. destruct (recvr tstk tipt fn =? 0)%nat eqn:Er; [reflexivity|]. apply recvr_iff in Er. specialize (H2 fn eq_refl Er).
    destruct (Nat.eqb_spec (length (fn_in fn)) 3); [lia|reflexivity].
  - intro N. destruct (smarker_is M g mark m) as [Es|(fn & p & Ef & _ & _ & Ei & Es)]; [|eauto]. rewrite Es.
    assert (D : fit_mark mark \/ ~ fit_mark mark) by (rewrite <- iokm_fit; destruct (iokm fntable tstk tipt mark); [left; reflexivity|right; discriminate]).
    destruct D as [D|D]; [|destruct (B D) as (p & ->); eauto]. rewrite (A D).
    destruct (fntable (36 :: mark)) as [fn|] eqn:Ef; [|exfalso; apply N; split; [exact D|congruence]].
    destruct (negb (recvr tstk tipt fn =? 0)%nat && (length (fn_in fn) =? 3)%nat) eqn:Q; [eauto|]. exfalso. apply N. split; [exact D|]. intros fn' E' T. assert (fn' = fn) by congruence. subst fn'.
    apply recvr_iff in T. rewrite T in Q. cbn [negb andb] in Q. apply Nat.eqb_neq in Q. destruct D as [D _|fn' c r E1 _ _ _ K _ _]; [congruence|]. assert (fn' = fn) by congruence. subst fn'.
    destruct (K (proj1 (recvr_iff tstk tipt fn) T)) as (L & _). lia.
Qed.

(** *** Literals *)
Notation IGet := (@GetValue F X I E of_int parse_float).
Notation SGet := (@sGetValue F X I E parse_float).
(** integer literals are read in decimal: a hexadecimal one is an error *)
Theorem C86_int_literal : forall t, int_token t -> forall ty, t_kind ty = KInt \/ t_kind ty = KInt64 ->
  let read v := inl (Some (mkVal (match t_kind ty with KInt => typeInt | _ => typeInt64 end) (DInt v))) in
  (hex_lit (tlit t) -> SGet ty (tlit t) = inr (Some NSyntax)) /\
  (~ hex_lit (tlit t) -> SGet ty (tlit t) = if value 10 (tlit t) <? 2 ^ 63 then read (value 10 (tlit t)) else inr (Some NRange)).
Proof.
  intros t Ht ty K read. destruct (int_spelling t Ht) as (Hn & Hw).
  assert (G : forall e, StrInt 10 (tlit t) = e -> SGet ty (tlit t) = match e with inl v => read v | inr e => inr (Some e) end).
  { intros e <-. unfold sGetValue, read. destruct K as [-> | ->]; reflexivity. }
  assert (D : forall l, l <> [] -> Forall (fun b => digval b = Some (hexval b) /\ 0 <= hexval b < 10) l -> StrInt 10 l = if value 10 l <? 2 ^ 63 then inl (value 10 l) else inr NRange).
  { intros l Hl H. apply strint_value; [lia|exact Hl|exact H]. }
  destruct (int_cases _ Hn Hw) as [Q | [(x & r & Q & Hx & Hr & Hd) | [(x & r & Q & Hx1 & Hx2 & Hd) | (c & r & Q & Hc & Hd)]]]; rewrite Q in *.
  - split; [intros (x & r & B & _); discriminate B|]. intros _. rewrite (G _ eq_refl). reflexivity.
  - split; [|intro N; exfalso; apply N; exists x, r; auto]. intros _. rewrite (G _ eq_refl). destruct Hx as [-> | ->]; reflexivity.
  - split; [intros (x' & r' & B & Hh); injection B as <- <-; lia|]. intros _. rewrite (G _ (D (48 :: x :: r) ltac:(discriminate) ltac:(constructor; [vm_compute; intuition congruence|eapply Forall_impl; [|exact Hd]; cbn; intros b (B1 & B2); split; [exact B1|lia]]))).
    destruct (value 10 (48 :: x :: r) <? 2 ^ 63); reflexivity.
  - split; [intros (x' & r' & B & _); injection B as -> _; congruence|]. intros _. rewrite (G _ (D (c :: r) ltac:(discriminate) Hd)). destruct (value 10 (c :: r) <? 2 ^ 63); reflexivity.
Qed.
(** the two read the same from decimal integers and from floats, and from anything as a string *)
Hypothesis zero_reads : parse_float [48] = inl (of_int 0).
Theorem C86_literal : forall t ty, from_text t -> decimal_only t ->
  (t_kind ty = KFloat64 -> tkind t = INT \/ tkind t = FLOAT) -> (t_kind ty = KInt \/ t_kind ty = KInt64 -> tkind t = INT) ->
  IGet ty (tlit t) = Val (SGet ty (tlit t)).
Proof.
  intros t ty Ht Hd Kf Ki. unfold GetValue, sGetValue. destruct (t_kind ty); try reflexivity.
  - specialize (Ki ltac:(auto)). rewrite plain_int by (try (apply int_nonempty; apply int_from_text; assumption); apply Hd; assumption). destruct (StrInt 10 (tlit t)); reflexivity.
  - specialize (Ki ltac:(auto)). rewrite plain_int by (try (apply int_nonempty; apply int_from_text; assumption); apply Hd; assumption). destruct (StrInt 10 (tlit t)); reflexivity.
  - destruct (Kf eq_refl) as [Kt|Kt].
    + rewrite plain_float by (try exact zero_reads; try (apply int_nonempty; apply int_from_text; assumption); apply Hd; assumption). destruct (parse_float (tlit t)); reflexivity.
    + rewrite float_reads by assumption. destruct (parse_float (tlit t)); reflexivity.
Qed.

(** *** Evaluation *)
(** what a function that takes the stack or the interpreter takes besides *)
Inductive plain_arg (g : gr bytes Empty_set) (mark : bytes) (ty : rtype) : Prop :=
| Pl_length : capital mark -> plain_arg g mark ty
| Pl_tokens : t_id ty = t_id typeIntf -> plain_arg g mark ty
| Pl_engine : t_id ty = t_id typeEng -> plain_arg g mark ty
| Pl_string : t_kind ty = KString -> t_id ty <> t_id typeCtx -> t_id ty <> t_id typeFline -> plain_arg g mark ty
| Pl_float : t_kind ty = KFloat64 -> g = GTok INT \/ g = GTok FLOAT -> t_id ty <> t_id typeCtx -> t_id ty <> t_id typeFline -> plain_arg g mark ty
| Pl_int : t_kind ty = KInt \/ t_kind ty = KInt64 -> g = GTok INT -> t_id ty <> t_id typeCtx -> t_id ty <> t_id typeFline -> plain_arg g mark ty.
(** all marks of the grammar fit, and numbers are wanted of number tokens only *)
Definition plain_marks (env : bytes -> option (gr bytes Empty_set)) (root : gr bytes Empty_set) : Prop :=
  forall g mark fn, part env root (GAct g mark) -> fntable (36 :: mark) = Some fn -> takes_recv fn ->
  forall t0 l, fn_in fn = t0 :: l -> l = [] \/ exists ty, l = [ty] /\ plain_arg g mark ty.

Lemma cap_len : forall mark, isLen mark = Some true <-> capital mark.
Proof.
  intro mark. pose proof (isLen_cases mark) as C. destruct (isLen mark) as [[|]|]; split; try congruence; try tauto.
  intro K. destruct C as [-> | ->]; destruct K as (c & r & [(Q & N)|Q] & B); try discriminate Q. injection Q as <- <-. congruence.
Qed.
Lemma same_arg : forall g mark ty ts len, plain_arg g mark ty -> (forall t r, ts = t :: r -> from_text t /\ decimal_only t) ->
  (forall k t r, g = GTok k -> ts = t :: r -> tkind t = k \/ (tkind t = INT /\ k = FLOAT)) ->
  @arg1 F X I E of_int parse_float mark ts len ty = @sarg1 F X I E parse_float fline mark ts len ty.
Proof.
  intros g mark ty ts len Pa Ht Hg. unfold arg1, sarg1, teq.
  assert (C : isLen mark = Some true \/ forall (Y : Type) (a b : Y), match isLen mark with Some true => a | _ => b end = b) by (destruct (isLen mark) as [[|]|]; auto).
  destruct C as [-> |C]; [reflexivity|]. rewrite !C.
  assert (NC : ~ capital mark) by (intro K; apply cap_len in K; specialize (C nat 0%nat 1%nat); rewrite K in C; discriminate C).
  destruct Pa as [K|K|K|K N1 N2|K Kg N1 N2|K Kg N1 N2].
  - contradiction.
  - rewrite K. reflexivity.
  - rewrite K. reflexivity.
  - apply Nat.eqb_neq in N1, N2. rewrite N1, N2. destruct (t_id ty =? t_id typeIntf)%nat; [reflexivity|]. destruct (t_id ty =? t_id typeEng)%nat; [reflexivity|].
    destruct ts as [|t ts]; [reflexivity|]. unfold GetValue, sGetValue. rewrite K. reflexivity.
  - apply Nat.eqb_neq in N1, N2. rewrite N1, N2. destruct (t_id ty =? t_id typeIntf)%nat; [reflexivity|]. destruct (t_id ty =? t_id typeEng)%nat; [reflexivity|].
    destruct ts as [|t ts]; [reflexivity|]. destruct (Ht _ _ eq_refl) as (H1 & H2). rewrite C86_literal; try assumption; [destruct (SGet ty (tlit t)); reflexivity| |].
    + intros _. destruct Kg as [-> | ->]; destruct (Hg _ _ _ eq_refl eq_refl) as [H|(H & _)]; auto.
    + rewrite K. intros [B|B]; discriminate B.
  - apply Nat.eqb_neq in N1, N2. rewrite N1, N2. destruct (t_id ty =? t_id typeIntf)%nat; [reflexivity|]. destruct (t_id ty =? t_id typeEng)%nat; [reflexivity|].
    destruct ts as [|t ts]; [reflexivity|]. destruct (Ht _ _ eq_refl) as (H1 & H2). rewrite C86_literal; try assumption; [destruct (SGet ty (tlit t)); reflexivity| |].
    + intro B. destruct K as [K|K]; rewrite K in B; discriminate B.
    + intros _. destruct (Hg _ _ _ Kg eq_refl) as [H|(H & _)]; exact H.
Qed.
Lemma same_act : forall g mark ts len s,
  (forall fn, fntable (36 :: mark) = Some fn -> takes_recv fn -> forall t0 l, fn_in fn = t0 :: l -> l = [] \/ exists ty, l = [ty] /\ plain_arg g mark ty) ->
  (forall t r, ts = t :: r -> from_text t /\ decimal_only t) -> (forall k t r, g = GTok k -> ts = t :: r -> tkind t = k \/ (tkind t = INT /\ k = FLOAT)) ->
  IAct mark ts len s = SAct mark ts len s.
Proof.
  intros g mark ts len s Pm Ht Hg. unfold iact, siact. unfold fn_of. destruct (fntable (36 :: mark)) as [fn|] eqn:Ef; [|reflexivity]. specialize (Pm fn eq_refl).
  destruct (silenced mark (e_mute s)); [reflexivity|].
  assert (B : body emb pushret to_float of_int parse_float tstk tipt callfn mark fn ts len s = sbody emb pushret to_float parse_float fline tstk tipt callfn mark fn ts len s); [|rewrite B; reflexivity].
  unfold body, sbody. destruct (recvr tstk tipt fn =? 0)%nat eqn:Er; [reflexivity|]. apply recvr_iff in Er. specialize (Pm Er).
  destruct (fn_in fn) as [|t0 l]; [reflexivity|]. destruct (Pm t0 l eq_refl) as [-> |(ty & -> & Pa)]; [reflexivity|]. rewrite (same_arg g mark ty ts len Pa Ht Hg). reflexivity.
Qed.
Lemma same_gmatch : forall env root f src s, plain_marks env root -> Forall (fun t => from_text t /\ decimal_only t) src ->
  gmatch env (lift ICl) f root src s = gmatch env (lift SCl) f root src s.
Proof.
  intros env root f src s Pm Hq. apply (gm_ext env (lift ICl) (lift SCl) root (fun t => from_text t /\ decimal_only t)); [|intros []|intros []|left; constructor|exact Hq].
  clear - Pm zero_reads. intros g a f src s n s' l Hp Hq H. cbn [lift c_act u_act sclient iclient]. rewrite (same_act g a (firstn n src) l (ust s')); [reflexivity|intros fn Ef; exact (Pm g a fn Hp Ef)| |].
  - intros t r E0. rewrite Forall_forall in Hq. apply Hq. rewrite <- (firstn_skipn n src), E0. left. reflexivity.
  - intros k t r -> E0. destruct f as [|f]; [discriminate H|]. cbn [gmatch gstep] in H. destruct src as [|t1 src]; [discriminate H|].
    destruct ((tkind t1 =? k) || ((tkind t1 =? INT) && (k =? FLOAT))) eqn:Ek; [|discriminate H]. injection H as <- _. cbn [firstn] in E0. injection E0 as -> _.
    apply orb_true_iff in Ek. rewrite andb_true_iff, !Z.eqb_eq in Ek. exact Ek.
Qed.
(** Eval, and EvalCode of tokens and of text, end in the same way, in the same state, by the same panic or error, in the generated interpreter as in the one of New *)
Theorem C86_eval : forall env root isL isD mC mS f tk old src s, plain_marks env root -> Forall byte src -> tk_ok tk ->
  (forall ts eof, Tokenize isL isD mC mS tk old src = TzOk ts eof -> Forall decimal_only ts) ->
  MatchExactly env (lift SCl) isL isD mC mS iinit f root tk old src s = MatchExactly env (lift ICl) isL isD mC mS iinit f root tk old src s.
Proof.
  intros env root isL isD mC mS f tk old src s Pm Hb Hk Hd. unfold MatchExactly, Match.
  assert (D : root = GNil \/ forall (Y : Type) (a b : Y), match root with GNil => a | _ => b end = b) by (destruct root; auto).
  destruct D as [-> | D]; [reflexivity|]. rewrite !D. destruct (Tokenize isL isD mC mS tk old src) as [ts eof|eof e|] eqn:Et; [|reflexivity|reflexivity].
  rewrite same_gmatch; [reflexivity|exact Pm|]. specialize (Hd ts eof eq_refl). rewrite Forall_forall in *. intros t Hi. split; [|apply Hd; exact Hi].
  exists isL, isD, mC, mS, tk, old, src, ts, eof. rewrite Forall_forall. auto.
Qed.
Theorem C86_eval_code : forall (M : Type) (d : dst bytes Empty_set M) f ipt name doc s, (forall g, find name (d_grams d) = Some g -> plain_marks (cenv d) g) ->
  Forall from_text doc -> Forall decimal_only doc ->
  sEvalCode emb pushret to_float parse_float fline fntable tstk tipt callfn d f ipt name doc s = EvalCode emb pushret to_float of_int parse_float fntable tstk tipt callfn d f ipt name doc s.
Proof.
  intros M d f ipt name doc s Pm H1 H2. unfold sEvalCode, EvalCode, EvalSubTokens. destruct (find name (d_grams d)) as [g|]; [|reflexivity].
  rewrite same_gmatch; [reflexivity|apply Pm; reflexivity|]. rewrite Forall_forall in *. auto.
Qed.
Theorem C86_eval_code_text : forall (M : Type) (d : dst bytes Empty_set M) isL isD mC mS f tk old ipt name text s, (forall g, find name (d_grams d) = Some g -> plain_marks (cenv d) g) ->
  Forall byte text -> tk_ok tk -> (forall ts eof, Tokenize isL isD mC mS tk old text = TzOk ts eof -> Forall decimal_only ts) ->
  sEvalCodeText emb pushret to_float parse_float fline fntable tstk tipt callfn d isL isD mC mS f tk old ipt name text s =
  EvalCodeText emb pushret to_float of_int parse_float fntable tstk tipt callfn d isL isD mC mS f tk old ipt name text s.
Proof.
  intros M d isL isD mC mS f tk old ipt name text s Pm Hb Hk Hd. unfold sEvalCodeText, EvalCodeText, EvalSubText. destruct (find name (d_grams d)) as [g|]; [|reflexivity]. specialize (Pm g eq_refl).
  unfold MatchExactly, Match. assert (D : g = GNil \/ forall (Y : Type) (a b : Y), match g with GNil => a | _ => b end = b) by (destruct g; auto).
  destruct D as [-> | D]; [reflexivity|]. rewrite !D. destruct (Tokenize isL isD mC mS tk old text) as [ts eof|eof e|] eqn:Et; [|reflexivity|reflexivity].
  rewrite same_gmatch; [reflexivity|exact Pm|]. specialize (Hd ts eof eq_refl). rewrite Forall_forall in *. intros t Hi. split; [|apply Hd; exact Hi].
  exists isL, isD, mC, mS, tk, old, text, ts, eof. rewrite Forall_forall. auto.
Qed.

(** *** What differs besides *)
(** a *Context argument: New passes the tokens with their bounds, a generated interpreter raises a RuntimeError *)
Theorem C86_context : forall mark fn ts len s, fntable (36 :: mark) = Some fn -> takes_recv fn -> (exists t0, fn_in fn = [t0; typeCtx]) ->
  ~ capital mark -> runs mark (e_mute s) -> exists e, SAct mark ts len s = inr (PUser (PvRuntime e ts), s) /\ e = match ts with [] => ERuntime | _ => EOfStr (SBadArg mark None) end.
Proof.
  intros mark fn ts len s Ef T (t0 & Ei) NC Rn. unfold siact, fn_of. rewrite Ef. apply runs_dec in Rn. rewrite Rn. apply recvr_iff in T. unfold sbody. rewrite T, Ei. unfold sarg1.
  assert (C : isLen mark = Some true \/ forall (Y : Type) (a b : Y), match isLen mark with Some true => a | _ => b end = b) by (destruct (isLen mark) as [[|]|]; auto).
  destruct C as [C|C]; [apply cap_len in C; contradiction|]. rewrite C. cbn. destruct ts; eexists; split; reflexivity.
Qed.
(** a *FileLine argument: a generated interpreter passes the file and line of the tokens, New's raises a RuntimeError *)
Theorem C86_fileline : forall mark fn ts len s, fntable (36 :: mark) = Some fn -> takes_recv fn -> (exists t0, fn_in fn = [t0; typeFline]) -> ~ capital mark -> runs mark (e_mute s) ->
  (exists recv, SAct mark ts len s = match raise_ret (fn_call fn [recv; Some (mkVal typeFline (DOther (fline ts)))] s) with inl s' => inl s' | inr (p, s') => inr (wrap ts p, s') end) /\
  exists e, IAct mark ts len s = inr (PUser (PvRuntime e ts), s).
Proof.
  intros mark fn ts len s Ef T (t0 & Ei) NC Rn. unfold iact, siact, fn_of. rewrite Ef. apply runs_dec in Rn. rewrite Rn. apply recvr_iff in T. unfold body, sbody. rewrite T, Ei. unfold arg1, sarg1.
  assert (C : isLen mark = Some true \/ forall (Y : Type) (a b : Y), match isLen mark with Some true => a | _ => b end = b) by (destruct (isLen mark) as [[|]|]; auto).
  destruct C as [C|C]; [apply cap_len in C; contradiction|]. rewrite !C. split; [eexists; reflexivity|]. cbn. destruct ts; eexists; reflexivity.
Qed.
End Static.

(** ** A calculator *)
Section Example.
Notation V := (rval Z unit unit Z).
Notation Fn := (gofn Z unit unit Z unit).
Notation S := (est unit Z unit).
Definition sx_stk : rtype := mkTy KPtr 20.
Definition sx_ipt : rtype := mkTy KPtr 21.
Definition sx_push : Fn := mkFn true [sx_stk; typeInt] false [] (fun args s => match args with [_; Some (mkVal _ (DInt z))] => inl ([], set_stk (z :: e_stk s) s) | _ => inl ([], s) end).
Definition sx_add : Fn := mkFn true [sx_stk] false [] (fun _ s => inl ([], match e_stk s with a :: b :: l => set_stk (b + a :: l) s | _ => s end)).
Definition sx_where : Fn := mkFn true [sx_stk; typeCtx] false [] (fun _ s => inl ([], s)).
Definition sx_three : Fn := mkFn true [sx_ipt; typeStr; typeCtx] false [] (fun _ s => inl ([], s)).
Definition sx_table (n : bytes) : option Fn :=
  if beq n (s2b "$push") then Some sx_push else if beq n (s2b "$add") then Some sx_add else if beq n (s2b "$where") then Some sx_where else if beq n (s2b "$three") then Some sx_three else None.
Definition sx_pf (l : bytes) : Z + nerr := StrInt 10 l.
Definition sx_num : gr bytes Empty_set := GAct (GTok INT) (s2b "push").
Definition sx_gr : gr bytes Empty_set := GAnd [sx_num; GRep0 0 (GAnd [GTok 43; GAct sx_num (s2b "add")])].
Definition sx_emb (z : Z) : V := Some (mkVal typeInt (DInt z)).
Notation SX := (lift (sclient sx_emb (fun _ l => (l, None)) (fun _ => 0) sx_pf (fun _ => tt) sx_table sx_stk sx_ipt None)).
Notation IX := (lift (iclient sx_emb (fun _ l => (l, None)) (fun _ => 0) (fun z => z) sx_pf sx_table sx_stk sx_ipt None)).
Definition sx_st : st S := mkSt (fun _ => 0) (mkE 0 tt [] tt).
Definition sx_eval (c : client bytes Empty_set (pv unit) S unit) (src : string) : option (list Z) :=
  match MatchExactly (fun _ => None) c (fun _ => false) (fun _ => false) false false iinit 30 sx_gr Plain PropScan.fresh (s2b src) sx_st with MNil s => Some (e_stk (ust s)) | _ => None end.
Lemma sx_part : forall g, part (fun _ => None) sx_gr g ->
  In g [sx_gr; sx_num; GTok INT; GRep0 0 (GAnd [GTok 43; GAct sx_num (s2b "add")]); GAnd [GTok 43; GAct sx_num (s2b "add")]; GTok 43; GAct sx_num (s2b "add")].
Proof.
  intros g H. induction H; [left; reflexivity|..]; cbn [In] in *; unfold sx_gr, sx_num in *;
    repeat match goal with H : _ \/ _ |- _ => destruct H | H : False |- _ => contradiction | H : GAnd _ = GAnd _ |- _ => injection H as <- | H : GAct _ _ = GAct _ _ |- _ => injection H as <- <-
      | H : GRep0 _ _ = GRep0 _ _ |- _ => injection H as <- <- end; try congruence; cbn [In] in *; subst; intuition congruence.
Qed.
Example C86_instance : plain_marks sx_table sx_stk sx_ipt (fun _ => None) sx_gr /\ sx_pf [48] = inl 0 /\
  (forall ts eof, Tokenize (fun _ => false) (fun _ => false) false false Plain PropScan.fresh (s2b "12+0+30") = TzOk ts eof -> Forall decimal_only ts /\ length ts = 5%nat) /\
  sx_eval SX "12+0+30" = Some [42] /\ sx_eval IX "12+0+30" = Some [42] /\
  sfit_mark sx_table sx_stk sx_ipt (s2b "push") /\ sfit_mark sx_table sx_stk sx_ipt (s2b "where") /\ fit_mark sx_table sx_stk sx_ipt (s2b "three") /\ ~ sfit_mark sx_table sx_stk sx_ipt (s2b "three").
Proof.
  split; [|split; [reflexivity|split; [|split; [vm_compute; reflexivity|split; [vm_compute; reflexivity|]]]]].
  - intros g mark fn Hp Ef T t0 l Ei. apply sx_part in Hp. cbn [In] in Hp. unfold sx_gr, sx_num in Hp.
    repeat match goal with H : _ \/ _ |- _ => destruct H | H : False |- _ => contradiction end; try discriminate;
      match goal with H : GAct _ _ = GAct _ _ |- _ => injection H as <- <- end; vm_compute in Ef; injection Ef as <-; cbn in Ei; injection Ei as <- <-.
    + right. exists typeInt. split; [reflexivity|]. apply Pl_int; [left; reflexivity|reflexivity|discriminate|discriminate].
    + left. reflexivity.
  - intros ts eof H. vm_compute in H. injection H as <- _. split; [|reflexivity]. repeat constructor; intros K (x & r & B); discriminate.
  - assert (A : forall m, iokm sx_table sx_stk sx_ipt (s2b m) = true -> fit_mark sx_table sx_stk sx_ipt (s2b m)) by (intros m H; apply iokm_fit; exact H).
    split; [|split; [|split]].
    + split; [apply A; reflexivity|]. intros fn Ef _. vm_compute in Ef. injection Ef as <-. cbn. lia.
    + split; [apply A; reflexivity|]. intros fn Ef _. vm_compute in Ef. injection Ef as <-. cbn. lia.
    + apply A. reflexivity.
    + intros (_ & H). specialize (H sx_three eq_refl). assert (T : takes_recv sx_stk sx_ipt sx_three) by (right; exists sx_ipt, [typeStr; typeCtx]; split; reflexivity). specialize (H T). cbn in H. lia.
Qed.
(** the same text has another value in the generated interpreter, or none *)
Theorem C86_same_refuted : sx_eval IX "010+1" = Some [9] /\ sx_eval SX "010+1" = Some [11] /\ sx_eval IX "0x10+1" = Some [17] /\ sx_eval SX "0x10+1" = None.
Proof. repeat split; vm_compute; reflexivity. Qed.
Example C86_context_instance : exists e, siact sx_emb (fun _ l => (l, None)) (fun _ => 0) sx_pf (fun _ => tt) sx_table sx_stk sx_ipt None (s2b "where") [mkTok INT 1 (s2b "7")] 1 (ust sx_st) = inr (PUser (PvRuntime e [mkTok INT 1 (s2b "7")]), ust sx_st).
Proof. eexists. vm_compute. reflexivity. Qed.
End Example.

Print Assumptions C86_marks.
Print Assumptions C86_int_literal.
Print Assumptions C86_literal.
Print Assumptions C86_eval.
Print Assumptions C86_eval_code.
Print Assumptions C86_eval_code_text.
Print Assumptions C86_context.
Print Assumptions C86_fileline.
Print Assumptions C86_instance.
Print Assumptions C86_same_refuted.
