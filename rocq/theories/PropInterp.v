(** Properties C39 and C42-C46: the engine of tpl/interpreter and the call protocol of tpl/interpreter.util. *)
From Coq Require Import String.
From Verif Require Import Base Token Utf8 Utf8Proofs Grammar PegSpec MatchProofs MatchProofs2 MatchProofs3 Wf MatchProofs4 MatchObs.
From Verif Require Import Scanner ScannerSpec ScannerProofs ScanRun ScanInit ScanObs Tokenize TokenizeProofs PropScan Matcher MatcherProofs PropMatcher.
From Verif Require Import MatchInv PegTools Compiler CompilerBack Interp.

(** ** C43, C44: literals *)
(** the value of an integer literal as in Go *)
Definition go_int (t : bytes) : Z :=
  match t with
  | 48 :: x :: r => if (x =? 120) || (x =? 88) then value 16 r else value 8 (x :: r)
  | _ => value 10 t
  end.
(** an INT token of a text that Tokenize accepts *)
Definition int_token (t : token) : Prop :=
  exists isL isD mC mS tk old src ts eof, Forall byte src /\ tk_ok tk /\ Tokenize isL isD mC mS tk old src = TzOk ts eof /\ In t ts /\ tkind t = INT.

Lemma int_spelling : forall t, int_token t -> number INT (tlit t) /\ well_formed INT (tlit t).
Proof.
  intros t (isL & isD & mC & mS & tk & old & src & ts & eof & Hb & Hk & Ht & Hi & K).
  destruct (tz_run isL isD mC mS src Hb tk Hk old ts eof Ht) as (n & ts0 & s' & E & -> & Ke & _ & Ee).
  apply in_map_iff in Hi. destruct Hi as (t0 & E0 & Hi).
  assert (Et : tkind t0 = INT /\ tlit t0 = tlit t).
  { subst t. destruct tk as [|kw]; [auto|]. cbn [tk_scan] in *. unfold KwScan in *. destruct (tkind t0 =? IDENT) eqn:Ei; [|auto].
    destruct (kw_find kw (tlit t0)) as [v|] eqn:Ef; [|auto]. specialize (Hk _ _ Ef). cbn [tkind] in K. subst v. vm_compute in Hk. congruence. }
  destruct Et as (K0 & L0). rewrite <- L0.
  destruct (C65_no_error_means_well_formed isL isD mC mS src old Hb (S n) ts0 eof s' E Ke Ee) as (b & ps & Ep & _ & _ & _ & W).
  assert (Hp : In t0 (map p_tok ps)) by (rewrite <- Ep; apply in_app_iff; left; exact Hi).
  apply in_map_iff in Hp. destruct Hp as (p & E1 & Hp). apply in_split in Hp. destruct Hp as (ps1 & ps2 & Hp).
  destruct (W ps1 p ps2 Hp) as (_ & Sp & Wf). rewrite E1 in *.
  destruct Wf as [(Wf & _)|Wf]; [rewrite K0 in Wf; discriminate|]. destruct Sp as [Lx|((Sp & _) & _)]; [|rewrite K0 in Sp; discriminate].
  rewrite K0 in Lx, Wf. remember INT as k eqn:Ek. remember (tlit t0) as l. remember (p_text p) as x. clear - Lx Wf Ek. destruct Lx; try discriminate Ek; subst k.
  - split; assumption.
  - exfalso. revert H0. apply (not_op isL isD). cbn; tauto.
Qed.

Lemma hexdig_digval : forall b, hexdigit b -> digval b = Some (hexval b) /\ 0 <= hexval b < 16.
Proof.
  intros b H. unfold hexdigit, digit in H. unfold digval, hexval.
  destruct (Z.leb_spec 48 b), (Z.leb_spec b 57), (Z.leb_spec 97 b), (Z.leb_spec b 122), (Z.leb_spec 65 b), (Z.leb_spec b 90), (Z.leb_spec b 70);
    cbn [andb]; try (exfalso; lia); split; try lia; f_equal; lia.
Qed.
Lemma dig_hexval : forall b, digit b -> hexval b = b - 48.
Proof. intros b H. unfold digit in H. unfold hexval. destruct (Z.leb_spec b 57); lia. Qed.
Lemma fold_ge : forall base ds n, 2 <= base -> 0 <= n -> Forall (fun b => 0 <= hexval b) ds -> n <= fold_left (fun x d => x * base + hexval d) ds n.
Proof.
  intros base. induction ds as [|d ds IH]; intros n Hb Hn H; [cbn; lia|]. inversion H; subst. cbn [fold_left].
  specialize (IH (n * base + hexval d) Hb ltac:(nia) H3). nia.
Qed.
Lemma uint_value : forall base ds n, 2 <= base -> 0 <= n < 2 ^ 64 -> Forall (fun b => digval b = Some (hexval b) /\ 0 <= hexval b < base) ds ->
  let v := fold_left (fun x d => x * base + hexval d) ds n in
  uint_loop base n ds = if v <? 2 ^ 64 then inl v else inr NRange.
Proof.
  intros base. induction ds as [|d ds IH]; intros n Hb Hn H v.
  - subst v. cbn [fold_left uint_loop]. destruct (Z.ltb_spec n (2 ^ 64)); [reflexivity|lia].
  - inversion H as [|? ? (E1 & E2) H']; subst. cbn [uint_loop]. rewrite E1. destruct (Z.leb_spec base (hexval d)); [lia|].
    subst v. cbn [fold_left]. destruct (Z.leb_spec (2 ^ 64) (n * base + hexval d)) as [L|L].
    + assert (G : n * base + hexval d <= fold_left (fun x d => x * base + hexval d) ds (n * base + hexval d)).
      { apply fold_ge; [exact Hb|lia|]. eapply Forall_impl; [|exact H']. cbn. intros; lia. }
      destruct (Z.ltb_spec (fold_left (fun x d => x * base + hexval d) ds (n * base + hexval d)) (2 ^ 64)); [lia|reflexivity].
    + apply IH; [exact Hb|nia|exact H'].
Qed.
Lemma strint_value : forall base ds, 2 <= base -> ds <> [] -> Forall (fun b => digval b = Some (hexval b) /\ 0 <= hexval b < base) ds ->
  StrInt base ds = if value base ds <? 2 ^ 63 then inl (value base ds) else inr NRange.
Proof.
  intros base ds Hb Hn H. unfold StrInt. destruct ds as [|c r]; [congruence|]. inversion H as [|? ? (E1 & _) _]; subst.
  assert (C : (c =? 43) = false /\ (c =? 45) = false) by (split; apply Z.eqb_neq; intros ->; discriminate E1). destruct C as (C1 & C2). rewrite C1, C2. cbn [orb].
  unfold StrUint. rewrite (uint_value base (c :: r) 0) by (try lia; exact H). fold (value base (c :: r)).
  assert (G : 0 <= value base (c :: r)).
  { unfold value. apply fold_ge; [exact Hb|lia|]. eapply Forall_impl; [|exact H]. cbn. intros; lia. }
  destruct (Z.ltb_spec (value base (c :: r)) (2 ^ 64)), (Z.ltb_spec (value base (c :: r)) (2 ^ 63)), (Z.leb_spec (2 ^ 63) (value base (c :: r))); try lia; reflexivity.
Qed.

(** the shapes of integer literals *)
Lemma int_cases : forall l, number INT l -> well_formed INT l ->
  l = [48] \/ (exists x r, l = 48 :: x :: r /\ (x = 120 \/ x = 88) /\ r <> [] /\ Forall (fun b => digval b = Some (hexval b) /\ 0 <= hexval b < 16) r) \/
  (exists x r, l = 48 :: x :: r /\ x <> 120 /\ x <> 88 /\ Forall (fun b => digval b = Some (hexval b) /\ 0 <= hexval b < 8) (x :: r)) \/
  (exists c r, l = c :: r /\ c <> 48 /\ Forall (fun b => digval b = Some (hexval b) /\ 0 <= hexval b < 10) l).
Proof.
  intros l Hn (_ & _ & W & _). destruct (W eq_refl) as (W1 & W2 & W3).
  assert (Dg : forall b, digit b -> digval b = Some (hexval b) /\ 0 <= hexval b < 10).
  { intros b Hb. destruct (hexdig_digval b (or_introl Hb)) as (E & _). split; [exact E|]. rewrite (dig_hexval b Hb). unfold digit in Hb. lia. }
  remember INT as k eqn:Ek. destruct Hn.
  - right. left. exists x, hs. split; [reflexivity|]. split; [exact H|]. split.
    + intros ->. destruct H; subst; [apply W1|apply W2]; reflexivity.
    + eapply Forall_impl; [|exact H0]. apply hexdig_digval.
  - unfold number_kind in Ek. destruct (ScannerSpec.is_nil im) eqn:E1; [|discriminate Ek]. destruct (ScannerSpec.is_nil fr && ScannerSpec.is_nil ex) eqn:E2; [|discriminate Ek].
    apply andb_true_iff in E2. destruct E2 as (E2 & E3). destruct im; [|discriminate E1]. destruct fr; [|discriminate E2]. destruct ex; [|discriminate E3].
    cbn [app] in *. rewrite app_nil_r in *. destruct ds as [|c r]; [congruence|]. inversion H0 as [|? ? Hc Hr]; subst. destruct (Z.eq_dec c 48) as [->|Hc'].
    + destruct r as [|x r]; [left; reflexivity|]. right. right. left. exists x, r. inversion Hr as [|? ? Hx Hr']; subst. split; [reflexivity|].
      unfold digit in Hx. split; [lia|]. split; [lia|]. apply Forall_forall. intros b Hb. rewrite Forall_forall in Hr. specialize (Hr b Hb).
      destruct (Dg b Hr) as (E & R). split; [exact E|]. split; [lia|]. rewrite (dig_hexval b Hr) in *. unfold digit in Hr.
      assert (b <> 56 /\ b <> 57); [|lia]. split; intros ->; apply W3; exists (x :: r); (split; [reflexivity|]); (split; [constructor; assumption|]); tauto.
    + right. right. right. exists c, r. split; [reflexivity|]. split; [exact Hc'|]. eapply Forall_impl; [|exact H0]. exact Dg.
  - exfalso. destruct (ScannerSpec.is_nil im); discriminate Ek.
Qed.

Theorem C43_parse_int : forall t, int_token t ->
  ParseInt (tlit t) = Val (if go_int (tlit t) <? 2 ^ 63 then inl (go_int (tlit t)) else inr NRange) /\ 0 <= go_int (tlit t).
Proof.
  intros t Ht. destruct (int_spelling t Ht) as (Hn & Hw). destruct (int_cases _ Hn Hw) as [-> | [(x & r & -> & Hx & Hr & Hd) | [(x & r & -> & Hx1 & Hx2 & Hd) | (c & r & E & Hc & Hd)]]].
  - split; [reflexivity|]. cbn. lia.
  - assert (B : (x =? 120) || (x =? 88) = true) by (destruct Hx as [-> | ->]; reflexivity). cbn [ParseInt go_int]. rewrite B, strint_value by (try lia; assumption).
    split; [reflexivity|]. unfold value. apply fold_ge; [lia|lia|]. eapply Forall_impl; [|exact Hd]. cbn. intros; lia.
  - assert (B : (x =? 120) || (x =? 88) = false) by (apply orb_false_iff; split; apply Z.eqb_neq; assumption). cbn [ParseInt go_int]. rewrite B, strint_value by (try lia; try discriminate; assumption).
    split; [reflexivity|]. unfold value. apply fold_ge; [lia|lia|]. eapply Forall_impl; [|exact Hd]. cbn. intros; lia.
  - rewrite E in *. assert (G : go_int (c :: r) = value 10 (c :: r) /\ ParseInt (c :: r) = Val (StrInt 10 (c :: r))).
    { clear - Hc. destruct c as [|p|p]; try (split; reflexivity). do 6 (destruct p as [p|p|]; try (split; reflexivity)). congruence. }
    destruct G as (-> & ->). rewrite strint_value by (try lia; try discriminate; assumption). split; [reflexivity|].
    unfold value. apply fold_ge; [lia|lia|]. eapply Forall_impl; [|exact Hd]. cbn. intros; lia.
Qed.
Example C43_instance : exists t, int_token t /\ tlit t = s2b "0x7fFFffffFFFFFFFF" /\ ParseInt (tlit t) = Val (inl 9223372036854775807).
Proof.
  eexists. split; [|split]; [|shelve|shelve]. exists (fun _ => false), (fun _ => false), false, false, Plain, PropScan.fresh, (s2b "0x7fFFffffFFFFFFFF"). eexists _, _.
  split; [|split; [exact I|]]; [vm_compute; repeat constructor; discriminate|]. split; [vm_compute; reflexivity|]. split; [left; reflexivity|reflexivity].
  Unshelve. all: vm_compute; reflexivity.
Qed.

(** What ParseFloat makes of an integer token: [of_int] is the float64 nearest to an integer, [parse_float] is strconv.ParseFloat. *)
Definition leading_zero (l : bytes) : Prop := exists x r, l = 48 :: x :: r.
Definition hex_lit (l : bytes) : Prop := exists x r, l = 48 :: x :: r /\ (x = 120 \/ x = 88).
Theorem C44_parse_float : forall (F : Type) (of_int : Z -> F) (parse_float : bytes -> F + nerr) t, int_token t ->
  (~ leading_zero (tlit t) -> ParseFloat of_int parse_float (tlit t) = Val (if beq (tlit t) [48] then inl (of_int 0) else parse_float (tlit t))) /\
  (leading_zero (tlit t) -> go_int (tlit t) < 2 ^ 63 -> ParseFloat of_int parse_float (tlit t) = Val (inl (of_int (go_int (tlit t))))) /\
  (2 ^ 63 <= go_int (tlit t) -> hex_lit (tlit t) -> ParseFloat of_int parse_float (tlit t) = Val (inr NRange)) /\
  (* the exception: read as a decimal number *)
  (2 ^ 63 <= go_int (tlit t) -> leading_zero (tlit t) -> ~ hex_lit (tlit t) -> ParseFloat of_int parse_float (tlit t) = Val (parse_float (tlit t))).
Proof.
  intros F of_int parse_float t Ht. destruct (int_spelling t Ht) as (Hn & Hw).
  destruct (int_cases _ Hn Hw) as [-> | [(x & r & -> & Hx & Hr & Hd) | [(x & r & -> & Hx1 & Hx2 & Hd) | (c & r & E & Hc & Hd)]]].
  - split; [reflexivity|]. split; [intros (x & r & E); discriminate E|]. split; [intros _ (x & r & E & _); discriminate E|intros _ (x & r & E); discriminate E].
  - assert (B : (x =? 120) || (x =? 88) = true) by (destruct Hx as [-> | ->]; reflexivity). cbn [ParseFloat go_int]. rewrite B, strint_value by (try lia; assumption).
    split; [intro N; exfalso; apply N; exists x, r; reflexivity|]. split; [|split].
    + intros _ L. destruct (Z.ltb_spec (value 16 r) (2 ^ 63)); [reflexivity|lia].
    + intros L _. destruct (Z.ltb_spec (value 16 r) (2 ^ 63)); [lia|reflexivity].
    + intros _ _ N. exfalso. apply N. exists x, r. auto.
  - assert (B : (x =? 120) || (x =? 88) = false) by (apply orb_false_iff; split; apply Z.eqb_neq; assumption). cbn [ParseFloat go_int].
    rewrite B, strint_value by (try lia; try discriminate; assumption). split; [intro N; exfalso; apply N; exists x, r; reflexivity|]. split; [|split].
    + intros _ L. destruct (Z.ltb_spec (value 8 (x :: r)) (2 ^ 63)); [reflexivity|lia].
    + intros _ (y & r' & E & Hy). injection E as <- <-. lia.
    + intros L _ _. destruct (Z.ltb_spec (value 8 (x :: r)) (2 ^ 63)); [lia|reflexivity].
  - rewrite E in *. assert (G : ParseFloat of_int parse_float (c :: r) = Val (parse_float (c :: r)) /\ beq (c :: r) [48] = false /\ ~ leading_zero (c :: r)).
    { split; [|split].
      - clear - Hc. destruct c as [|p|p]; try reflexivity. do 6 (destruct p as [p|p|]; try reflexivity). congruence.
      - cbn [beq]. destruct (Z.eqb_spec c 48); [contradiction|reflexivity].
      - intros (x & r' & E'). injection E' as -> _. contradiction. }
    destruct G as (G1 & G2 & G3). rewrite G1, G2. split; [reflexivity|]. split; [intro; contradiction|]. split.
    + intros _ (x & r' & E' & _). exfalso. apply G3. exists x, r'. exact E'.
    + intros; reflexivity.
Qed.
(** Taking integers for floats (no rounding at all) and for strconv.ParseFloat the decimal value of the digits, the token 01000000000000000000000,
    which is 2^63, is read as 10^21. *)
Theorem C44_refuted : exists t, int_token t /\ go_int (tlit t) = 2 ^ 63 /\
  ParseFloat (fun n => n) (fun s => inl (value 10 s)) (tlit t) = Val (inl (10 ^ 21)).
Proof.
  eexists. split; [|split]; [|shelve|shelve]. exists (fun _ => false), (fun _ => false), false, false, Plain, PropScan.fresh, (s2b "01000000000000000000000"). eexists _, _.
  split; [|split; [exact I|]]; [vm_compute; repeat constructor; discriminate|]. split; [vm_compute; reflexivity|]. split; [left; reflexivity|reflexivity].
  Unshelve. all: vm_compute; reflexivity.
Qed.

(** ** C42: calls *)
Section Calls.
Context {F X I E R : Type}.
Variable emb : E -> rval F X I E.
Variable unret : rval F X I E -> E + err X.
Variable to_float : val F X I E -> F.
Variable as_fn : rval F X I E -> option (gofn F X I E R).
Notation S := (est I E R).
Notation V := (rval F X I E).
Notation Fn := (gofn F X I E R).

(** How an argument [v] is passed for a parameter of type [t]: as it is for interface and pointer parameters (a missing value as nil)
    and for equal types; integers and float32 are converted for a float64 parameter. *)
Definition nilable (t : rtype) : Prop := t_kind t = KIntf \/ t_kind t = KPtr.
Inductive passes (t : rtype) : V -> V -> Prop :=
| Pa_any : forall v, nilable t -> passes t (Some v) (Some v)
| Pa_nil : nilable t -> passes t None (Some (mkVal t DNil))
| Pa_same : forall v, ~ nilable t -> teq (v_type v) t = true -> passes t (Some v) (Some v)
| Pa_float : forall v, ~ nilable t -> teq (v_type v) t = false -> teq t typeFloat64 = true -> In (t_kind (v_type v)) [KInt; KInt64; KIntN; KUint; KFloat32] ->
    passes t (Some v) (Some (mkVal typeFloat64 (DFloat (to_float v)))).
(** the types of the parameters for [n] arguments *)
Definition param_types (fn : Fn) (n : nat) : list rtype :=
  if fn_variadic fn then firstn (length (fn_in fn) - 1) (fn_in fn) ++ repeat (last (fn_in fn) typeIntf) (n - (length (fn_in fn) - 1)) else fn_in fn.
(** [n] arguments can be passed: exactly as many as there are parameters, or at least all but the variadic one *)
Definition count_ok (fn : Fn) (n : nat) : Prop :=
  if fn_variadic fn then (length (fn_in fn) - 1 <= n)%nat else n = length (fn_in fn).
(** in Go, a variadic function has a parameter *)
Definition proper (fn : Fn) : Prop := fn_variadic fn = true -> fn_in fn <> [].
(** the results are pushed in order *)
Inductive pushed : list V -> list E -> list E -> Prop :=
| Pu_nil : forall stk, pushed [] stk stk
| Pu_cons : forall v e vs stk stk', unret v = inl e -> pushed vs (e :: stk) stk' -> pushed (v :: vs) stk stk'.
Inductive all_pass : list rtype -> list V -> list V -> Prop :=
| AP_nil : all_pass [] [] []
| AP_cons : forall t ts v vs v' vs', passes t v v' -> all_pass ts vs vs' -> all_pass (t :: ts) (v :: vs) (v' :: vs').
Notation Call := (Call emb (PushRet unret) to_float).
Notation VCall := (VCall emb (PushRet unret) to_float as_fn).

Lemma nilable_dec : forall t, nilable t \/ ~ nilable t.
Proof. intro t. unfold nilable. destruct (t_kind t); auto; right; intros [H|H]; discriminate H. Qed.
Lemma vt_pass : forall t v, (forall v', passes t v v' -> validateType to_float v t = Val (inl v')) /\
  ((forall v', ~ passes t v v') -> validateType to_float v t = Val (inr EArgType) \/ validateType to_float v t = Crash).
Proof.
  intros t v. unfold validateType. destruct (nilable_dec t) as [N|N].
  - split.
    + intros v' H. destruct H; try contradiction; destruct N as [-> | ->]; reflexivity.
    + intro H. exfalso. destruct v as [x|]; [apply (H (Some x)); constructor; exact N|apply (H (Some (mkVal t DNil))); constructor; exact N].
  - assert (Q : forall (Y : Type) (a b : Y), match t_kind t with KIntf | KPtr => a | _ => b end = b) by (intros Y a b; unfold nilable in N; destruct (t_kind t); try reflexivity; exfalso; apply N; auto).
    rewrite Q. split.
    + intros v' H. destruct H; try contradiction.
      * rewrite H0. reflexivity.
      * rewrite H0, H1. cbn [In] in H2. destruct H2 as [<- | [<- | [<- | [<- | [<- | []]]]]]; reflexivity.
    + intro H. destruct v as [x|]; [|right; reflexivity]. destruct (teq (v_type x) t) eqn:E1; [exfalso; apply (H (Some x)); constructor; assumption|].
      destruct (teq t typeFloat64) eqn:E2; [|left; reflexivity].
      assert (C : In (t_kind (v_type x)) [KInt; KInt64; KIntN; KUint; KFloat32] \/ ~ In (t_kind (v_type x)) [KInt; KInt64; KIntN; KUint; KFloat32]) by (destruct (t_kind (v_type x)); cbn; intuition discriminate).
      destruct C as [C|C]; [exfalso; apply (H _ (Pa_float t x N E1 E2 C))|]. left. destruct (t_kind (v_type x)); try reflexivity; exfalso; apply C; cbn; tauto.
Qed.
Lemma val_pass : forall ts vs vs', all_pass ts vs vs' -> validate to_float (combine vs ts) = Val (inl vs').
Proof. intros ts vs vs' H. induction H as [|t ts v vs v' vs' H _ IH]; [reflexivity|]. cbn [combine validate]. rewrite (proj1 (vt_pass t v) v' H), IH. reflexivity. Qed.
Lemma val_fail : forall ts vs, (exists t v, In (v, t) (combine vs ts) /\ forall v', ~ passes t v v') ->
  validate to_float (combine vs ts) = Val (inr EArgType) \/ validate to_float (combine vs ts) = Crash.
Proof.
  intros ts vs. generalize (combine vs ts) as l. induction l as [|(v0, t0) l IH]; intros (t & v & Hi & Hp); [contradiction Hi|]. cbn [validate].
  assert (D : (exists v', passes t0 v0 v') \/ forall v', ~ passes t0 v0 v').
  { unfold not. destruct (validateType to_float v0 t0) as [[v'|e]|] eqn:Ev.
    - left. exists v'. unfold validateType in Ev. destruct (nilable_dec t0) as [N|N].
      + destruct v0 as [x|].
        * assert (v' = Some x) as -> by (destruct N as [K|K]; rewrite K in Ev; congruence). constructor. exact N.
        * assert (v' = Some (mkVal t0 DNil)) as -> by (destruct N as [K|K]; rewrite K in Ev; congruence). constructor. exact N.
      + assert (Q : forall (Y : Type) (a b : Y), match t_kind t0 with KIntf | KPtr => a | _ => b end = b) by (intros Y a b; unfold nilable in N; destruct (t_kind t0); try reflexivity; exfalso; apply N; auto).
        rewrite Q in Ev. destruct v0 as [x|]; [|discriminate]. destruct (teq (v_type x) t0) eqn:E1; [injection Ev as <-; constructor; assumption|].
        destruct (teq t0 typeFloat64) eqn:E2; [|discriminate]. destruct (t_kind (v_type x)) eqn:E3; try discriminate; injection Ev as <-; apply Pa_float; try assumption; rewrite E3; cbn; tauto.
    - right. intros v' H. rewrite (proj1 (vt_pass t0 v0) v' H) in Ev. discriminate.
    - right. intros v' H. rewrite (proj1 (vt_pass t0 v0) v' H) in Ev. discriminate. }
  destruct D as [(v0' & D)|D].
  - rewrite (proj1 (vt_pass t0 v0) _ D). destruct Hi as [Hi|Hi]; [injection Hi as -> ->; exfalso; exact (Hp _ D)|].
    destruct (IH (ex_intro _ t (ex_intro _ v (conj Hi Hp)))) as [-> | ->]; auto.
  - destruct (proj2 (vt_pass t0 v0) D) as [-> | ->]; auto.
Qed.

Lemma combine_types : forall (fn : Fn) (vs : list V), proper fn -> fn_variadic fn = true -> (length (fn_in fn) - 1 <= length vs)%nat ->
  combine vs (param_types fn (length vs)) =
  combine (firstn (length (fn_in fn) - 1) vs) (fn_in fn) ++ map (fun v => (v, last (fn_in fn) typeIntf)) (skipn (length (fn_in fn) - 1) vs).
Proof.
  intros fn vs Hp Hv Hc. unfold param_types. rewrite Hv. specialize (Hp Hv). set (ins := fn_in fn) in *. set (t := last ins typeIntf). set (n := (length ins - 1)%nat) in *.
  assert (A : forall (B C : Type) (a1 a2 : list B) (c1 c2 : list C), length a1 = length c1 -> combine (a1 ++ a2) (c1 ++ c2) = combine a1 c1 ++ combine a2 c2).
  { clear. induction a1 as [|b a1 IH]; intros a2 c1 c2 H; destruct c1; try discriminate H; [reflexivity|]. cbn. rewrite IH by (injection H as H; exact H). reflexivity. }
  rewrite <- (firstn_skipn n vs) at 1. rewrite A by (rewrite !firstn_length; subst n; lia). f_equal.
  - assert (B : forall (B C : Type) (a : list B) (c : list C) k, (length a <= k)%nat -> combine a (firstn k c) = combine a c).
    { clear. induction a as [|b a IH]; intros c k H; [reflexivity|]. simpl in H. destruct k; [lia|]. destruct c; [reflexivity|]. cbn. rewrite IH by lia. reflexivity. }
    apply B. rewrite firstn_length. lia.
  - assert (L : length (skipn n vs) = (length vs - n)%nat) by apply skipn_length. rewrite <- L. generalize (skipn n vs) as l. clear. intro l. induction l as [|v l IH]; [reflexivity|]. cbn. rewrite IH. reflexivity.
Qed.
Lemma validate_app : forall l1 l2, validate to_float (l1 ++ l2) =
  match validate to_float l1 with Val (inl vs) => match validate to_float l2 with Val (inl us) => Val (inl (vs ++ us)) | r => r end | r => r end.
Proof.
  induction l1 as [|(v, t) l1 IH]; intro l2; [cbn; destruct (validate to_float l2) as [[|]|]; reflexivity|]. cbn [app validate].
  destruct (validateType to_float v t) as [[v'|e]|]; try reflexivity. rewrite IH. destruct (validate to_float l1) as [[vs|e]|]; try reflexivity.
  destruct (validate to_float l2) as [[us|e]|]; reflexivity.
Qed.
Lemma args_pass : forall (fn : Fn) vs vs', proper fn -> count_ok fn (length vs) -> all_pass (param_types fn (length vs)) vs vs' ->
  validateArgs to_float (fn_in fn) (fn_variadic fn) vs = Val (inl vs').
Proof.
  intros fn vs vs' Hp Hc H. apply val_pass in H. unfold validateArgs, count_ok in *. destruct (fn_variadic fn) eqn:Ev.
  - rewrite combine_types, validate_app in H by assumption.
    destruct (validate to_float (combine (firstn (length (fn_in fn) - 1) vs) (fn_in fn))) as [[us|e]|]; try discriminate.
    destruct (validate to_float (map _ _)) as [[ws|e]|]; try discriminate. exact H.
  - unfold param_types in H. rewrite Ev in H. exact H.
Qed.
Lemma args_fail : forall (fn : Fn) vs, proper fn -> count_ok fn (length vs) -> (exists t v, In (v, t) (combine vs (param_types fn (length vs))) /\ forall v', ~ passes t v v') ->
  validateArgs to_float (fn_in fn) (fn_variadic fn) vs = Val (inr EArgType) \/ validateArgs to_float (fn_in fn) (fn_variadic fn) vs = Crash.
Proof.
  intros fn vs Hp Hc H. apply val_fail in H. unfold validateArgs, count_ok in *. destruct (fn_variadic fn) eqn:Ev.
  - rewrite combine_types, validate_app in H by assumption.
    assert (G : forall l, (exists us, validate to_float l = Val (inl us)) \/ validate to_float l = Val (inr EArgType) \/ validate to_float l = Crash).
    { clear. induction l as [|(v, t) l IH]; [left; exists []; reflexivity|]. cbn [validate].
      assert (D : (exists v', validateType to_float v t = Val (inl v')) \/ validateType to_float v t = Val (inr EArgType) \/ validateType to_float v t = Crash).
      { unfold validateType. destruct (t_kind t); try (left; eexists; reflexivity); (destruct v as [x|]; [|right; right; reflexivity]); (destruct (teq (v_type x) t); [left; eexists; reflexivity|]);
          (destruct (teq t typeFloat64); [|right; left; reflexivity]); destruct (t_kind (v_type x)); try (left; eexists; reflexivity); right; left; reflexivity. }
      destruct D as [(v' & ->) | [-> | ->]]; [|auto|auto]. destruct IH as [(us & ->) | [-> | ->]]; [left; eexists; reflexivity|auto|auto]. }
    destruct (G (combine (firstn (length (fn_in fn) - 1) vs) (fn_in fn))) as [(us & E1) | [E1 | E1]]; rewrite E1 in *;
      destruct (G (map (fun v => (v, last (fn_in fn) typeIntf)) (skipn (length (fn_in fn) - 1) vs))) as [(ws & E2) | [E2 | E2]]; rewrite E2 in *; auto.
  - unfold param_types in H. rewrite Ev in H. exact H.
Qed.
Lemma all_pass_len : forall ts vs vs', all_pass ts vs vs' -> length vs = length ts.
Proof. intros ts vs vs' H. induction H; cbn; congruence. Qed.
Lemma pop_top : forall (args rest : list E), PopArgs emb (Z.of_nat (length args)) (rev args ++ rest) = Val (Some (map emb args, rest)).
Proof.
  intros args rest. unfold PopArgs. rewrite app_length, rev_length.
  destruct (Z.leb_spec (Z.of_nat (length args)) (Z.of_nat (length args + length rest))); [|lia].
  destruct (Z.ltb_spec (Z.of_nat (length args)) 0); [lia|]. rewrite Nat2Z.id.
  replace (length args) with (length (rev args)) by apply rev_length.
  rewrite firstn_app, Nat.sub_diag, firstn_all, skipn_app, Nat.sub_diag, skipn_all. cbn [firstn skipn].
  rewrite app_nil_r, map_rev, rev_involutive. reflexivity.
Qed.
Lemma count_none : forall (fn : Fn) n, proper fn -> (count_ok fn n <-> count_err fn (Z.of_nat n) = None).
Proof.
  intros fn n Hp. unfold count_ok, count_err, proper in *. destruct (fn_variadic fn).
  - specialize (Hp eq_refl). assert (L : (1 <= length (fn_in fn))%nat) by (destruct (fn_in fn); [congruence|cbn; lia]).
    destruct (Z.ltb_spec (Z.of_nat n) (Z.of_nat (length (fn_in fn)) - 1)); split; try discriminate; try reflexivity; lia.
  - destruct (Z.eqb_spec (Z.of_nat n) (Z.of_nat (length (fn_in fn)))); split; try discriminate; try reflexivity; lia.
Qed.

(** The top values of the stack, deepest first, are passed in order; the function runs with them removed; its results are pushed. *)
Theorem C42_call : forall (fn : Fn) args args' rest s, proper fn -> e_stk s = rev args ++ rest -> count_ok fn (length args) ->
  all_pass (param_types fn (length args)) (map emb args) args' ->
  (forall outs s' stk', fn_call fn args' (set_stk rest s) = inl (outs, s') -> pushed outs (e_stk s') stk' -> 
     Call fn (Z.of_nat (length args)) s = inl (None, set_stk stk' s')) /\
  (forall p s', fn_call fn args' (set_stk rest s) = inr (p, s') -> Call fn (Z.of_nat (length args)) s = inr (p, s')).
Proof.
  intros fn args args' rest s Hp Hs Hc Ha.
  assert (P : forall outs stk stk', pushed outs stk stk' -> PushRet unret outs stk = (stk', None)).
  { intros outs stk stk' H. induction H as [|v e vs stk stk' He H IH]; [reflexivity|]. cbn [PushRet]. rewrite He. exact IH. }
  assert (G : Call fn (Z.of_nat (length args)) s = apply_fn (PushRet unret) fn args' (set_stk rest s)).
  { unfold Interp.Call. rewrite (proj1 (count_none fn _ Hp) Hc). unfold DoCall. destruct (Z.ltb_spec 0 (Z.of_nat (length args))).
    - rewrite Hs, pop_top. rewrite (args_pass fn (map emb args) args' Hp); [reflexivity|rewrite map_length; exact Hc|rewrite map_length; exact Ha].
    - destruct args; [|cbn in *; lia]. cbn [map rev app] in *. assert (args' = []) as -> by (inversion Ha; reflexivity).
      rewrite <- Hs. destruct s; reflexivity. }
  rewrite G. unfold apply_fn. split.
  - intros outs s' stk' E1 E2. rewrite E1, (P _ _ _ E2). reflexivity.
  - intros p s' E1. rewrite E1. reflexivity.
Qed.
(** A result the stack cannot take is an error: the results before it have been pushed, it and those after it are not. *)
Theorem C42_bad_result : forall (fn : Fn) args args' rest s before v er after s' stk', proper fn -> e_stk s = rev args ++ rest -> count_ok fn (length args) ->
  all_pass (param_types fn (length args)) (map emb args) args' ->
  fn_call fn args' (set_stk rest s) = inl (before ++ v :: after, s') -> pushed before (e_stk s') stk' -> unret v = inr er ->
  Call fn (Z.of_nat (length args)) s = inl (Some er, set_stk stk' s').
Proof.
  intros fn args args' rest s before v er after s' stk' Hp Hs Hc Ha Hf Hb Hv.
  assert (P : forall stk, pushed before stk stk' -> PushRet unret (before ++ v :: after) stk = (stk', Some er)).
  { clear - Hv. intros stk H. induction H as [|w e vs stk stk' He H IH]; cbn [app PushRet]; [rewrite Hv; reflexivity|]. rewrite He. exact IH. }
  assert (G : Call fn (Z.of_nat (length args)) s = apply_fn (PushRet unret) fn args' (set_stk rest s)).
  { unfold Interp.Call. rewrite (proj1 (count_none fn _ Hp) Hc). unfold DoCall. destruct (Z.ltb_spec 0 (Z.of_nat (length args))).
    - rewrite Hs, pop_top. rewrite (args_pass fn (map emb args) args' Hp); [reflexivity|rewrite map_length; exact Hc|rewrite map_length; exact Ha].
    - destruct args; [|cbn in *; lia]. cbn [map rev app] in *. assert (args' = []) as -> by (inversion Ha; reflexivity).
      rewrite <- Hs. destruct s; reflexivity. }
  rewrite G. unfold apply_fn. rewrite Hf, (P _ Hb). reflexivity.
Qed.
(** A wrong number of arguments, or a stack with too few values, is an error and nothing is popped. *)
Theorem C42_count : forall (fn : Fn) n s, proper fn -> ~ count_ok fn n ->
  Call fn (Z.of_nat n) s = inl (Some (if fn_variadic fn then EArgsNotEnough else EArgCount (Z.of_nat (length (fn_in fn))) (Z.of_nat n)), s).
Proof.
  intros fn n s Hp Hc. unfold Interp.Call. rewrite count_none in Hc by exact Hp. unfold count_err in *. destruct (fn_variadic fn).
  - destruct (Z.of_nat n <? Z.of_nat (length (fn_in fn)) - 1); [reflexivity|congruence].
  - destruct (Z.of_nat n =? Z.of_nat (length (fn_in fn))); [congruence|reflexivity].
Qed.
Theorem C42_short_stack : forall (fn : Fn) n s, proper fn -> count_ok fn n -> (length (e_stk s) < n)%nat ->
  Call fn (Z.of_nat n) s = inl (Some EStackDamaged, s).
Proof.
  intros fn n s Hp Hc Hl. unfold Interp.Call. rewrite (proj1 (count_none fn n Hp) Hc). unfold DoCall, PopArgs.
  destruct (Z.ltb_spec 0 (Z.of_nat n)); [|lia]. destruct (Z.leb_spec (Z.of_nat n) (Z.of_nat (length (e_stk s)))); [lia|reflexivity].
Qed.
(** An argument that cannot be passed is an error (or a Go run-time panic if it is the zero Value); the arguments have been popped and the function is not called. *)
Theorem C42_bad_argument : forall (fn : Fn) args rest s, proper fn -> e_stk s = rev args ++ rest -> count_ok fn (length args) ->
  (exists t v, In (v, t) (combine (map emb args) (param_types fn (length args))) /\ forall v', ~ passes t v v') ->
  Call fn (Z.of_nat (length args)) s = inl (Some EArgType, set_stk rest s) \/ Call fn (Z.of_nat (length args)) s = inr (runtime, set_stk rest s).
Proof.
  intros fn args rest s Hp Hs Hc H. unfold Interp.Call. rewrite (proj1 (count_none fn _ Hp) Hc). unfold DoCall.
  destruct (Z.ltb_spec 0 (Z.of_nat (length args))) as [L|L].
  - rewrite Hs, pop_top. destruct (args_fail fn (map emb args) Hp) as [-> | ->]; rewrite ?map_length; auto.
  - destruct args; [|cbn in *; lia]. destruct H as (t & v & Hi & _). contradiction Hi.
Qed.
(** A function taken from the stack, below its arguments: the same, except that the values are popped before the count is checked. *)
Theorem C42_vcall : forall f (fn : Fn) args args' rest s, proper fn -> as_fn (emb f) = Some fn -> e_stk s = rev args ++ f :: rest ->
  (count_ok fn (length args) -> all_pass (param_types fn (length args)) (map emb args) args' ->
   (forall outs s' stk', fn_call fn args' (set_stk rest s) = inl (outs, s') -> pushed outs (e_stk s') stk' -> 
      VCall (Z.of_nat (length args)) s = inl (None, set_stk stk' s')) /\
   (forall p s', fn_call fn args' (set_stk rest s) = inr (p, s') -> VCall (Z.of_nat (length args)) s = inr (p, s'))) /\
  (~ count_ok fn (length args) -> exists e, VCall (Z.of_nat (length args)) s = inl (Some e, set_stk rest s)).
Proof.
  intros f fn args args' rest s Hp Hf Hs.
  assert (P : forall outs stk stk', pushed outs stk stk' -> PushRet unret outs stk = (stk', None)).
  { intros outs stk stk' H. induction H as [|v e vs stk stk' He H IH]; [reflexivity|]. cbn [PushRet]. rewrite He. exact IH. }
  assert (Q : PopArgs emb (Z.of_nat (length args) + 1) (e_stk s) = Val (Some (map emb (f :: args), rest))).
  { rewrite Hs. replace (rev args ++ f :: rest) with (rev (f :: args) ++ rest) by (cbn [rev]; rewrite <- app_assoc; reflexivity). rewrite <- pop_top. f_equal. cbn [length]. lia. }
  unfold Interp.VCall. rewrite Q. cbn [map]. rewrite Hf. split.
  - intros Hc Ha. rewrite (proj1 (count_none fn _ Hp) Hc), (args_pass fn (map emb args) args' Hp) by (rewrite map_length; assumption). unfold apply_fn. split.
    + intros outs s' stk' E1 E2. rewrite E1, (P _ _ _ E2). reflexivity.
    + intros p s' E1. rewrite E1. reflexivity.
  - intro Hc. rewrite count_none in Hc by exact Hp. destruct (count_err fn (Z.of_nat (length args))) as [e|]; [exists e; reflexivity|congruence].
Qed.
Theorem C42_vcall_short : forall n s, (length (e_stk s) <= n)%nat -> VCall (Z.of_nat n) s = inl (Some EStackDamaged, s).
Proof. intros n s H. unfold Interp.VCall, PopArgs. destruct (Z.leb_spec (Z.of_nat n + 1) (Z.of_nat (length (e_stk s)))); [lia|reflexivity]. Qed.
End Calls.

(** A variadic function of a float64 and any number of strings, called with three values on a stack of two more. *)
Section CallInstance.
Notation EE := (val Z unit unit unit).
Definition ex_fn : gofn Z unit unit EE unit :=
  mkFn true [typeFloat64; typeStr] true [typeInt]
    (fun args x => inl (match args with Some (mkVal _ (DFloat f)) :: r => [Some (mkVal typeInt (DInt (f + Z.of_nat (length r))))] | _ => [] end, x)).
Definition ex_emb (e : EE) : rval Z unit unit EE := Some (match e with mkVal t (DInt z) => mkVal t (DInt z) | mkVal t (DStr b) => mkVal t (DStr b) | mkVal t _ => mkVal t DNil end).
Definition ex_unret (v : rval Z unit unit EE) : EE + err unit := match v with Some (mkVal t (DInt z)) => inl (mkVal t (DInt z)) | _ => inr EUnsupportedRet end.
Definition ex_tf (v : val Z unit unit EE) : Z := match v_dat v with DInt z => z | _ => 0 end.
Definition ex_i (z : Z) : EE := mkVal typeInt (DInt z).
Definition ex_b (b : bytes) : EE := mkVal typeStr (DStr b).
Definition ex_st (l : list EE) : est unit EE unit := mkE 0 tt l tt.
Example C42_instance :
  proper ex_fn /\ count_ok ex_fn 3 /\
  all_pass ex_tf (param_types ex_fn 3) (map ex_emb [ex_i 5; ex_b [97]; ex_b [98]]) [Some (mkVal typeFloat64 (DFloat 5)); Some (mkVal typeStr (DStr [97])); Some (mkVal typeStr (DStr [98]))] /\
  Call ex_emb (PushRet ex_unret) ex_tf ex_fn 3 (ex_st (rev [ex_i 5; ex_b [97]; ex_b [98]] ++ [ex_i 1; ex_i 2])) = inl (None, ex_st [ex_i 7; ex_i 1; ex_i 2]) /\
  Call ex_emb (PushRet ex_unret) ex_tf ex_fn 3 (ex_st (rev [ex_i 5; ex_b [97]; ex_i 4] ++ [ex_i 1; ex_i 2])) = inl (Some EArgType, ex_st [ex_i 1; ex_i 2]).
Proof.
  split; [intros _; discriminate|]. split; [cbn; lia|]. split; [|split; reflexivity].
  apply AP_cons; [apply (Pa_float ex_tf typeFloat64 (mkVal typeInt (DInt 5))); [intros [H|H]; discriminate H|reflexivity|reflexivity|left; reflexivity]|].
  do 2 (apply AP_cons; [apply Pa_same; [intros [H|H]; discriminate H|reflexivity]|]). apply AP_nil.
Qed.
(** A function without arguments whose second result is a string, which this stack does not take. *)
Definition ex_bad : gofn Z unit unit EE unit :=
  mkFn true [] false [typeInt; typeStr; typeInt] (fun args x => inl ([Some (mkVal typeInt (DInt 1)); Some (mkVal typeStr (DStr [97])); Some (mkVal typeInt (DInt 2))], x)).
Example C42_bad_result_instance : proper ex_bad /\ count_ok ex_bad 0 /\ ex_unret (Some (mkVal typeStr (DStr [97]))) = inr EUnsupportedRet /\
  Call ex_emb (PushRet ex_unret) ex_tf ex_bad 0 (ex_st [ex_i 9]) = inl (Some EUnsupportedRet, ex_st [ex_i 1; ex_i 9]).
Proof. repeat split; discriminate. Qed.
End CallInstance.

(** ** The engine: C39, C45, C46 *)
(** which marks are silenced, in words: none at mute count 0, at count 1 all but those that start with '_', all at higher counts *)
Definition runs (mark : bytes) (mute : Z) : Prop := mute <= 0 \/ mute = 1 /\ exists r, mark = 95 :: r.
(** what the deferred function makes of the panic value of an action on the tokens [ts] *)
Inductive surfaces {X : Type} (ts : list token) : panic (X := X) -> panic (X := X) -> Prop :=
| Su_error : forall e, surfaces ts (PUser (PvErr e)) (PUser (PvRuntime e ts))
| Su_nil : surfaces ts PNilDeref (PUser (PvRuntime ERuntime ts))
| Su_string : forall s, surfaces ts (PUser (PvStr s)) (PUser (PvRuntime (EOfStr s) ts))
| Su_runtime : forall e src, surfaces ts (PUser (PvRuntime e src)) (PUser (PvRuntime e src))
| Su_match : forall e, surfaces ts (PMatch e) (PMatch e)
| Su_other : forall x, surfaces ts (PUser (PvOther x)) (PUser (PvOther x))
| Su_fuel : surfaces ts (PUser PvFuel) (PUser PvFuel).

Section Engine.
Context {F X I E R : Type}.
Variable emb : E -> rval F X I E.
Variable pushret : list (rval F X I E) -> list E -> list E * option (err X).
Variable to_float : val F X I E -> F.
Variable of_int : Z -> F.
Variable parse_float : bytes -> F + nerr.
Variable fntable : bytes -> option (gofn F X I E R).
Variables tstk tipt : rtype.
Variable callfn : option (gofn F X I E R -> est I E R -> est I E R + (panic (X := X) * est I E R)).
Notation S := (est I E R).
Notation Act := (iact emb pushret to_float of_int parse_float fntable tstk tipt callfn).
Notation Body := (body emb pushret to_float of_int parse_float tstk tipt callfn).
Notation Cl := (iclient emb pushret to_float of_int parse_float fntable tstk tipt callfn).
Notation find_fn := (fn_of fntable).

Lemma runs_dec : forall mark mute, runs mark mute <-> silenced mark mute = false.
Proof.
  intros mark mute. unfold runs, silenced. destruct (Z.ltb_spec 0 mute) as [L|L]; cbn [andb]; [|split; auto].
  rewrite orb_false_iff, negb_false_iff. split.
  - intros [H | (-> & r & ->)]; [lia|]. split; reflexivity.
  - intros (H1 & H2). right. apply Z.ltb_ge in H2. split; [lia|]. destruct mark as [|ch r]; [discriminate|]. apply Z.eqb_eq in H1. subst. eauto.
Qed.
(** *** C39 *)
(** one action, whatever its function does *)
Theorem C39_action : forall mark fn ts l (s : S), find_fn mark = Some fn ->
  (~ runs mark (e_mute s) -> Act mark ts l s = inl s) /\
  (runs mark (e_mute s) -> match Body mark fn ts l s with inl s' => Act mark ts l s = inl s' | inr (p, s') => exists p', Act mark ts l s = inr (p', s') /\ surfaces ts p p' end).
Proof.
  intros mark fn ts l s H. unfold iact. rewrite H. split; intro R0.
  - rewrite runs_dec in R0. destruct (silenced mark (e_mute s)); [reflexivity|congruence].
  - apply runs_dec in R0. rewrite R0. destruct (Body mark fn ts l s) as [s'|(p, s')]; [reflexivity|]. eexists. split; [reflexivity|].
    destruct p as [e| |[e|st|e src|x|]]; constructor.
Qed.
(** the built-in marks always run *)
Theorem C39_mute : forall ts l (s : S), find_fn m_mute = None -> Act m_mute ts l s = inl (set_mute (e_mute s + 1) s).
Proof. intros ts l s H. unfold iact. rewrite H. reflexivity. Qed.
Theorem C39_unmute : forall ts l (s : S), find_fn m_unmute = None -> Act m_unmute ts l s = inl (set_mute (e_mute s - 1) s).
Proof. intros ts l s H. unfold iact. rewrite H. reflexivity. Qed.

(** the marks whose functions run, of a sequence of marks met with mute count [n] *)
Inductive ran : Z -> list bytes -> list bytes -> Prop :=
| Ran_nil : forall n, ran n [] []
| Ran_mute : forall n ms l, ran (n + 1) ms l -> ran n (m_mute :: ms) l
| Ran_unmute : forall n ms l, ran (n - 1) ms l -> ran n (m_unmute :: ms) l
| Ran_tr : forall n ms l, ran n ms l -> ran n (m_tr :: ms) l
| Ran_run : forall n m fn ms l, find_fn m = Some fn -> runs m n -> ran n ms l -> ran n (m :: ms) (m :: l)
| Ran_silent : forall n m fn ms l, find_fn m = Some fn -> ~ runs m n -> ran n ms l -> ran n (m :: ms) l.
Fixpoint marks (tr : list (ev (A := bytes) (T := Empty_set))) : list bytes :=
  match tr with EvAct m _ _ :: tr' => m :: marks tr' | _ :: tr' => marks tr' | [] => [] end.
(** A whole evaluation, with functions that record their marks: if the derivation of the match meets the marks [marks tr],
    the functions that ran are those the mute counts say, from count 0, whatever the count was before. *)
Theorem C39_evaluation : forall (record : R -> list bytes) env g src o tr (s : st S) n err s',
  find_fn m_mute = None -> find_fn m_unmute = None -> find_fn m_tr = None ->
  (forall m fn ts l (x : S), find_fn m = Some fn -> exists x', Body m fn ts l x = inl x' /\ e_mute x' = e_mute x /\ record (e_rest x') = record (e_rest x) ++ [m]) ->
  peg env g src o tr -> Forall (fun m => find_fn m <> None \/ m = m_mute \/ m = m_unmute \/ m = m_tr) (marks tr) ->
  returns env (lift Cl) g src (iinit s) n err s' ->
  exists l, ran 0 (marks tr) l /\ record (e_rest (ust s')) = record (e_rest (ust s)) ++ l.
Proof.
  intros record env g src o tr s n err s' N1 N2 N3 Hrec Hp Hm (f & H).
  destruct (link_ret env Cl _ _ _ _ _ _ _ _ _ Hp H) as (_ & Hrun). specialize (Hrun []). cbn [iinit ust] in Hrun.
  change 0 with (e_mute (set_mute 0 (ust s))). change (e_rest (ust s)) with (e_rest (set_mute 0 (ust s))).
  revert Hrun Hm. generalize (set_mute 0 (ust s)) as x. generalize (@nil unit) as vs. clear - N1 N2 N3 Hrec.
  induction tr as [|[m ts l|[]|[]] tr IH]; intros vs x Hrun Hm.
  - cbn in Hrun. injection Hrun as HE. exists []. rewrite <- HE, app_nil_r. split; [constructor|reflexivity].
  - cbn [run u_act iclient marks] in *. inversion Hm as [|? ? Hm1 Hm2]; subst. destruct (find_fn m) as [fn|] eqn:Ef.
    + destruct (C39_action m fn ts l x Ef) as (A1 & A2).
      assert (D : runs m (e_mute x) \/ ~ runs m (e_mute x)) by (rewrite runs_dec; destruct (silenced m (e_mute x)); [right; discriminate|left; reflexivity]).
      destruct D as [D|D].
      * specialize (A2 D). destruct (Hrec m fn ts l x Ef) as (x' & Ex & Em & Er). rewrite Ex in A2. rewrite A2 in Hrun.
        destruct (IH vs x' Hrun Hm2) as (l' & Q1 & Q2). exists (m :: l'). rewrite Em in Q1. split; [econstructor; eassumption|].
        rewrite Q2, Er, <- app_assoc. reflexivity.
      * rewrite (A1 D) in Hrun. destruct (IH vs x Hrun Hm2) as (l' & Q1 & Q2). exists l'. split; [eapply Ran_silent; eassumption|exact Q2].
    + assert (D : m = m_mute \/ m = m_unmute \/ m = m_tr) by (destruct Hm1 as [Hm1|Hm1]; [congruence|exact Hm1]).
      destruct D as [-> | [-> | ->]].
      * rewrite C39_mute in Hrun by exact N1. destruct (IH _ _ Hrun Hm2) as (l' & Q1 & Q2). exists l'. split; [apply Ran_mute; exact Q1|exact Q2].
      * rewrite C39_unmute in Hrun by exact N2. destruct (IH _ _ Hrun Hm2) as (l' & Q1 & Q2). exists l'. split; [apply Ran_unmute; exact Q1|exact Q2].
      * assert (HE : Act m_tr ts l x = inl x) by (unfold iact; rewrite N3; reflexivity). rewrite HE in Hrun.
        destruct (IH _ _ Hrun Hm2) as (l' & Q1 & Q2). exists l'. split; [apply Ran_tr; exact Q1|exact Q2].
Qed.
(** Init: what an evaluation does, except for the mute count itself on failure of the first step, does not depend on the count before. *)
Theorem C39_init : forall env g isL isD mC mS f tk old src (s : st S) z,
  MatchExactly env (lift Cl) isL isD mC mS iinit f g tk old src (mkSt (lens s) (set_mute z (ust s))) =
  match MatchExactly env (lift Cl) isL isD mC mS iinit f g tk old src s with
  | MNoGrammar _ => MNoGrammar (mkSt (lens s) (set_mute z (ust s)))
  | MTokErr e _ => MTokErr e (mkSt (lens s) (set_mute z (ust s)))
  | r => r
  end.
Proof.
  intros env g isL isD mC mS f tk old src s z. unfold MatchExactly, Match.
  assert (HE : iinit (mkSt (lens s) (set_mute z (ust s))) = iinit s) by reflexivity. rewrite HE.
  assert (D : g = GNil \/ forall (Y : Type) (a b : Y), match g with GNil => a | _ => b end = b) by (destruct g; auto).
  destruct D as [-> | D]; [reflexivity|]. rewrite !D. destruct (Tokenize isL isD mC mS tk old src) as [ts eof|eof e|]; [|reflexivity|reflexivity].
  destruct (gmatch env (lift Cl) f g ts (iinit s)) as [n [e|] s1|p s1|]; try reflexivity. destruct (skipn n ts); reflexivity.
Qed.

(** *** C45 *)
Definition final_state {A0 T0 P0 U0 : Type} (o : @mout A0 T0 P0 U0) : option (st U0) :=
  match o with MNext _ s | MNil s | MNoGrammar s | MTokErr _ s | MFail _ s | MPanic _ s => Some s | MFuel => None end.
Notation Eval_tokens := (EvalCode emb pushret to_float of_int parse_float fntable tstk tipt callfn).
Notation Eval_text := (EvalCodeText emb pushret to_float of_int parse_float fntable tstk tipt callfn).
(** nil, an error or a panic: the interpreter and the mute count are those of before *)
Theorem C45_restored : forall (M : Type) (d : dst bytes Empty_set M) f fn name doc (s s' : st S),
  final_state (Eval_tokens d f fn name doc s) = Some s' -> e_ipt (ust s') = e_ipt (ust s) /\ e_mute (ust s') = e_mute (ust s).
Proof.
  intros M d f fn name doc s s' H. unfold EvalCode in H. destruct (EvalSubTokens _ _ _ _ _ _ _); cbn in H; inversion H; subst; split; reflexivity.
Qed.
Theorem C45_restored_text : forall (M : Type) (d : dst bytes Empty_set M) isL isD mC mS f tk old fn name text (s s' : st S),
  final_state (Eval_text d isL isD mC mS f tk old fn name text s) = Some s' -> e_ipt (ust s') = e_ipt (ust s) /\ e_mute (ust s') = e_mute (ust s).
Proof.
  intros M d isL isD mC mS f tk old fn name text s s' H. unfold EvalCodeText in H. destruct (EvalSubText _ _ _ _ _ _ _ _ _ _ _ _); cbn in H; inversion H; subst; split; reflexivity.
Qed.

(** [log] records the receivers of the functions that take the interpreter; functions keep the current interpreter (as nested EvalCode calls do, by C45_restored). *)
Section Current.
Variable log : R -> list (rval F X I E).
Definition logs (k : nat) (fn : gofn F X I E R) : Prop := forall args (x : S), match fn_call fn args x with
  | inl (_, x') => e_ipt x' = e_ipt x /\ log (e_rest x') = log (e_rest x) ++ (if (k =? 2)%nat then firstn 1 args else [])
  | inr (_, x') => log (e_rest x') = log (e_rest x) ++ (if (k =? 2)%nat then firstn 1 args else [])
  end.
Hypothesis Hlog : forall m fn, find_fn m = Some fn -> logs (recvr tstk tipt fn) fn.
Hypothesis Hcallfn : forall cf fn (x : S), callfn = Some cf -> match cf fn x with
  | inl x' => e_ipt x' = e_ipt x /\ log (e_rest x') = log (e_rest x)
  | inr (_, x') => log (e_rest x') = log (e_rest x)
  end.
Variable i : I.
Variable l0 : list (rval F X I E).
Definition current (x : S) : Prop := e_ipt x = i /\ exists l, log (e_rest x) = l0 ++ l /\ Forall (eq (Some (mkVal tipt (DIpt i)))) l.
Definition current_p (x : S) : Prop := exists l, log (e_rest x) = l0 ++ l /\ Forall (eq (Some (mkVal tipt (DIpt i)))) l.
Lemma act_current : forall m ts l (x : S), current x -> match Act m ts l x with inl x' => current x' | inr (_, x') => current_p x' end.
Proof.
  intros m ts l x Hx. unfold iact. destruct (find_fn m) as [fn|] eqn:Ef; [|destruct (beq m m_mute); [exact Hx|]; destruct (beq m m_unmute); exact Hx].
  destruct (silenced m (e_mute x)); [exact Hx|]. specialize (Hlog m fn Ef).
  assert (W : forall r : S + (panic (X := X) * S), match r with inl x' => current x' | inr (_, x') => current_p x' end ->
     match match r with inl s' => inl s' | inr (p, s') => inr (wrap ts p, s') end with inl x' => current x' | inr (_, x') => current_p x' end) by (intros [x'|(p, x')] Q; exact Q).
  apply W. clear W. unfold body. destruct (recvr tstk tipt fn =? 0)%nat eqn:E0.
  - destruct callfn as [cf|] eqn:Ec.
    + specialize (Hcallfn cf fn x eq_refl). destruct Hx as (Hi & l1 & El & Fl). destruct (cf fn x) as [x'|(p, x')].
      * destruct Hcallfn as (Q1 & Q2). split; [congruence|]. exists l1. rewrite Q2. auto.
      * exists l1. rewrite Hcallfn. auto.
    + apply Nat.eqb_eq in E0. rewrite E0 in Hlog.
      assert (G : match DoCall emb pushret to_float fn (Z.of_nat (length (fn_in fn))) false x with inl (_, x') => current x' | inr (_, x') => current_p x' end).
      { unfold DoCall. assert (AP : forall args y, current y -> match apply_fn pushret fn args y with inl (_, x') => current x' | inr (_, x') => current_p x' end).
        { intros args y (Hi & l1 & El & Fl). unfold apply_fn. specialize (Hlog args y). destruct (fn_call fn args y) as [(outs, y')|(p, y')].
          - destruct Hlog as (Q1 & Q2). cbn [Nat.eqb] in Q2. rewrite app_nil_r in Q2. destruct (pushret outs (e_stk y')) as [stk' er]. split; [cbn; congruence|]. exists l1. cbn. rewrite Q2. auto.
          - cbn [Nat.eqb] in Hlog. rewrite app_nil_r in Hlog. exists l1. rewrite Hlog. auto. }
        destruct (0 <? Z.of_nat (length (fn_in fn))); [|apply AP; exact Hx].
        destruct (PopArgs emb (Z.of_nat (length (fn_in fn))) (e_stk x)) as [[(args, stk')|]|]; [|exact Hx|destruct Hx as (_ & Hx); exact Hx].
        assert (Hx1 : current (set_stk stk' x)) by exact Hx.
        destruct (validateArgs to_float (fn_in fn) false args) as [[args'|e]|]; [apply AP; exact Hx1|exact Hx1|destruct Hx1 as (_ & Hx1); exact Hx1]. }
      destruct (DoCall emb pushret to_float fn (Z.of_nat (length (fn_in fn))) false x) as [([e|], x')|(p, x')]; try exact G. destruct G as (_ & G); exact G.
  - assert (RR : forall args, raise_ret (fn_call fn (self tstk tipt (recvr tstk tipt fn) x :: args) x) = raise_ret (fn_call fn (self tstk tipt (recvr tstk tipt fn) x :: args) x) ->
        match raise_ret (fn_call fn (self tstk tipt (recvr tstk tipt fn) x :: args) x) with inl x' => current x' | inr (_, x') => current_p x' end).
    { intros args _. specialize (Hlog (self tstk tipt (recvr tstk tipt fn) x :: args) x). destruct Hx as (Hi & l1 & El & Fl).
      assert (L : exists l2, l0 ++ l2 = log (e_rest x) ++ (if (recvr tstk tipt fn =? 2)%nat then firstn 1 (self tstk tipt (recvr tstk tipt fn) x :: args) else []) /\ Forall (eq (Some (mkVal tipt (DIpt i)))) l2).
      { destruct (recvr tstk tipt fn =? 2)%nat eqn:E2.
        - apply Nat.eqb_eq in E2. rewrite E2. exists (l1 ++ [self tstk tipt 2 x]). rewrite El, <- app_assoc. split; [reflexivity|]. apply Forall_app. split; [exact Fl|]. constructor; [|constructor]. unfold self. cbn [Nat.eqb]. rewrite Hi. reflexivity.
        - exists l1. rewrite El, app_nil_r. auto. }
      destruct L as (l2 & L1 & L2). rewrite <- L1 in Hlog.
      destruct (fn_call fn (self tstk tipt (recvr tstk tipt fn) x :: args) x) as [(outs, y)|(p, y)]; cbn [raise_ret].
      - destruct Hlog as (Q1 & Q2). assert (C : current y) by (split; [congruence|exists l2; auto]).
        destruct outs as [|[[t []]|] outs]; try exact C. destruct C as (_ & C). exact C.
      - exists l2. auto. }
    assert (PP : forall p : panic (X := X), match inr (p, x) : S + (panic (X := X) * S) with inl x' => current x' | inr (_, x') => current_p x' end) by (intro p; destruct Hx as (_ & Hx); exact Hx).
    destruct (fn_in fn) as [|t0 [|t1 [|t2 ins]]] eqn:Ei; [exact (PP runtime)|apply RR; reflexivity| |].
    + destruct (arg1 of_int parse_float m ts l t1) as [v|p]; [apply RR; reflexivity|exact (PP p)].
    + destruct (arg1 of_int parse_float m ts l t1) as [v|p]; [|exact (PP p)]. destruct (ctxValue ts); [apply RR; reflexivity|exact (PP runtime)].
Qed.
End Current.
(** During EvalCode, the receiver of every function that takes the interpreter is the given one. *)
Theorem C45_current : forall (log : R -> list (rval F X I E)) (M : Type) (d : dst bytes Empty_set M) f i name doc (s s' : st S),
  (forall m fn, find_fn m = Some fn -> logs log (recvr tstk tipt fn) fn) ->
  (forall cf fn (x : S), callfn = Some cf -> match cf fn x with
    | inl x' => e_ipt x' = e_ipt x /\ log (e_rest x') = log (e_rest x) | inr (_, x') => log (e_rest x') = log (e_rest x) end) ->
  final_state (Eval_tokens d f i name doc s) = Some s' ->
  exists l, log (e_rest (ust s')) = log (e_rest (ust s)) ++ l /\ Forall (fun v => v = Some (mkVal tipt (DIpt i))) l.
Proof.
  intros log M d f i name doc s s' Hl Hc H. unfold EvalCode, EvalSubTokens in H.
  assert (G : forall l : list (rval F X I E), Forall (eq (Some (mkVal tipt (DIpt i)))) l -> Forall (fun v => v = Some (mkVal tipt (DIpt i))) l).
  { intros l Fl. eapply Forall_impl; [|exact Fl]. intros v E0. symmetry. exact E0. }
  destruct (find name (d_grams d)) as [g|]; [|cbn in H; inversion H; subst; exists []; rewrite app_nil_r; auto].
  pose proof (gm_inv (cenv d) (lift Cl) (fun x => current log i (log (e_rest (ust s))) (ust x)) (fun p x => current_p log i (log (e_rest (ust s))) (ust x))
    ltac:(intros id v x Q; exact Q)
    ltac:(intros a ts l x Q; cbn [lift c_act u_act iclient]; pose proof (act_current log Hl Hc i (log (e_rest (ust s))) a ts l (ust x) Q) as Q'; destruct (Act a ts l (ust x)) as [x'|(p, x')]; exact Q')
    ltac:(intros [])  ltac:(intros []) ltac:(intros x Q; destruct Q as (_ & Q); exact Q) ltac:(intros e x Q; destruct Q as (_ & Q); exact Q)
    f g doc (iinit (mkSt (lens s) (set_ipt i (ust s))))) as Q.
  assert (Q0 : current log i (log (e_rest (ust s))) (ust (iinit (mkSt (lens s) (set_ipt i (ust s)))))).
  { split; [reflexivity|]. exists []. cbn. rewrite app_nil_r. auto. }
  specialize (Q Q0). destruct (gmatch (cenv d) (lift Cl) f g doc (iinit (mkSt (lens s) (set_ipt i (ust s))))) as [n [e|] s1|p s1|]; cbn in H, Q; [| | |discriminate].
  - inversion H; subst. destruct Q as (_ & l & Q1 & Q2). exists l. cbn. auto.
  - destruct Q as (_ & l & Q1 & Q2). exists l. destruct (length doc =? n)%nat; cbn in H; inversion H; subst; cbn; auto.
  - inversion H; subst. destruct Q as (l & Q1 & Q2). exists l. cbn. auto.
Qed.

(** *** C46 *)
(** Every panic of an evaluation is the matcher's own (a failed [!], a nil grammar), or that of an action's body as it surfaces there. *)
Theorem C46_surfaces : forall env g isL isD mC mS minit f tk old src (s : st S) p s',
  MatchExactly env (lift Cl) isL isD mC mS minit f g tk old src s = MPanic p s' ->
  (exists e, p = PMatch e) \/ p = PNilDeref \/
  exists m fn ts l x raw, find_fn m = Some fn /\ runs m (e_mute x) /\ Body m fn ts l x = inr (raw, ust s') /\ surfaces ts raw p.
Proof.
  intros env g isL isD mC mS minit f tk old src s p s' H.
  unfold MatchExactly, Match in H. assert (D : g = GNil \/ forall (Y : Type) (a b : Y), match g with GNil => a | _ => b end = b) by (destruct g; auto).
  destruct D as [-> | D]; [discriminate|]. rewrite D in H. clear D. destruct (Tokenize isL isD mC mS tk old src) as [ts eof|eof e|]; [|discriminate|discriminate].
  pose proof (gm_inv env (lift Cl) (fun _ => True) (fun p s' => (exists e, p = PMatch e) \/ p = PNilDeref \/
    exists m fn ts l x raw, find_fn m = Some fn /\ runs m (e_mute x) /\ Body m fn ts l x = inr (raw, ust s') /\ surfaces ts raw p)) as G.
  specialize (G ltac:(auto)).
  assert (HA : forall a ts l s0, True -> match c_act (lift Cl) a ts l s0 with AOk _ => True | APanic p s' => (exists e, p = PMatch e) \/ p = PNilDeref \/
    exists m fn ts l x raw, find_fn m = Some fn /\ runs m (e_mute x) /\ Body m fn ts l x = inr (raw, ust s') /\ surfaces ts raw p | AOutOfFuel => True end).
  { intros a ts0 l s0 _. cbn [lift c_act u_act iclient]. unfold iact. destruct (find_fn a) as [fn|] eqn:Ef.
    - destruct (silenced a (e_mute (ust s0))) eqn:Es; [exact Logic.I|]. apply runs_dec in Es. destruct (Body a fn ts0 l (ust s0)) as [x'|(raw, x')] eqn:Eb; [exact Logic.I|].
      right. right. exists a, fn, ts0, l, (ust s0), raw. split; [exact Ef|]. split; [exact Es|]. split; [exact Eb|]. destruct raw as [e| |[e|st|e src0|x|]]; constructor.
    - destruct (beq a m_mute); [exact Logic.I|]. destruct (beq a m_unmute); exact Logic.I. }
  specialize (G HA ltac:(intros []) ltac:(intros []) ltac:(intros s0 _; right; left; reflexivity) ltac:(intros e s0 _; left; exists e; reflexivity) f g ts (minit s) Logic.I).
  destruct (gmatch env (lift Cl) f g ts (minit s)) as [n [e|] s1|q s1|]; try discriminate; [destruct (skipn n ts); discriminate|]. injection H as -> ->. exact G.
Qed.
(** so no plain error or string ever surfaces *)
Theorem C46_always_wrapped : forall env g isL isD mC mS minit f tk old src (s : st S) p s',
  MatchExactly env (lift Cl) isL isD mC mS minit f g tk old src s = MPanic p s' ->
  (forall e, p <> PUser (PvErr e)) /\ (forall e, p <> PUser (PvStr e)).
Proof.
  intros env g isL isD mC mS minit f tk old src s p s' H.
  destruct (C46_surfaces _ _ _ _ _ _ _ _ _ _ _ _ _ _ H) as [(e & ->) | [-> | (m & fn & ts & l & x & raw & _ & _ & _ & Hs)]]; [split; discriminate|split; discriminate|].
  destruct Hs; split; discriminate.
Qed.
(** enclosing actions leave it as it is: the innermost action's tokens stay *)
Theorem C46_once : forall ts ts' (raw p p' : panic (X := X)), surfaces ts raw p -> surfaces ts' p p' -> p' = p.
Proof. intros ts ts' raw p p' H1 H2. destruct H1; inversion H2; reflexivity. Qed.
End Engine.

(** An engine with two functions that record their mark and receiver, one that fails; the receiver is the interpreter (a number). *)
Section EngineInstance.
Notation RR := (list (bytes * rval unit unit Z unit)).
Notation SS := (est Z unit RR).
Definition ty_stk : rtype := mkTy KPtr 20.
Definition ty_ipt : rtype := mkTy KPtr 21.
Definition recorder (m : bytes) : gofn unit unit Z unit RR :=
  mkFn true [ty_ipt] false [] (fun args x => inl ([], mkE (e_mute x) (e_ipt x) (e_stk x) (e_rest x ++ map (pair m) (firstn 1 args)))).
Definition thrower : gofn unit unit Z unit RR := mkFn true [ty_stk] false [] (fun args x => inr (PUser (PvStr (SUndefined [120])), x)).
Definition m_a : bytes := s2b "a".
Definition m_b : bytes := s2b "_b".
Definition ex_table (throw : bool) (m : bytes) : option (gofn unit unit Z unit RR) :=
  if beq m (36 :: m_a) then Some (recorder m_a) else if beq m (36 :: m_b) then Some (recorder m_b) else if throw && beq m (s2b "$t") then Some thrower else None.
Definition ex_client := iclient (fun _ => None) (PushRet (fun _ => inr EUnsupportedRet)) (fun _ => tt) (fun _ => tt) (fun _ => inl tt) (ex_table false) ty_stk ty_ipt None.
Definition ex_gr (ms : list bytes) : gr bytes Empty_set := GAnd (map (GAct (GTok IDENT)) ms).
Definition ex_toks (n : nat) : list token := repeat (mkTok IDENT 0 [97]) n.
Definition ex_state : st SS := mkSt (fun _ => 0) (mkE 7 5 [] []).
(** a, _b run at count 0; only _b at count 1; none at count 2 *)
Example C39_instance :
  match gmatch (fun _ => None) (lift ex_client) 20 (ex_gr [m_a; m_b; m_mute; m_a; m_b; m_mute; m_a; m_b; m_unmute; m_b; m_unmute; m_a]) (ex_toks 12) (iinit ex_state) with
  | Ret 12 None s' => map fst (e_rest (ust s')) = [m_a; m_b; m_b; m_b; m_a] /\ e_mute (ust s') = 0
  | _ => False
  end.
Proof. vm_compute. split; reflexivity. Qed.
(** EvalCode of a rule that runs [a] and then fails: the receiver of [a] is the given interpreter 9, the old one (5) and the old mute count (7) are back,
    and the panic is a RuntimeError with the tokens of the failing action. *)
Definition ex_dst : dst bytes Empty_set unit := mkD [([120], ex_gr [m_a; s2b "t"])] [] (AutoKw new_akw) 0 tt.
Example C45_C46_instance :
  match EvalCode (fun _ => None) (PushRet (fun _ => inr EUnsupportedRet)) (fun _ => tt) (fun _ => tt) (fun _ => inl tt) (ex_table true) ty_stk ty_ipt None ex_dst 20 9 [120] (ex_toks 2) ex_state with
  | MPanic p s' => p = PUser (PvRuntime (EOfStr (SUndefined [120])) (ex_toks 1)) /\ ust s' = mkE 7 5 [] [(m_a, Some (mkVal ty_ipt (DIpt 9)))]
  | _ => False
  end.
Proof. vm_compute. split; reflexivity. Qed.
Example C39_hypotheses : forall m fn ts l (x : SS), fn_of (ex_table false) m = Some fn -> exists x',
  body (fun _ => None) (PushRet (fun _ => inr EUnsupportedRet)) (fun _ => tt) (fun _ => tt) (fun _ => inl tt) ty_stk ty_ipt None m fn ts l x = inl x' /\
  e_mute x' = e_mute x /\ map fst (e_rest x') = map fst (e_rest x) ++ [m].
Proof.
  intros m fn ts l x H. unfold fn_of, ex_table in H. destruct (beq (36 :: m) (36 :: m_a)) eqn:E1; [|destruct (beq (36 :: m) (36 :: m_b)) eqn:E2; [|discriminate]]; injection H as <-;
    [apply beq_eq in E1; injection E1 as ->|apply beq_eq in E2; injection E2 as ->]; (eexists; split; [reflexivity|]; split; [reflexivity|]; cbn; rewrite map_app; reflexivity).
Qed.
Example C45_hypotheses : forall m fn, fn_of (ex_table true) m = Some fn -> logs (fun r => map snd r) (recvr ty_stk ty_ipt fn) fn.
Proof.
  intros m fn H. unfold fn_of, ex_table in H. destruct (beq (36 :: m) (36 :: m_a)); [|destruct (beq (36 :: m) (36 :: m_b)); [|destruct (true && beq (36 :: m) (s2b "$t")); [|discriminate]]]; injection H as <-;
    intros args x; cbn; rewrite ?app_nil_r; try (split; [reflexivity|]); try reflexivity; rewrite map_app; destruct args as [|v args]; reflexivity.
Qed.
End EngineInstance.

Print Assumptions C39_action.
Print Assumptions C39_mute.
Print Assumptions C39_unmute.
Print Assumptions C39_evaluation.
Print Assumptions C39_init.
Print Assumptions C42_call.
Print Assumptions C42_bad_result.
Print Assumptions C42_count.
Print Assumptions C42_short_stack.
Print Assumptions C42_bad_argument.
Print Assumptions C42_vcall.
Print Assumptions C42_vcall_short.
Print Assumptions C43_parse_int.
Print Assumptions C44_parse_float.
Print Assumptions C44_refuted.
Print Assumptions C45_restored.
Print Assumptions C45_restored_text.
Print Assumptions C45_current.
Print Assumptions C46_surfaces.
Print Assumptions C46_always_wrapped.
Print Assumptions C46_once.
