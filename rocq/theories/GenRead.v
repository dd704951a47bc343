(** The texts GenStaticCode writes read back as the grammars Cl builds. *)
From Coq Require Import String Permutation.
From Verif Require Import Base Token Utf8 Scanner Tokenize Grammar Matcher Compiler GramSyntax CompilerProofs CompilerTop CompilerMore CompilerDen Gen GenSpec GenProofs.
Local Open Scope Z_scope.

(** ** Words *)
Lemma word_app : forall w rest, forallb (fun c => negb (delim c)) w = true -> match rest with [] => True | c :: _ => delim c = true end -> word (w ++ rest) = (w, rest).
Proof.
  induction w as [|c w IH]; intros rest H Hr.
  - destruct rest as [|c r]; [reflexivity|]. cbn [app word]. rewrite Hr. reflexivity.
  - cbn [forallb] in H. apply andb_true_iff in H. destruct H as [H1 H2]. apply negb_true_iff in H1. cbn [app word]. rewrite H1, (IH _ H2 Hr). reflexivity.
Qed.
Lemma name_byte_delim : forall b c, name_byte b c = true -> delim c = false.
Proof.
  intros b c H. unfold name_byte in H. unfold delim. destruct b; cbn [negb andb orb] in H;
    repeat rewrite orb_true_iff in H; repeat rewrite andb_true_iff in H; repeat rewrite Z.leb_le in H; repeat rewrite Z.eqb_eq in H; repeat rewrite orb_false_iff; repeat rewrite Z.eqb_neq; lia.
Qed.
Lemma name_delim : forall n, name_bytes n = true -> forallb (fun c => negb (delim c)) n = true.
Proof.
  intros [|c r] H; [discriminate|]. cbn [name_bytes forallb] in *. apply andb_true_iff in H. destruct H as [H1 H2]. rewrite (name_byte_delim _ _ H1). cbn [negb andb].
  rewrite forallb_forall in *. intros x Hx. rewrite (name_byte_delim _ _ (H2 x Hx)). reflexivity.
Qed.
Lemma go_name_bytes : forall n, go_name n = true -> name_bytes n = true.
Proof. intros n H. unfold go_name in H. apply andb_true_iff in H. apply H. Qed.
Lemma go_not : forall n, go_name n = true -> forall m, go_name m = false -> beq n m = false.
Proof. intros n H m Hm. destruct (beq n m) eqn:E; [|reflexivity]. apply beq_eq in E. congruence. Qed.

(** no line ends in it *)
Definition oneline (t : bytes) : bool := forallb (fun c => negb (c =? 10)) t.
Lemma oneline_app : forall a b, oneline (a ++ b) = oneline a && oneline b.
Proof. intros. apply forallb_app. Qed.
Lemma oneline_word : forall w, forallb (fun c => negb (delim c)) w = true -> oneline w = true.
Proof.
  intros w H. unfold oneline. rewrite forallb_forall in *. intros c Hc. specialize (H c Hc). unfold delim in H. destruct (c =? 10) eqn:E; [|reflexivity].
  apply Z.eqb_eq in E. subst c. cbv in H. discriminate.
Qed.
Lemma oneline_commas : forall l, Forall (fun t => oneline t = true) l -> oneline (commas l) = true.
Proof.
  intros l H. induction H as [|t l Ht Hl IH]; [reflexivity|]. destruct l as [|t2 l]; [exact Ht|].
  change (commas (t :: t2 :: l)) with (t ++ [44] ++ commas (t2 :: l)). rewrite !oneline_app, Ht, IH. reflexivity.
Qed.
Definition stop (rest : bytes) : Prop := match rest with [] => True | c :: _ => c = 44 \/ c = 41 end.
Lemma stop_delim : forall rest, stop rest -> match rest with [] => True | c :: _ => delim c = true end.
Proof. intros [|c r] H; [exact I|]. destruct H as [-> | ->]; reflexivity. Qed.
Lemma stop_40 : forall rest, stop rest -> expect 40 rest = None.
Proof. intros [|c r] H; [reflexivity|]. destruct H as [-> | ->]; reflexivity. Qed.

Section Reads.
Context {A T : Type}.
Notation G := (gr A T).
Variable declared : bytes -> bool.
Variable mark : bytes -> G -> G.
Variable Hd : forall n, declared n = true -> go_name n = true.
Notation read := (read declared mark).
Notation read_args := (read_args declared mark).

Lemma read_S : forall f s, read (S f) s =
  let (w, r) := word s in
  match expect 40 r with
  | None => match bare declared w with Some g => Some (g, r) | None => None end
  | Some r1 =>
      if beq w w_Gr then
        match read_token r1 with
        | Some (k, r2) => match expect 41 r2 with Some r3 => Some (GTok k, r3) | None => None end
        | None => None
        end
      else if beq w w_Marker then
        match read f r1 with
        | Some (g, r2) =>
            match skip [44; 34] r2 with
            | Some r3 => let (n, r4) := word r3 in match skip [34; 41] r4 with Some r5 => Some (mark n g, r5) | None => None end
            | None => None
            end
        | None => None
        end
      else match read_args f r1 with
           | Some (gs, r2) => match apply w gs with Some g => Some (g, r2) | None => None end
           | None => None
           end
  end.
Proof. reflexivity. Qed.
Lemma read_args_S : forall f s, read_args (S f) s =
  match read f s with
  | Some (g, r) =>
      match expect 44 r with
      | Some r1 => match read_args f r1 with Some (gs, r2) => Some (g :: gs, r2) | None => None end
      | None => match expect 41 r with Some r1 => Some ([g], r1) | None => None end
      end
  | None => None
  end.
Proof. reflexivity. Qed.

Definition reads (t : bytes) (g : G) : Prop := oneline t = true /\ forall rest f, stop rest -> (length t < f)%nat -> read f (t ++ rest) = Some (g, rest).
Definition reads_args (l : list bytes) (gs : list G) : Prop :=
  forall rest f, (length (commas l) + 1 < f)%nat -> read_args f (commas l ++ [41] ++ rest) = Some (gs, rest).

Lemma reads_list : forall l gs, l <> [] -> Forall2 reads l gs -> reads_args l gs.
Proof.
  intros l gs Hne H. induction H as [|t g l gs Ht Hl IH]; [congruence|]. intros rest f Hf. destruct f as [|f]; [lia|].
  destruct l as [|t2 l].
  - inversion Hl; subst. cbn [commas] in *. rewrite read_args_S. rewrite (proj2 Ht ([41] ++ rest) f); [|right; reflexivity|lia]. cbn. reflexivity.
  - change (commas (t :: t2 :: l)) with (t ++ [44] ++ commas (t2 :: l)) in *. rewrite !app_length in Hf. cbn [length] in Hf. rewrite <- !app_assoc.
    rewrite read_args_S. rewrite (proj2 Ht _ f); [|left; reflexivity|lia]. cbn [expect app]. rewrite Z.eqb_refl.
    change (commas (t2 :: l) ++ 41 :: rest) with (commas (t2 :: l) ++ [41] ++ rest). rewrite IH; [reflexivity|discriminate|lia].
Qed.
Lemma reads_call : forall w l gs g, l <> [] -> forallb (fun c => negb (delim c)) w = true -> (0 < length w)%nat -> beq w w_Gr = false -> beq w w_Marker = false ->
  Forall2 reads l gs -> apply w gs = Some g -> reads (w ++ [40] ++ commas l ++ [41]) g.
Proof.
  intros w l gs g Hne Hw Hl H1 H2 HF Ha. split.
  { rewrite !oneline_app, (oneline_word w Hw), oneline_commas; [reflexivity|]. clear -HF. induction HF as [|x y l l' H]; constructor; [apply H|assumption]. }
  intros rest f Hs Hf. destruct f as [|f]; [lia|]. rewrite !app_length in Hf. cbn [length] in Hf.
  rewrite <- !app_assoc. rewrite read_S. rewrite (word_app w); [|exact Hw|reflexivity]. cbn [expect app]. rewrite Z.eqb_refl, H1, H2.
  change (commas l ++ 41 :: rest) with (commas l ++ [41] ++ rest). rewrite (reads_list l gs Hne HF) by lia. rewrite Ha. reflexivity.
Qed.
Lemma reads_bare : forall w g, forallb (fun c => negb (delim c)) w = true -> bare declared w = Some g -> reads w g.
Proof.
  intros w g Hw Hb. split; [apply oneline_word; exact Hw|]. intros rest f Hs Hf. destruct f as [|f]; [lia|]. rewrite read_S. rewrite (word_app w); [|exact Hw|apply stop_delim; exact Hs].
  rewrite (stop_40 _ Hs), Hb. reflexivity.
Qed.
Lemma undeclared : forall n, go_name n = false -> declared n = false.
Proof. intros n H. destruct (declared n) eqn:E; [|reflexivity]. apply Hd in E. congruence. Qed.
Lemma reads_name : forall n, declared n = true -> reads n (GVar n).
Proof. intros n H. apply reads_bare; [apply name_delim, go_name_bytes, Hd; exact H|]. unfold bare. rewrite H. reflexivity. Qed.
Lemma reads_true : reads x_true GTrue.
Proof. apply reads_bare; [reflexivity|]. unfold bare. rewrite undeclared by reflexivity. reflexivity. Qed.
Lemma reads_nil : reads x_nil GNil.
Proof. apply reads_bare; [reflexivity|]. unfold bare. rewrite undeclared by reflexivity. reflexivity. Qed.
Lemma reads_char : forall l, (match l with q :: _ => q =? 39 | [] => false end) = true -> Lit2Token l <> ILLEGAL -> reads (app1 x_gr l) (GTok (Lit2Token l)).
Proof.
  intros l Hq Hn. assert (X : exists c, l = [39; c; 39] /\ Lit2Token l = c /\ (32 <=? c) && (c <=? 126) && negb (c =? 39) && negb (c =? 92) = true).
  { clear -Hq Hn. unfold Lit2Token, toktab in *. cbn [rassoc] in *.
    repeat match type of Hn with context [beq l ?k] => destruct (beq l k) eqn:?E; [apply beq_eq in E; subst l; first [solve [cbv in Hq; discriminate Hq]|solve [exfalso; apply Hn; reflexivity]|solve [eexists; split; [reflexivity|split; reflexivity]]]|clear E] end.
    exfalso. apply Hn. reflexivity. }
  destruct X as (c & -> & -> & Hc). split.
  { cbn. destruct (c =? 10) eqn:E; [|reflexivity]. apply Z.eqb_eq in E. subst c. discriminate. }
  intros rest f Hs Hf. destruct f as [|f]; [lia|]. unfold app1. rewrite <- !app_assoc. rewrite read_S.
  rewrite (word_app x_gr); [|reflexivity|reflexivity]. change (expect 40 ([40] ++ [39; c; 39] ++ [41] ++ rest)) with (Some ([39; c; 39] ++ [41] ++ rest)).
  change (beq x_gr w_Gr) with true. cbn iota. cbn [app read_token]. rewrite !Z.eqb_refl. cbn [andb]. rewrite Hc. cbn [expect]. rewrite Z.eqb_refl. reflexivity.
Qed.
Lemma reads_class : forall n, upper n = true -> Lit2Token n <> ILLEGAL -> reads (app1 x_gr (x_tpl ++ n)) (GTok (Lit2Token n)).
Proof.
  intros n Hu Hn. unfold Lit2Token, toktab in *. cbn [rassoc] in *.
  repeat match type of Hn with context [beq n ?k] => destruct (beq n k) eqn:?E; [apply beq_eq in E; subst n; first [solve [cbv in Hu; discriminate Hu]|solve [exfalso; apply Hn; reflexivity]|
    solve [split; [reflexivity|]; intros rest f Hs Hf; destruct f as [|f]; [lia|]; cbn; reflexivity]]|clear E] end.
  exfalso. apply Hn. reflexivity.
Qed.
Lemma reads_mark : forall t g n, name_bytes n = true -> reads t g -> reads (app2 x_marker t (quoted_name n)) (mark n g).
Proof.
  intros t g n Hn [Ht0 Ht]. split.
  { unfold app2, quoted_name. rewrite !oneline_app, Ht0, (oneline_word n (name_delim n Hn)). reflexivity. }
  intros rest f Hs Hf. destruct f as [|f]; [lia|]. unfold app2, quoted_name in *. rewrite !app_length in Hf. cbn [length] in Hf. rewrite <- !app_assoc. rewrite read_S.
  rewrite (word_app x_marker); [|reflexivity|reflexivity]. cbn [expect app]. rewrite Z.eqb_refl. change (beq x_marker w_Gr) with false. change (beq x_marker w_Marker) with true. cbn iota.
  rewrite Ht; [|left; reflexivity|lia]. change (skip [44; 34] (44 :: 34 :: n ++ 34 :: 41 :: rest)) with (Some (n ++ 34 :: 41 :: rest)). cbn iota.
  rewrite (word_app n); [|apply name_delim; exact Hn|reflexivity]. change (skip [34; 41] (34 :: 41 :: rest)) with (Some rest). reflexivity.
Qed.
Lemma reads_pre : forall o t g, o <> PPlus -> reads t g -> reads (app1 (pre_text o) t) (sem_pre o g).
Proof.
  intros o t g Ho Ht. change (app1 (pre_text o) t) with (pre_text o ++ [40] ++ commas [t] ++ [41]).
  apply (reads_call _ [t] [g]); try (destruct o; (reflexivity || congruence || (cbn; lia))). constructor; [exact Ht|constructor].
Qed.
Lemma reads_list2 : forall (z : bool) a b ga gb, reads a ga -> reads b gb -> reads (app2 (if z then x_list0 else x_list) a b) (GList 0 ga gb z).
Proof.
  intros z a b ga gb Ha Hb. replace (app2 (if z then x_list0 else x_list) a b) with ((if z : bool then x_list0 else x_list) ++ [40] ++ commas [a; b] ++ [41]).
  - apply (reads_call _ [a; b] [ga; gb]); try (destruct z; (reflexivity || (cbn; lia))); [discriminate|repeat (constructor; auto)].
  - unfold app2. cbn [commas]. rewrite <- !app_assoc. reflexivity.
Qed.
Lemma reads_group : forall mk gmk l gs, (mk = t_and /\ gmk = (fun l : list G => GAnd l)) \/ (mk = t_or /\ gmk = (fun l : list G => GOr l)) -> l <> [] -> Forall2 reads l gs ->
  reads (GenProofs.group mk l) (GramSyntax.group gmk gs).
Proof.
  intros mk gmk l gs Hm Hne HF. destruct HF as [|t g l gs Ht Hl]; [congruence|]. destruct l as [|t2 l].
  - inversion Hl; subst. exact Ht.
  - inversion Hl as [|? g2 ? gs' H1 H2]; subst. cbn [GenProofs.group GramSyntax.group].
    assert (X : Forall2 reads (t :: t2 :: l) (g :: g2 :: gs')) by (constructor; [exact Ht|exact Hl]).
    destruct Hm as [[-> ->]|[-> ->]]; unfold t_and, t_or, app1; (eapply reads_call; [discriminate|reflexivity|cbn; lia|reflexivity|reflexivity|exact X|reflexivity]).
Qed.
End Reads.

(** ** The elaborations of Cl and of the generator, side by side *)
Section Sim.
Context {A T PM M : Type}.
Notation G := (gr A T).
Notation D := (dst A T M).
Variable marker : G -> bytes -> M -> (G * M) + (PM * M).
Variable w : bytes -> G -> G.
Variable Hw : forall g n m g' m', marker g n m = inl (g', m') -> erase g' = w n (erase g).
Variable declared : bytes -> bool.
Variable Hd : forall n, declared n = true -> go_name n = true.
Notation reads := (reads declared w).

(** same keys, same tokener *)
Definition same_keys (d : D) (e : gdst) : Prop :=
  map fst (d_grams d) = map fst (g_grams e) /\ map fst (d_vars d) = map fst (g_vars e) /\ d_tk d = g_tk e.
(** the names of [R] stand for themselves *)
Definition own (R : list bytes) (e : gdst) : Prop := forall n s, In n R -> find n (g_vars e) = Some s -> s = n.
(** what elaborating changes: variables are added, for names of [R] that are not rules or variables yet *)
Definition adds (R : list bytes) (d d' : D) (e e' : gdst) : Prop :=
  same_keys d' e' /\ d_grams d' = d_grams d /\ g_grams e' = g_grams e /\
  (forall n, In n R -> find n (g_grams e') <> None \/ find n (g_vars e') <> None) /\
  (forall n v, find n (d_vars d) = Some v -> find n (d_vars d') = Some v) /\
  (forall n s, find n (g_vars e) = Some s -> find n (g_vars e') = Some s) /\
  (forall n s, find n (g_vars e') = Some s -> find n (g_vars e) = Some s \/
     (find n (g_vars e) = None /\ find n (g_grams e) = None /\ In n R /\ s = n /\ find n (d_vars d') = Some GNil)) /\
  (NoDup (map fst (g_vars e)) -> NoDup (map fst (g_vars e'))).
Lemma adds_refl : forall d e, same_keys d e -> adds [] d d e e.
Proof. intros d e H. split; [exact H|]. split; [reflexivity|]. split; [reflexivity|]. split; [intros n []|]. split; [auto|]. split; [auto|]. split; auto. Qed.
Lemma find_keys : forall X Y (l : list (bytes * X)) (l' : list (bytes * Y)) n, map fst l = map fst l' -> (find n l = None <-> find n l' = None).
Proof.
  induction l as [|[k v] l IH]; intros [|[k' v'] l'] n H; try discriminate; [tauto|]. cbn [map fst] in H. injection H as <- H. cbn [find].
  destruct (beq n k); [split; discriminate|]. apply IH. exact H.
Qed.
Lemma adds_trans : forall R1 R2 d1 d2 d3 e1 e2 e3, adds R1 d1 d2 e1 e2 -> adds R2 d2 d3 e2 e3 -> adds (R1 ++ R2) d1 d3 e1 e3.
Proof.
  intros R1 R2 d1 d2 d3 e1 e2 e3 (K1 & D1 & G1 & P1 & V1 & S1 & N1 & U1) (K2 & D2 & G2 & P2 & V2 & S2 & N2 & U2).
  split; [exact K2|]. split; [congruence|]. split; [congruence|]. split; [|split; [auto|split; [auto|split; [|auto]]]].
  - intros n Hn. apply in_app_iff in Hn. destruct Hn as [Hn|Hn]; [|auto]. destruct (P1 n Hn) as [H|H]; [left; congruence|]. right.
    destruct (find n (g_vars e2)) as [s|] eqn:E; [|congruence]. rewrite (S2 _ _ E). discriminate.
  - intros n s H. destruct (N2 n s H) as [H2|(H2 & H3 & H4 & H5 & H6)].
    + destruct (N1 n s H2) as [H7|(H7 & H8 & H9 & H10 & H11)]; [left; exact H7|]. right. repeat split; auto. apply in_app_iff. auto.
    + right. rewrite G1 in H3. assert (Hx : find n (g_vars e1) = None) by (destruct (find n (g_vars e1)) as [s1|] eqn:E; [apply S1 in E; congruence|reflexivity]).
      repeat split; auto. apply in_app_iff. auto.
Qed.
Lemma own_adds : forall R1 R2 d d' e e', adds R1 d d' e e' -> own R2 e -> own R2 e'.
Proof. intros R1 R2 d d' e e' (_ & _ & _ & _ & _ & _ & N & _) H n s Hi Hf. destruct (N n s Hf) as [H1|(_ & _ & _ & H1 & _)]; [eapply H; eauto|exact H1]. Qed.
Lemma own_app : forall R1 R2 e, own (R1 ++ R2) e <-> own R1 e /\ own R2 e.
Proof.
  intros R1 R2 e. split.
  - intro H. split; intros n s Hi; apply H; apply in_app_iff; auto.
  - intros [H1 H2] n s Hi. apply in_app_iff in Hi. destruct Hi; eauto.
Qed.

(** Cl's elaboration [m] gives grammars, the generator's [t] texts that read as them *)
Definition follows {Y Z' : Type} (R : list bytes) (m : GramSyntax.el (A := A) (T := T) (PM := PM) (M := M) Y) (t : GenProofs.el Z') (Q : Z' -> Y -> Prop) : Prop :=
  forall d y d' e, m d = inl (y, d') -> same_keys d e -> own R e -> (forall n, In n R -> declared n = true) ->
  exists z e', t e = inl (z, e') /\ adds R d d' e e' /\ Q z y.
Definition says (t : bytes) (g : G) : Prop := reads t (erase g).

Lemma f_token : forall l text, (Lit2Token l <> ILLEGAL -> reads text (GTok (Lit2Token l))) -> (forall r, l <> 34 :: r) -> follows [] (the_token l) (t_token l text) says.
Proof.
  intros l text Hr Hq d y d' e E K _ _. unfold the_token in E. unfold t_token. destruct K as (K1 & K2 & K3). rewrite <- K3.
  destruct (tk_ltot (d_tk d) l) as [[tok k]|] eqn:El; [|discriminate]. destruct (tok =? ILLEGAL) eqn:Ei; [discriminate|]. injection E as <- <-.
  eexists _, _. split; [reflexivity|]. split.
  - destruct (adds_refl d e (conj K1 (conj K2 K3))) as (_ & X2 & X3 & X4 & X5 & X6 & X7 & X8). split; [split; [exact K1|split; [exact K2|reflexivity]]|]. repeat (split; [assumption|]). assumption.
  - unfold says. cbn [erase]. apply Z.eqb_neq in Ei.
    assert (X : tok = Lit2Token l).
    { destruct (d_tk d) as [|k0]; cbn [tk_ltot] in El; [congruence|]. unfold KwLtot in El. destruct (Lit2Token l =? ILLEGAL) eqn:E1; cbn [negb] in El; [|congruence].
      destruct l as [|q r]; [discriminate|]. destruct (q =? 34) eqn:E2; [apply Z.eqb_eq in E2; subst q; exfalso; apply (Hq r); reflexivity|]. congruence. }
    rewrite X in *. auto.
Qed.
Lemma f_name : forall n, upper n || go_name n = true -> follows (if rule_ref n then [n] else []) (the_name n) (t_name n) says.
Proof.
  intros n Hn. unfold rule_ref. destruct n as [|ch r]; [intros d y d' e E; discriminate|]. unfold the_name, t_name, upper in *. destruct ((65 <=? ch) && (ch <=? 90)) eqn:Eu.
  - cbn [negb andb]. apply f_token; [intro H; apply reads_class; [exact Eu|exact H]|]. intros r' [= -> ->]. cbv in Eu. discriminate.
  - cbn [orb negb andb] in *. set (n := ch :: r) in *. assert (Et : beq n n_true = false) by (apply go_not; [exact Hn|reflexivity]). rewrite Et. cbn [negb].
    intros d y d' e E K Ho Hdec. specialize (Hdec n (or_introl eq_refl)). pose proof K as (K1 & K2 & K3).
    pose proof (find_keys _ _ _ _ n K1) as F1. pose proof (find_keys _ _ _ _ n K2) as F2.
    destruct (find n (d_grams d)) as [g|] eqn:Eg.
    { injection E as <- <-. destruct (find n (g_grams e)) as [t|] eqn:Eg'; [|exfalso; destruct F1 as [_ F1]; specialize (F1 eq_refl); discriminate].
      exists n, e. split; [reflexivity|]. split; [|apply reads_name; assumption].
      split; [exact K|]. split; [reflexivity|]. split; [reflexivity|]. split; [intros x [<-|[]]; left; congruence|]. split; [auto|]. split; [auto|]. split; auto. }
    destruct (find n (g_grams e)) as [t|] eqn:Eg'; [destruct F1 as [F1 _]; specialize (F1 eq_refl); discriminate|].
    destruct (find n (d_vars d)) as [v|] eqn:Ev.
    { injection E as <- <-. destruct (find n (g_vars e)) as [s|] eqn:Ev'; [|exfalso; destruct F2 as [_ F2]; specialize (F2 eq_refl); discriminate].
      exists s, e. split; [reflexivity|]. assert (Hs : s = n) by (apply (Ho n s); [left; reflexivity|exact Ev']). rewrite Hs. split; [|apply reads_name; assumption].
      split; [exact K|]. split; [reflexivity|]. split; [reflexivity|]. split; [intros x [<-|[]]; right; congruence|]. split; [auto|]. split; [auto|]. split; auto. }
    destruct (find n (g_vars e)) as [s|] eqn:Ev'; [destruct F2 as [F2 _]; specialize (F2 eq_refl); discriminate|].
    injection E as <- <-. eexists _, _. split; [reflexivity|]. split; [|apply reads_name; assumption].
    unfold put_key. rewrite Ev'. unfold adds, same_keys. cbn [d_grams d_vars d_tk add_var g_grams g_vars g_tk].
    split; [split; [exact K1|split; [rewrite !map_app, K2; reflexivity|exact K3]]|]. split; [reflexivity|]. split; [reflexivity|]. split; [|split; [|split; [|split]]].
    + intros x [<-|[]]. right. rewrite find_app, Ev', beq_refl. discriminate.
    + intros x v H. rewrite find_app, H. reflexivity.
    + intros x s H. rewrite find_app, H. reflexivity.
    + intros x s H. rewrite find_app in H. destruct (find x (g_vars e)) as [s0|] eqn:E0; [left; exact H|]. destruct (beq x n) eqn:Eb; [|discriminate]. apply beq_eq in Eb. subst x.
      right. repeat split; auto; [left; reflexivity|congruence|]. rewrite find_app, Ev, beq_refl. reflexivity.
    + intro Hnd. rewrite map_app. cbn [map fst]. apply (Permutation_NoDup (Permutation_cons_append _ _)). constructor; [apply find_none; exact Ev'|exact Hnd].
Qed.
Lemma f_ret : forall Y Z' (y : Y) (z : Z') (Q : Z' -> Y -> Prop), Q z y -> follows [] (GramSyntax.ret y) (GenProofs.ret z) Q.
Proof. intros Y Z' y z Q H d y' d' e E K _ _. injection E as <- <-. exists z, e. split; [reflexivity|]. split; [apply adds_refl; exact K|exact H]. Qed.
Lemma f_bind : forall Y Z' Y2 Z2 R1 R2 (m : GramSyntax.el Y) (t : GenProofs.el Z') (Q : Z' -> Y -> Prop) (k : Y -> GramSyntax.el Y2) (h : Z' -> GenProofs.el Z2) (Q2 : Z2 -> Y2 -> Prop),
  follows R1 m t Q -> (forall y z, Q z y -> follows R2 (k y) (h z) Q2) -> follows (R1 ++ R2) (GramSyntax.bind m k) (GenProofs.bind t h) Q2.
Proof.
  intros Y Z' Y2 Z2 R1 R2 m t Q k h Q2 H1 H2 d y d' e E K Ho Hdec. unfold GramSyntax.bind in E. unfold GenProofs.bind. destruct (m d) as [[y1 d1]|] eqn:E1; [|discriminate].
  apply own_app in Ho. destruct Ho as [O1 O2].
  destruct (H1 d y1 d1 e E1 K O1) as (z & e1 & -> & A1 & Q1); [intros; apply Hdec, in_app_iff; auto|].
  destruct (H2 y1 z Q1 d1 y d' e1 E (proj1 A1) (own_adds _ _ _ _ _ _ A1 O2)) as (z2 & e2 & X & A2 & Q2'); [intros; apply Hdec, in_app_iff; auto|].
  exists z2, e2. split; [exact X|]. split; [eapply adds_trans; eauto|exact Q2'].
Qed.
Lemma f_bind0 : forall Y Z' Y2 Z2 R (m : GramSyntax.el Y) (t : GenProofs.el Z') (Q : Z' -> Y -> Prop) (k : Y -> GramSyntax.el Y2) (h : Z' -> GenProofs.el Z2) (Q2 : Z2 -> Y2 -> Prop),
  follows R m t Q -> (forall y z, Q z y -> follows [] (k y) (h z) Q2) -> follows R (GramSyntax.bind m k) (GenProofs.bind t h) Q2.
Proof. intros Y Z' Y2 Z2 R m t Q k h Q2 H1 H2. rewrite <- (app_nil_r R). eapply f_bind; eauto. Qed.
(** making an object on Cl's side changes nothing *)
Lemma f_fresh : forall Y Z' R (k : nat -> GramSyntax.el Y) (t : GenProofs.el Z') (Q : Z' -> Y -> Prop),
  (forall i, follows R (k i) t Q) -> follows R (GramSyntax.bind GramSyntax.fresh k) t Q.
Proof.
  intros Y Z' R k t Q H d y d' e E K Ho Hdec. unfold GramSyntax.bind, GramSyntax.fresh, new_obj in E.
  destruct (H _ _ _ _ e E K Ho Hdec) as (z & e' & X & A1 & Q1). exists z, e'. auto.
Qed.
Lemma f_each : forall X (f : X -> GramSyntax.el G) (t : X -> GenProofs.el bytes) (R : X -> list bytes) l, Forall (fun x => follows (R x) (f x) (t x) says) l ->
  follows (flat_map R l) (GramSyntax.each f l) (GenProofs.each t l) (fun zs ys => Forall2 says zs ys /\ length zs = length l).
Proof.
  intros X f t R l H. induction H as [|x l Hx _ IH]; cbn [GramSyntax.each GenProofs.each flat_map].
  - apply f_ret. split; [constructor|reflexivity].
  - eapply f_bind; [exact Hx|]. intros y z Hyz. eapply f_bind0; [exact IH|]. intros ys zs [H1 H2]. apply f_ret. split; [constructor; assumption|cbn; congruence].
Qed.
Lemma f_group : forall X (f : X -> GramSyntax.el G) (t : X -> GenProofs.el bytes) (R : X -> list bytes) l mk gmk,
  (mk = t_and /\ gmk = (fun l : list G => GAnd l)) \/ (mk = t_or /\ gmk = (fun l : list G => GOr l)) -> l <> [] -> Forall (fun x => follows (R x) (f x) (t x) says) l ->
  follows (flat_map R l) (GramSyntax.bind (GramSyntax.each f l) (fun xs => GramSyntax.ret (GramSyntax.group gmk xs))) (GenProofs.bind (GenProofs.each t l) (fun xs => GenProofs.ret (GenProofs.group mk xs))) says.
Proof.
  intros X f t R l mk gmk Hmk Hne H. eapply f_bind0; [apply f_each; exact H|]. intros ys zs [H1 H2]. apply f_ret. unfold says.
  assert (E : erase (GramSyntax.group gmk ys) = GramSyntax.group gmk (map erase ys)) by (destruct ys as [|g [|g2 ys]]; destruct Hmk as [[_ ->]|[_ ->]]; reflexivity).
  rewrite E. apply reads_group; [exact Hmk|destruct zs, l; try discriminate; congruence|]. clear -H1. induction H1; constructor; auto.
Qed.
Lemma f_all : (forall f, ok_factor f = true -> plain_factor f = true -> follows (refs_factor f) (e_factor marker f) (t_factor f) says) /\
  (forall i, ok_item i = true -> plain_item i = true -> follows (refs_item i) (e_item marker i) (t_item i) says) /\
  (forall s, ok_suffix s = true -> plain_suffix s = true -> forall g t, says t g -> follows (refs_suffix s) (e_suffix marker s g) (t_suffix s t) says).
Proof.
  assert (Lst : forall f (z : bool), (ok_factor f = true -> plain_factor f = true -> follows (refs_factor f) (e_factor marker f) (t_factor f) says) -> ok_factor f = true -> plain_factor f = true -> forall g t, says t g ->
    follows (refs_factor f) (GramSyntax.bind (e_factor marker f) (fun b => GramSyntax.bind GramSyntax.fresh (fun i => GramSyntax.ret (GList i g b z))))
      (GenProofs.bind (t_factor f) (fun b => GenProofs.ret (app2 (if z then x_list0 else x_list) t b))) says).
  { intros f z IH Ho Hp g t Hg. eapply f_bind0; [apply IH; assumption|]. intros b tb Hb. apply f_fresh. intro i. apply f_ret. unfold says. cbn [erase]. apply reads_list2; assumption. }
  apply syntax_ind.
  - intros n _ Hp. apply f_name. exact Hp.
  - intros l _ Hp. cbn [plain_factor refs_factor] in *. apply f_token; [intro H; apply reads_char; assumption|]. intros r ->. cbv in Hp. discriminate.
  - intros l _ Hp. discriminate.
  - intros l _ _. cbn [e_factor t_factor refs_factor]. destruct (beq l [49]); [apply f_ret; apply reads_true; assumption|]. intros d y d' e E. discriminate.
  - intros o f IH Ho Hp. cbn [ok_factor plain_factor] in *. apply andb_true_iff in Hp. destruct Hp as [Hp1 Hp2].
    change (follows (refs_factor f) (GramSyntax.bind (e_factor marker f) (prefix o)) (GenProofs.bind (t_factor f) (fun g => GenProofs.ret (app1 (pre_text o) g))) says).
    eapply f_bind0; [apply IH; assumption|]. intros g t Hg.
    assert (X : reads (app1 (pre_text o) t) (sem_pre o (erase g))) by (apply reads_pre; [intros ->; discriminate|exact Hg]).
    destruct o; cbn [prefix]; try discriminate; try (apply f_fresh; intro i); apply f_ret; exact X.
  - intros g IH Ho Hp. cbn [ok_factor plain_factor refs_factor] in *. apply andb_true_iff in Ho. destruct Ho as [Ho1 Ho2].
    apply f_group; [auto|destruct g; discriminate|]. rewrite forallb_forall in Hp, Ho2. rewrite Forall_forall in *. intros e He. specialize (Ho2 e He). apply andb_true_iff in Ho2. destruct Ho2 as [O1 O2].
    apply f_group; [auto|destruct e; discriminate|]. specialize (Hp e He). rewrite forallb_forall in *. specialize (IH e He). rewrite Forall_forall in *. auto.
  - intros _ _. apply f_ret. apply reads_nil. assumption.
  - intros f ss IHf IHs Ho Hp. cbn [ok_item plain_item refs_item] in *. apply andb_true_iff in Ho, Hp. destruct Ho as [O1 O2]. destruct Hp as [P1 P2].
    change (follows (refs_factor f ++ flat_map refs_suffix ss) (GramSyntax.bind (e_factor marker f) (CompilerProofs.go_suffixes marker ss)) (GenProofs.bind (t_factor f) (GenProofs.go_suffixes ss)) says).
    eapply f_bind; [apply IHf; assumption|]. intros g t Hg. clear IHf O1 P1 f.
    revert g t Hg. induction IHs as [|s ss Hs _ IH]; intros g t Hg; cbn [flat_map CompilerProofs.go_suffixes GenProofs.go_suffixes].
    + apply f_ret. exact Hg.
    + cbn [forallb] in *. apply andb_true_iff in O2, P2. destruct O2 as [O2 O3]. destruct P2 as [P2 P3]. eapply f_bind; [apply Hs; assumption|]. intros g' t' Hg'. apply IH; assumption.
  - intros f IH. exact (Lst f false IH).
  - intros f IH. exact (Lst f true IH).
  - intros n _ Hp g t Hg. cbn [plain_suffix e_suffix t_suffix refs_suffix] in *. intros d y d' e E K Ho Hdec. unfold the_mark in E. destruct (marker g n (d_m d)) as [[g' m]|[p m]] eqn:Em; [|discriminate]. injection E as <- <-.
    eexists _, e. split; [reflexivity|]. split.
    + destruct (adds_refl d e K) as (X1 & X2 & X3 & X4 & X5 & X6 & X7 & X8). repeat (split; [assumption|]). assumption.
    + unfold says. rewrite (Hw _ _ _ _ _ Em). apply reads_mark; assumption.
Qed.
Lemma f_gram : forall g, ok_gram g = true -> plain_gram g = true -> follows (refs_gram g) (e_gram marker g) (t_gram g) says.
Proof.
  intros g Ho Hp. unfold ok_gram, plain_gram in *. apply andb_true_iff in Ho. destruct Ho as [O1 O2]. rewrite forallb_forall in *.
  apply f_group; [auto|destruct g; discriminate|]. apply Forall_forall. intros e He. specialize (O2 e He). unfold ok_expr in O2. apply andb_true_iff in O2. destruct O2 as [O2 O3].
  apply f_group; [auto|destruct e; discriminate|]. specialize (Hp e He). rewrite forallb_forall in *. apply Forall_forall. intros i Hi. apply f_all; auto.
Qed.
End Sim.
